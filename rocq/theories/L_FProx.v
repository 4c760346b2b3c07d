(** L_FProx: prox_project in double arithmetic. *)
From Verif Require Import Base M_Float M_Start M_Prox M_FProx L_Float L_Start.
From Flocq Require Import Core Relative Plus_error BinarySingleNaN.
From Coq Require Import ZArith List Bool Arith Reals Lia Lra Permutation Psatz.
Import ListNotations.
Local Open Scope R_scope.

(** *** the same function as the model over any numbers *)
Lemma filter_id : forall A (f : A -> bool) l, (forall x, In x l -> f x = true) -> filter f l = l.
Proof. induction l as [|x l IH]; intros H; cbn; [reflexivity|]. rewrite (H x) by (left; auto). f_equal. apply IH. intros. apply H. right. auto. Qed.
Lemma filter_none : forall A (f : A -> bool) l, (forall x, In x l -> f x = false) -> filter f l = [].
Proof. induction l as [|x l IH]; intros H; cbn; [reflexivity|]. rewrite (H x) by (left; auto). apply IH. intros. apply H. right. auto. Qed.
Lemma clip_nan : forall y x, In x (@clip0 b64 BNum y) -> (forall z, In z y -> is_nan z = false) -> is_nan x = false.
Proof. intros y x H N. unfold clip0 in H. apply in_map_iff in H. destruct H as (z&<-&H). cbn [nltb n0 BNum]. destruct (Bltb z b64_zero); [reflexivity|apply N; auto]. Qed.
Lemma p_same : forall y, (forall x, In x y -> is_nan x = false) -> prox_project64 y = @prox_project b64 BNum y.
Proof.
  intros y N. unfold prox_project64, prox_project, sort_desc64. rewrite filter_none, filter_id; [reflexivity| |].
  - intros x H. rewrite (clip_nan y x H N). reflexivity.
  - intros x H. exact (clip_nan y x H N).
Qed.

(** *** no position is selected when no threshold is below any number *)
Lemma none_selected : forall (y th : list b64), (forall t x, In t th -> Bltb t x = false) -> mask_select (map2 (fun yi ti => Bltb ti yi) y th) th = [].
Proof.
  induction y as [|x y IH]; intros [|t th] H; cbn [map2 mask_select]; auto. rewrite (H t x) by (left; auto). apply IH. intros. apply H. right. auto.
Qed.
Lemma sort_in : forall l x, In x (@sort_desc b64 BNum l) <-> In x l.
Proof.
  assert (I : forall a l x, In x (@insert_desc b64 BNum a l) <-> a = x \/ In x l).
  { intros a l x. induction l as [|y l IH]; cbn; [tauto|]. destruct (Bltb a y); cbn; [rewrite IH|]; tauto. }
  induction l as [|a l IH]; intros x; cbn [sort_desc fold_right]; [tauto|]. change (fold_right insert_desc [] l) with (@sort_desc b64 BNum l). rewrite I, IH. cbn. tauto.
Qed.
Lemma sort_perm : forall l, Permutation l (@sort_desc b64 BNum l).
Proof.
  assert (I : forall a l, Permutation (a :: l) (@insert_desc b64 BNum a l)).
  { intros a l. induction l as [|y l IH]; cbn; [reflexivity|]. destruct (Bltb a y); [|reflexivity]. rewrite perm_swap. constructor. exact IH. }
  induction l as [|a l IH]; cbn [sort_desc fold_right]; [constructor|]. etransitivity; [|apply I]. constructor. exact IH.
Qed.
Lemma thr_nth : forall sv i, (i < length sv)%nat -> nth i (@thresholds b64 BNum sv) b64_zero = b64_div (b64_sub (nth i sv b64_zero) b64_one) (b64_of_nat (S i)).
Proof.
  intros sv i H. unfold thresholds. cbn [ndiv nsub n1 nof BNum]. change (S i) with (1 + i)%nat. generalize 1%nat. revert i H. induction sv as [|s sv IH]; intros i H m; [cbn in H; lia|]. cbn [length seq map2]. destruct i as [|i].
  - cbn [nth]. rewrite Nat.add_0_r. reflexivity.
  - cbn [nth]. rewrite IH by (cbn in H; lia). do 2 f_equal. lia.
Qed.
Lemma thr_length : forall sv, length (@thresholds b64 BNum sv) = length sv.
Proof. intros sv. unfold thresholds. generalize 1%nat. induction sv as [|s sv IH]; intros m; cbn; auto. Qed.
Lemma thr_in : forall sv t, In t (@thresholds b64 BNum sv) -> exists s k, In s sv /\ (1 <= k <= length sv)%nat /\ t = b64_div (b64_sub s b64_one) (b64_of_nat k).
Proof.
  intros sv t H. apply (In_nth _ _ b64_zero) in H. destruct H as (i&L&E). rewrite thr_length in L. rewrite thr_nth in E by auto. exists (nth i sv b64_zero), (S i). split; [apply nth_In; auto|]. split; [lia|auto].
Qed.
Lemma cs_length : forall l a, length (@cumsum_from b64 BNum a l) = length l.
Proof. induction l as [|x l IH]; intros a; cbn; auto. Qed.

(** NaN *)
Lemma nan_add : forall x y : b64, is_nan x = true -> is_nan (b64_add x y) = true.
Proof. intros [s|s| |s m e H] y N; try discriminate N. destruct y; reflexivity. Qed.
Lemma nan_add_r : forall x y : b64, is_nan y = true -> is_nan (b64_add x y) = true.
Proof. intros x [s|s| |s m e H] N; try discriminate N. destruct x; reflexivity. Qed.
Lemma nan_thr : forall x d : b64, is_nan x = true -> is_nan (b64_div (b64_sub x b64_one) d) = true.
Proof. intros [s|s| |s m e H] d N; try discriminate N. destruct d; reflexivity. Qed.
Lemma nan_ltb : forall x y : b64, is_nan x = true -> Bltb x y = false.
Proof. intros [s|s| |s m e H] y N; try discriminate N. destruct y; reflexivity. Qed.
Lemma cumsum_all : forall (Q : b64 -> Prop) l a, (forall x y, Q x -> In y l -> Q (b64_add x y)) -> Q a -> forall s, In s (@cumsum_from b64 BNum a l) -> Q s.
Proof.
  intros Q l. induction l as [|x l IH]; intros a S QA s H; cbn in H; [destruct H|]. assert (QX : Q (b64_add a x)) by (apply S; auto; left; auto).
  destruct H as [<-|H]; auto. apply (IH (b64_add a x)); auto. intros. apply S; auto. right. auto.
Qed.
Lemma cumsum_head : forall (Q : b64 -> Prop) h l, (forall x y, Q x -> In y l -> Q (b64_add x y)) -> Q (b64_add b64_zero h) -> forall s, In s (@cumsum b64 BNum (h :: l)) -> Q s.
Proof. intros Q h l S QH s H. unfold cumsum in H. cbn in H. destruct H as [<-|H]; auto. eapply cumsum_all; [|exact QH|exact H]. auto. Qed.
Lemma prox_fails : forall y (Q : b64 -> Prop), (forall s, In s (@cumsum b64 BNum (sort_desc64 (@clip0 b64 BNum y))) -> Q s) ->
  (forall s k x, Q s -> (1 <= k)%nat -> Bltb (b64_div (b64_sub s b64_one) (b64_of_nat k)) x = false) -> prox_project64 y = Err ValueError.
Proof.
  intros y Q S F. unfold prox_project64. rewrite none_selected; [reflexivity|]. intros t x H. apply thr_in in H. destruct H as (s&k&A&B&->). apply F; auto. lia.
Qed.
Lemma p_nan : forall y x, In x y -> is_nan x = true -> prox_project64 y = Err ValueError.
Proof.
  intros y x HI HN. apply (prox_fails y (fun s => is_nan s = true)).
  - unfold sort_desc64. assert (E : In x (@clip0 b64 BNum y)). { unfold clip0. apply in_map_iff. exists x. split; auto. cbn [nltb n0 BNum]. rewrite nan_ltb by auto. reflexivity. }
    assert (E2 : In x (filter is_nan (@clip0 b64 BNum y))) by (apply filter_In; auto).
    destruct (filter is_nan (@clip0 b64 BNum y)) as [|h r] eqn:EF; [destruct E2|]. cbn [app]. apply cumsum_head.
    + intros a b A _. apply nan_add. auto.
    + apply nan_add_r. assert (In h (filter is_nan (@clip0 b64 BNum y))) by (rewrite EF; left; auto). apply filter_In in H. tauto.
  - intros s k z A _. apply nan_ltb. apply nan_thr. auto.
Qed.
(** plus infinity *)
Definition pinf : b64 := B754_infinity false.
Definition no_ninf (x : b64) : Prop := is_nan x = false /\ Bltb x b64_zero = false.
Lemma inf_ltb : forall x, Bltb pinf x = false.
Proof. intros [[]|[]| |[] m e H]; reflexivity. Qed.
Lemma inf_add : forall x, no_ninf x -> b64_add pinf x = pinf.
Proof. intros [s|[]| |s m e H] [A B]; try discriminate A; try discriminate B; reflexivity. Qed.
Lemma of_nat_pos : forall k, (1 <= k)%nat -> b64_div pinf (b64_of_nat k) = pinf \/ is_nan (b64_div pinf (b64_of_nat k)) = true.
Proof.
  intros k H. unfold b64_of_nat. assert (S : Bsign (binary_normalize 53 1024 prec_pos prec_emax mode_NE (Z.of_nat k) 0 false) = false).
  { destruct (Z.of_nat k) as [|p|p] eqn:E; [lia| |lia]. pose proof (binary_normalize_correct 53 1024 prec_pos prec_emax mode_NE (Z.pos p) 0 false) as C. cbv zeta in C.
    assert (P : 0 < F2R (Float radix2 (Z.pos p) 0)) by (apply F2R_gt_0; reflexivity).
    match type of C with if ?b then _ else _ => destruct b end.
    - destruct C as (_&_&C3). rewrite C3. rewrite Rcompare_Gt by exact P. reflexivity.
    - set (z := binary_normalize _ _ _ _ _ _ _ _) in *. rewrite Rlt_bool_false in C by lra. destruct z as [s|s| |s m e HB]; cbn in C; try discriminate C. injection C as ->. reflexivity. }
  set (z := binary_normalize _ _ _ _ _ _ _ _) in *. destruct z as [s|s| |s m e HB]; cbn in S; subst; cbn; auto.
Qed.
Lemma inf_first : forall l, (forall x, In x l -> is_nan x = false) -> In pinf l -> exists r, @sort_desc b64 BNum l = pinf :: r.
Proof.
  assert (LI : forall x : b64, is_nan x = false -> Bltb x pinf = true \/ x = pinf) by (intros [[]|[]| |[] m e H] N; try discriminate N; auto).
  induction l as [|a l IH]; intros N H; [destruct H|]. cbn [sort_desc fold_right]. change (fold_right insert_desc [] l) with (@sort_desc b64 BNum l).
  destruct (LI a (N a (or_introl eq_refl))) as [LA|LA].
  - destruct H as [->|H]; [rewrite inf_ltb in LA; discriminate LA|]. destruct IH as [r E]; [intros; apply N; right; auto|auto|]. rewrite E. cbn [insert_desc nltb BNum]. rewrite LA. eexists. reflexivity.
  - subst a. destruct (@sort_desc b64 BNum l) as [|b r]; cbn [insert_desc nltb BNum]; [eexists; reflexivity|]. rewrite inf_ltb. eexists. reflexivity.
Qed.
Lemma clip_no_ninf : forall y x, In x (@clip0 b64 BNum y) -> is_nan x = false -> no_ninf x.
Proof. intros y x H N. split; auto. unfold clip0 in H. apply in_map_iff in H. destruct H as (z&<-&H). cbn [nltb n0 BNum] in *. destruct (Bltb z b64_zero) eqn:E; auto. Qed.
Lemma p_inf : forall y, In pinf y -> prox_project64 y = Err ValueError.
Proof.
  intros y HI. destruct (existsb is_nan y) eqn:EN; [apply existsb_exists in EN; destruct EN as (x&A&B); apply (p_nan y x); auto|].
  assert (N : forall x, In x y -> is_nan x = false). { intros x H. destruct (is_nan x) eqn:E; auto. assert (existsb is_nan y = true) by (apply existsb_exists; exists x; auto). congruence. }
  apply (prox_fails y (fun s => s = pinf)).
  - unfold sort_desc64. assert (NC : forall x, In x (@clip0 b64 BNum y) -> is_nan x = false) by (intros x H; apply (clip_nan y); auto).
    rewrite filter_none, filter_id by (intros x H; rewrite ?(NC x H); auto). cbn [app].
    destruct (inf_first (@clip0 b64 BNum y) NC) as [r E]. { unfold clip0. apply in_map_iff. exists pinf. split; auto. }
    rewrite E. apply (cumsum_head (fun s => s = pinf)); [|reflexivity]. intros a b -> HB. apply inf_add. assert (HS : In b (@sort_desc b64 BNum (@clip0 b64 BNum y))) by (rewrite E; right; auto). apply (proj1 (sort_in _ _)) in HS. apply (clip_no_ninf y); auto.
  - intros s k x -> HK. replace (b64_sub pinf b64_one) with pinf by reflexivity. destruct (of_nat_pos k HK) as [->|E]; [apply inf_ltb|apply nan_ltb; auto].
Qed.

(** *** a large first entry *)
Lemma none_at : forall (y th : list b64), Forall2 (fun x t => Bltb t x = false) y th -> mask_select (map2 (fun yi ti => Bltb ti yi) y th) th = [].
Proof. intros y th H. induction H as [|x t y th E H IH]; cbn [map2 mask_select]; auto. rewrite E. exact IH. Qed.
Lemma big_minus_one : forall M, generic_format radix2 (SpecFloat.fexp 53 1024) M -> bpow radix2 55 <= M -> round radix2 (SpecFloat.fexp 53 1024) (round_mode mode_NE) (M - 1) = M.
Proof.
  intros M F HM. set (r := round radix2 (SpecFloat.fexp 53 1024) (round_mode mode_NE) (M - 1)).
  assert (VE : Valid_exp (SpecFloat.fexp 53 1024)) by (apply fexp_correct; exact prec_pos).
  assert (N : Rnd_N_pt (generic_format radix2 (SpecFloat.fexp 53 1024)) (M - 1) r) by (apply (round_N_pt radix2 (SpecFloat.fexp 53 1024) (fun z => negb (Z.even z)))).
  destruct N as [FR NR]. specialize (NR M F). replace (M - (M - 1)) with 1 in NR by ring. rewrite Rabs_R1 in NR. apply Rabs_le_inv in NR.
  assert (MU : forall x, generic_format radix2 (SpecFloat.fexp 53 1024) x -> bpow radix2 54 <= x -> exists z, x = IZR z * 4).
  { intros x FX HX. rewrite FX. unfold F2R. cbn [Fnum Fexp]. set (e := cexp radix2 (SpecFloat.fexp 53 1024) x).
    assert (E : (2 <= e)%Z). { unfold e, cexp. assert (55 <= mag radix2 x)%Z by (apply mag_ge_bpow; rewrite Rabs_pos_eq; [exact HX|eapply Rle_trans; [apply bpow_ge_0|exact HX]]). unfold SpecFloat.fexp, SpecFloat.emin. lia. }
    exists (Ztrunc (scaled_mantissa radix2 (SpecFloat.fexp 53 1024) x) * 2 ^ (e - 2))%Z. rewrite mult_IZR. rewrite (IZR_Zpower radix2) by lia. change 4 with (bpow radix2 2). rewrite Rmult_assoc, <- bpow_plus. do 2 f_equal. lia. }
  assert (P55 : bpow radix2 55 = 2 * bpow radix2 54) by (change 55%Z with (1 + 54)%Z; rewrite bpow_plus; reflexivity).
  assert (P54 : 4 <= bpow radix2 54) by (change 4 with (bpow radix2 2); apply bpow_le; lia).
  destruct (MU M F) as [a Ea]; [lra|]. destruct (MU r FR) as [b Eb]; [lra|].
  assert (a = b); [|subst; congruence]. assert (-1 < IZR (a - b) < 1) by (rewrite minus_IZR; lra). destruct H as [H1 H2]. change (-1) with (IZR (-1)) in H1. apply lt_IZR in H1. apply lt_IZR in H2. lia.
Qed.
Definition zerov (x : b64) : Prop := is_finite x = true /\ B2R x = 0.
Lemma p_big : forall (M : b64) l, (Z.of_nat (length l) < 2 ^ 52)%Z -> is_finite M = true -> bpow radix2 55 <= B2R M -> (forall x, In x l -> is_finite x = true /\ B2R x <= 0) -> prox_project64 (M :: l) = Err ValueError.
Proof.
  intros M l LL FM HM HL. assert (P55 : 0 < bpow radix2 55) by apply bpow_gt_0.
  assert (NN : forall x, In x (M :: l) -> is_nan x = false). { intros x [<-|H]; [destruct M; auto; discriminate FM|]. destruct (HL x H) as [F _]. destruct x; auto; discriminate F. }
  rewrite p_same by auto. unfold prox_project.
  assert (CL : exists zs, @clip0 b64 BNum (M :: l) = M :: zs /\ length zs = length l /\ Forall zerov zs).
  { exists (@clip0 b64 BNum l). split; [|split; [apply map_length|]].
    - unfold clip0. cbn [map nltb n0 BNum]. rewrite Bltb_correct by (auto; reflexivity). rewrite Rlt_bool_false by (cbn; lra). reflexivity.
    - apply Forall_forall. intros x H. unfold clip0 in H. apply in_map_iff in H. destruct H as (z&<-&H). destruct (HL z H) as [F V]. cbn [nltb n0 BNum].
      rewrite Bltb_correct by (auto; reflexivity). cbn. destruct (Rlt_bool_spec (B2R z) 0); split; auto; cbn; lra. }
  destruct CL as (zs&->&LZ&Z0).
  assert (SO : exists r, @sort_desc b64 BNum (M :: zs) = M :: r /\ length r = length zs /\ Forall zerov r).
  { cbn [sort_desc fold_right]. change (fold_right insert_desc [] zs) with (@sort_desc b64 BNum zs). exists (@sort_desc b64 BNum zs).
    assert (ZS : Forall zerov (@sort_desc b64 BNum zs)) by (eapply Permutation_Forall; [apply sort_perm|exact Z0]). split; [|split; [symmetry; apply Permutation_length, sort_perm|auto]].
    destruct (@sort_desc b64 BNum zs) as [|b r]; [reflexivity|]. inversion ZS; subst. destruct H1 as [F V]. cbn [insert_desc nltb BNum]. rewrite Bltb_correct by auto. rewrite V. rewrite Rlt_bool_false by lra. reflexivity. }
  destruct SO as (r&->&LR&ZR).
  assert (SV : forall s, In s (@cumsum b64 BNum (M :: r)) -> is_finite s = true /\ B2R s = B2R M).
  { apply (cumsum_head (fun s => is_finite s = true /\ B2R s = B2R M)).
    - intros a b [FA VA] HB. rewrite Forall_forall in ZR. destruct (ZR b HB) as [FB VB]. pose proof (Bplus_correct 53 1024 prec_pos prec_emax mode_NE a b FA FB) as C. rewrite VA, VB, Rplus_0_r in C.
      rewrite round_generic in C; [|apply valid_rnd_N|apply generic_format_B2R]. rewrite Rlt_bool_true in C by apply abs_B2R_lt_emax. destruct C as (C1&C2&_). auto.
    - pose proof (Bplus_correct 53 1024 prec_pos prec_emax mode_NE b64_zero M eq_refl FM) as C. change (B2R b64_zero) with 0 in C. rewrite Rplus_0_l in C.
      rewrite round_generic in C; [|apply valid_rnd_N|apply generic_format_B2R]. rewrite Rlt_bool_true in C by apply abs_B2R_lt_emax. destruct C as (C1&C2&_). auto. }
  assert (D : forall s, In s (@cumsum b64 BNum (M :: r)) -> is_finite (b64_sub s b64_one) = true /\ B2R (b64_sub s b64_one) = B2R M).
  { intros s HS. destruct (SV s HS) as [FS VS]. destruct one_val as [F1 V1]. pose proof (Bminus_correct 53 1024 prec_pos prec_emax mode_NE s b64_one FS F1) as C. rewrite VS, V1 in C.
    rewrite big_minus_one in C; [|apply generic_format_B2R|exact HM]. rewrite Rlt_bool_true in C by apply abs_B2R_lt_emax. destruct C as (C1&C2&_). auto. }
  assert (LS : length (@cumsum b64 BNum (M :: r)) = S (length r)) by (unfold cumsum; rewrite cs_length; reflexivity).
  assert (Q : forall s k, In s (@cumsum b64 BNum (M :: r)) -> (1 <= k <= S (length r))%nat -> let t := b64_div (b64_sub s b64_one) (b64_of_nat k) in is_finite t = true /\ 0 <= B2R t /\ (k = 1%nat -> B2R t = B2R M)).
  { intros s k HS HK. cbv zeta. destruct (D s HS) as [FD VD]. destruct (of_nat_val k) as [FK VK]; [lia|]. assert (PK : 1 <= B2R (b64_of_nat k)) by (rewrite VK; apply IZR_le; lia).
    pose proof (Bdiv_correct 53 1024 prec_pos prec_emax mode_NE (b64_sub s b64_one) (b64_of_nat k) ltac:(lra)) as C. rewrite VD in C.
    set (q := B2R M / B2R (b64_of_nat k)) in *. assert (Q0 : 0 <= q <= B2R M). { unfold q. split; [apply Rmult_le_pos; [lra|left; apply Rinv_0_lt_compat; lra]|]. apply Rmult_le_reg_r with (B2R (b64_of_nat k)); [lra|]. unfold Rdiv. rewrite Rmult_assoc, Rinv_l by lra. nra. }
    assert (VE : Valid_exp (SpecFloat.fexp 53 1024)) by (apply fexp_correct; exact prec_pos). assert (VR : Valid_rnd (round_mode mode_NE)) by apply valid_rnd_N.
    assert (RL : 0 <= round radix2 (SpecFloat.fexp 53 1024) (round_mode mode_NE) q) by (apply round_ge_generic; auto; [apply generic_format_0|lra]).
    assert (RU : round radix2 (SpecFloat.fexp 53 1024) (round_mode mode_NE) q <= B2R M) by (apply round_le_generic; auto; [apply generic_format_B2R|lra]).
    rewrite Rlt_bool_true in C. - destruct C as (C1&C2&_). unfold b64_div. rewrite C1, C2. split; auto. split; auto. intros ->. unfold q. rewrite VK. cbn. unfold Rdiv. rewrite Rinv_1, Rmult_1_r. apply round_generic; auto. apply generic_format_B2R.
    - rewrite Rabs_pos_eq by auto. eapply Rle_lt_trans; [exact RU|]. pose proof (abs_B2R_lt_emax 53 1024 M) as A. rewrite Rabs_pos_eq in A by lra. exact A. }
  cbn [nltb BNum]. rewrite none_at; [reflexivity|].
  assert (LT : length (@thresholds b64 BNum (@cumsum b64 BNum (M :: r))) = S (length r)) by (rewrite thr_length; exact LS).
  destruct (@thresholds b64 BNum (@cumsum b64 BNum (M :: r))) as [|t0 ts] eqn:ET; [discriminate LT|]. constructor.
  - assert (E0 : t0 = nth 0 (@thresholds b64 BNum (@cumsum b64 BNum (M :: r))) b64_zero) by (rewrite ET; reflexivity). rewrite thr_nth in E0 by (rewrite LS; lia).
    destruct (Q (nth 0 (@cumsum b64 BNum (M :: r)) b64_zero) 1%nat) as (A&B&C); [apply nth_In; rewrite LS; lia|lia|]. rewrite E0. rewrite Bltb_correct by auto. apply Rlt_bool_false. rewrite C by auto. lra.
  - assert (TS : forall t, In t ts -> is_finite t = true /\ 0 <= B2R t).
    { intros t HT. assert (HT2 : In t (@thresholds b64 BNum (@cumsum b64 BNum (M :: r)))) by (rewrite ET; right; auto). apply thr_in in HT2. destruct HT2 as (s&k&A&B&->). rewrite LS in B. destruct (Q s k A B) as (A1&A2&_). auto. }
    cbn in LT. assert (L2 : length zs = length ts) by lia. clear - Z0 TS L2. revert ts TS L2. induction zs as [|z zs IH]; intros [|t ts] TS L2; try discriminate L2; constructor.
    + inversion Z0; subst. destruct H1 as [F V]. destruct (TS t (or_introl eq_refl)) as [FT VT]. rewrite Bltb_correct by auto. apply Rlt_bool_false. lra.
    + inversion Z0; subst. apply IH; auto. intros. apply TS. right. auto.
Qed.

(** *** moderate entries *)
Lemma cumsum_sums : forall l a la i, sums b64_add b64_zero a la -> (i < length l)%nat -> sums b64_add b64_zero (nth i (@cumsum_from b64 BNum a l) b64_zero) (la ++ firstn (S i) l).
Proof.
  induction l as [|x l IH]; intros a la i H L; [cbn in L; lia|]. assert (HX : sums b64_add b64_zero (b64_add a x) (la ++ [x])) by (eapply sum_add; [exact H|apply sum_one|reflexivity]).
  destruct i as [|i]; cbn [cumsum_from nth nadd BNum firstn]; [exact HX|]. specialize (IH _ _ i HX ltac:(cbn in L; lia)). rewrite <- app_assoc in IH. exact IH.
Qed.
Lemma sub_error : forall x : b64, is_finite x = true -> 0 <= B2R x <= bpow radix2 100 -> is_finite (b64_sub x b64_one) = true /\ exists e, Rabs e <= uu /\ B2R (b64_sub x b64_one) = (B2R x - 1) * (1 + e).
Proof.
  intros x FX RX. destruct one_val as [F1 V1]. destruct (@FLT_plus_error_N_ex radix2 (-1074) 53 prec_pos (fun z => negb (Z.even z)) (B2R x) (Ropp 1)) as (e&A&B).
  - apply (generic_format_B2R 53 1024 x).
  - apply generic_format_opp. rewrite <- V1. apply (generic_format_B2R 53 1024 b64_one).
  - assert (A' : Rabs e <= uu). { eapply Rle_trans; [exact A|]. rewrite u_ro_uu. pose proof uu_pos. apply Rmult_le_reg_r with (1 + uu); [lra|]. unfold Rdiv. rewrite Rmult_assoc, Rinv_l by lra. nra. }
    change (B2R x + Ropp 1) with (B2R x - 1) in B. pose proof (Bminus_correct 53 1024 prec_pos prec_emax mode_NE x b64_one FX F1) as C. rewrite V1 in C.
    assert (B' : round radix2 (SpecFloat.fexp 53 1024) (round_mode mode_NE) (B2R x - 1) = (B2R x - 1) * (1 + e)) by exact B. rewrite B' in C.
    rewrite Rlt_bool_true in C.
    + destruct C as (C1&C2&_). split; [exact C2|]. exists e. split; [exact A'|exact C1].
    + apply Rabs_le_inv in A'. pose proof uu_pos. pose proof uu_le. assert (1 <= bpow radix2 100) by (change 1 with (bpow radix2 0); apply bpow_le; lia).
      apply Rle_lt_trans with (bpow radix2 101); [|apply bpow_lt; lia]. change 101%Z with (1 + 100)%Z. rewrite bpow_plus. change (bpow radix2 1) with 2. apply Rabs_le. split; nra.
Qed.
Lemma div_error2 : forall x y : b64, is_finite x = true -> is_finite y = true -> 1 <= B2R y -> Rabs (B2R x) <= bpow radix2 102 ->
  is_finite (b64_div x y) = true /\ B2R (b64_div x y) = round radix2 (SpecFloat.fexp 53 1024) (round_mode mode_NE) (B2R x / B2R y) /\
  exists e h, Rabs e <= uu /\ Rabs h <= uu * uu /\ B2R (b64_div x y) = B2R x / B2R y * (1 + e) + h.
Proof.
  intros x y FX FY PY LX. set (q := B2R x / B2R y).
  assert (LQ : Rabs q <= bpow radix2 102). { unfold q, Rdiv. rewrite Rabs_mult, Rabs_inv, (Rabs_pos_eq (B2R y)) by lra. apply Rle_trans with (Rabs (B2R x) * 1); [|lra]. apply Rmult_le_compat_l; [apply Rabs_pos|]. rewrite <- Rinv_1. apply Rinv_le; lra. }
  destruct (error_N_FLT radix2 (-1074) 53 eq_refl (fun z => negb (Z.even z)) q) as (e&h&E1&E2&_&E3).
  change (/ 2 * bpow radix2 (- (53) + 1)) with (u_ro radix2 53) in E1. rewrite u_ro_uu in E1.
  assert (E2' : Rabs h <= uu * uu). { eapply Rle_trans; [exact E2|]. unfold uu. rewrite <- bpow_plus. change (/ 2) with (bpow radix2 (-1)). rewrite <- bpow_plus. apply bpow_le. lia. }
  pose proof (Bdiv_correct 53 1024 prec_pos prec_emax mode_NE x y ltac:(lra)) as C. fold q in C.
  assert (VE : Valid_exp (SpecFloat.fexp 53 1024)) by (apply fexp_correct; exact prec_pos). assert (VR : Valid_rnd (round_mode mode_NE)) by apply valid_rnd_N.
  assert (EE : round radix2 (SpecFloat.fexp 53 1024) (round_mode mode_NE) q = q * (1 + e) + h) by exact E3.
  rewrite Rlt_bool_true in C.
  - destruct C as (C1&C2&_). unfold b64_div. split; [congruence|]. split; [exact C1|]. exists e, h. split; auto. split; auto. rewrite C1. exact EE.
  - eapply Rle_lt_trans; [apply abs_round_le_generic; [exact VE|exact VR| |exact LQ]|apply bpow_lt; lia].
    apply (generic_format_bpow radix2 (SpecFloat.fexp 53 1024)). unfold SpecFloat.fexp, SpecFloat.emin. lia.
Qed.
Lemma rsum_firstn : forall n l c, (forall x, In x l -> B2R x <= c) -> (n <= length l)%nat -> rsum (firstn n l) <= INR n * c.
Proof.
  intros n l c H L. replace (INR n) with (INR (length (firstn n l))) by (rewrite firstn_length_le; auto). apply rsum_le. intros x HI. apply H. rewrite <- (firstn_skipn n l). apply in_or_app. auto.
Qed.
Lemma bp50 : bpow radix2 50 * uu = 1 / 8.
Proof. unfold uu. rewrite <- bpow_plus. cbn. lra. Qed.
Lemma bp40 : bpow radix2 40 * uu <= 1 / 1024.
Proof. unfold uu. rewrite <- bpow_plus. replace (1 / 1024) with (bpow radix2 (-10)) by (cbn; lra). apply bpow_le. lia. Qed.
Section Safe.
Variables (y : list b64) (B : R).
Hypothesis HB : forall x, In x y -> L_Start.nonneg x /\ B2R x <= B.
Hypothesis B0 : 0 <= B.
Hypothesis HK : (Z.of_nat (length y) <= 2 ^ 40)%Z.
Hypothesis HBK : B * (INR (length y) * INR (length y)) <= bpow radix2 50.
Let u := @sort_desc b64 BNum y.
Let th := @thresholds b64 BNum (@cumsum b64 BNum u).
Lemma safe_len : length u = length y. Proof using All. unfold u. symmetry. apply Permutation_length, sort_perm. Qed.
Lemma safe_th_len : length th = length y. Proof using All. unfold th. rewrite thr_length. unfold cumsum. rewrite cs_length. apply safe_len. Qed.
Lemma safe_K : forall n, (n <= length y)%nat -> INR n <= bpow radix2 40.
Proof using All. intros n H. rewrite INR_IZR_INZ. rewrite <- (IZR_Zpower radix2) by lia. apply IZR_le. change (radix2 ^ 40)%Z with (2 ^ 40)%Z. lia. Qed.
(** sums and thresholds are finite; a threshold is below every bound of all entries *)
Lemma safe_th : forall i M, (i < length y)%nat -> (forall x, In x y -> B2R x <= M) -> 0 <= M <= B -> is_finite (nth i th b64_zero) = true /\ B2R (nth i th b64_zero) < M.
Proof using All.
  intros i M L HM RM. set (n := S i). assert (N1 : 1 <= INR n) by (unfold n; rewrite S_INR; pose proof (pos_INR i); lra). pose proof uu_pos as UP. pose proof uu_le as UL.
  pose proof (safe_K n ltac:(unfold n; lia)) as KN. pose proof bp40 as B4. pose proof bp50 as B5. assert (NU : INR n * uu <= 1 / 1024) by nra.
  assert (NN : INR n * INR n <= INR (length y) * INR (length y)). { assert (INR n <= INR (length y)) by (apply le_INR; unfold n; lia). nra. }
  assert (MNN : M * (INR n * INR n) <= bpow radix2 50). { eapply Rle_trans; [|exact HBK]. apply Rmult_le_compat; nra. }
  assert (FU : Forall L_Start.nonneg (firstn n u)). { apply Forall_forall. intros x HX. apply HB. apply (Permutation_in x (Permutation_sym (sort_perm y))). rewrite <- (firstn_skipn n (sort_desc y)). apply in_or_app. left. exact HX. }
  assert (RU : rsum (firstn n u) <= INR n * M). { apply rsum_firstn; [|rewrite safe_len; unfold n; lia]. intros x HX. apply HM. apply (Permutation_in x (Permutation_sym (sort_perm y))). exact HX. }
  pose proof (rsum_pos _ FU) as RP. assert (LF : length (firstn n u) = n) by (apply firstn_length_le; rewrite safe_len; unfold n; lia).
  set (s := nth i (@cumsum b64 BNum u) b64_zero).
  assert (MN : INR n * M <= bpow radix2 50) by nra.
  assert (PU : (1 + uu) ^ n <= 1 + 2 * (INR n * uu)) by (apply pow_up_lin; lra).
  assert (P50 : bpow radix2 50 * 4 < bpow radix2 1024). { change 4 with (bpow radix2 2). rewrite <- bpow_plus. apply bpow_lt. lia. }
  pose proof (cumsum_sums u b64_zero [] i (sum_nil _ _) ltac:(rewrite safe_len; auto)) as SS. cbn [app] in SS. fold n in SS. change (nth i (cumsum_from b64_zero u) b64_zero) with s in SS.
  pose proof (pow_up n) as PW. destruct (sums_bound s (firstn n u) SS FU) as (FS&SL&SU). { rewrite LF. eapply Rle_lt_trans; [|exact P50]. nra. }
  rewrite LF in SL, SU. pose proof (pow_down n) as PD. assert (S0 : 0 <= B2R s) by nra. assert (S1 : B2R s <= INR n * M * (1 + 2 * (INR n * uu))) by nra.
  assert (S2 : B2R s <= bpow radix2 51). { change (bpow radix2 51) with (bpow radix2 (1 + 50)). rewrite bpow_plus. change (bpow radix2 1) with 2. nra. }
  assert (P100 : bpow radix2 51 <= bpow radix2 100) by (apply bpow_le; lia).
  destruct (sub_error s FS) as (FD&e1&E1&VD); [lra|]. apply Rabs_le_inv in E1.
  destruct (of_nat_val n) as [FN VN]; [unfold n; lia|]. assert (VN' : B2R (b64_of_nat n) = INR n) by (rewrite VN; symmetry; apply INR_IZR_INZ).
  assert (P1 : 1 <= bpow radix2 51) by (change 1 with (bpow radix2 0); apply bpow_le; lia).
  destruct (div_error2 (b64_sub s b64_one) (b64_of_nat n) FD FN) as (FT&RT&e2&h&E2&HH&VT).
  { rewrite VN'. exact N1. }
  { rewrite VD. apply Rle_trans with (bpow radix2 51 * 2); [apply Rabs_le; split; nra|]. change 2 with (bpow radix2 1). rewrite <- bpow_plus. apply bpow_le. lia. }
  unfold th. rewrite thr_nth by (unfold cumsum; rewrite cs_length, safe_len; auto). fold s n. split; [exact FT|].
  apply Rabs_le_inv in E2. apply Rabs_le_inv in HH. rewrite VN' in *. rewrite VD in RT, VT.
  set (t := B2R (b64_div (b64_sub s b64_one) (b64_of_nat n))) in *. set (q := (B2R s - 1) * (1 + e1) / INR n) in *.
  assert (QE : q * INR n = (B2R s - 1) * (1 + e1)) by (unfold q, Rdiv; rewrite Rmult_assoc, Rinv_l by lra; ring).
  assert (UU : INR n * (uu * uu) <= 1 / 1024) by nra.
  destruct (Rle_or_lt (B2R s) 1) as [C|C].
  - assert (Q0 : q <= 0). { apply Rmult_le_reg_r with (INR n); [lra|]. rewrite QE, Rmult_0_l. nra. }
    destruct (Rle_or_lt M 0) as [C0|C0].
    + assert (M0 : M = 0) by lra. rewrite M0 in *. assert (SZ : B2R s = 0) by nra. rewrite SZ in QE.
      apply Rmult_lt_reg_r with (INR n); [lra|]. rewrite Rmult_0_l, VT. replace ((q * (1 + e2) + h) * INR n) with (q * INR n * (1 + e2) + h * INR n) by ring. rewrite QE.
      assert (h * INR n <= 1 / 1024) by nra. nra.
    + apply Rle_lt_trans with 0; [|exact C0]. rewrite RT. apply round_le_generic; [apply fexp_correct; exact prec_pos|apply valid_rnd_N|apply generic_format_0|exact Q0].
  - apply Rmult_lt_reg_r with (INR n); [lra|]. rewrite VT. replace ((q * (1 + e2) + h) * INR n) with (q * INR n * (1 + e2) + h * INR n) by ring. rewrite QE.
    assert (H1 : h * INR n <= 1 / 1024) by nra.
    assert (H2 : (B2R s - 1) * (1 + e1) * (1 + e2) <= (B2R s - 1) * ((1 + uu) * (1 + uu))). { rewrite Rmult_assoc. apply Rmult_le_compat_l; [lra|]. apply Rmult_le_compat; lra. }
    set (w := INR n * uu) in *. set (v := M * INR n) in *.
    assert (W1 : uu <= w) by (unfold w; nra). assert (W0 : 0 <= w) by lra.
    assert (VW : v * w <= 1 / 8). { unfold v, w. replace (M * INR n * (INR n * uu)) with (M * (INR n * INR n) * uu) by ring. rewrite <- B5. apply Rmult_le_compat_r; lra. }
    assert (S3 : B2R s <= v * (1 + 2 * w)) by (unfold v; lra). assert (V0 : 0 <= v) by (unfold v; nra).
    assert (UUU : (1 + uu) * (1 + uu) <= 1 + 3 * w) by nra.
    assert (H3 : (B2R s - 1) * ((1 + uu) * (1 + uu)) <= v * (1 + 2 * w) * (1 + 3 * w) - 1).
    { apply Rle_trans with (B2R s * ((1 + uu) * (1 + uu)) - 1); [nra|]. assert (B2R s * ((1 + uu) * (1 + uu)) <= v * (1 + 2 * w) * (1 + 3 * w)); [|lra]. apply Rmult_le_compat; nra. }
    assert (H4 : v * (1 + 2 * w) * (1 + 3 * w) <= v + 6 * (v * w)). { assert (w <= 1 / 1024) by exact NU. assert (0 <= v * w) by (apply Rmult_le_pos; auto). assert (v * w * w <= v * w * (1 / 1024)) by (apply Rmult_le_compat_l; auto). nra. }
    replace (M * INR n) with v by reflexivity. lra.
Qed.
End Safe.
