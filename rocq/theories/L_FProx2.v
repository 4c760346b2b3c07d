(** L_FProx2: prox_project in double arithmetic on moderate entries. *)
From Verif Require Import Base M_Float M_Start M_Prox M_FProx L_Float L_Start L_FProx.
From Flocq Require Import Core Relative Plus_error BinarySingleNaN.
From Coq Require Import ZArith List Bool Arith Reals Lia Lra Permutation Psatz.
Import ListNotations.
Local Open Scope R_scope.

Lemma max_index : forall l : list b64, l <> [] -> exists i, (i < length l)%nat /\ forall x, In x l -> B2R x <= B2R (nth i l b64_zero).
Proof.
  induction l as [|a l IH]; intros N; [congruence|]. destruct l as [|b l].
  - exists 0%nat. split; [cbn; lia|]. intros x [<-|[]]. cbn. lra.
  - destruct IH as (i&L&H); [discriminate|]. destruct (Rle_or_lt (B2R a) (B2R (nth i (b :: l) b64_zero))) as [C|C].
    + exists (S i). split; [cbn in *; lia|]. intros x [<-|HX]; cbn [nth]; auto.
    + exists 0%nat. split; [cbn; lia|]. intros x [<-|HX]; cbn [nth]; [lra|]. specialize (H x HX). lra.
Qed.
Lemma select_in : forall (y th : list b64) i, (i < length y)%nat -> length th = length y -> Bltb (nth i th b64_zero) (nth i y b64_zero) = true -> mask_select (map2 (fun yi ti => Bltb ti yi) y th) th <> [].
Proof.
  induction y as [|x y IH]; intros [|t th] i L E H; cbn in L, E; try lia; try discriminate E. cbn [map2 mask_select]. destruct (Bltb t x) eqn:C; [discriminate|].
  destruct i as [|i]; cbn [nth] in H; [congruence|]. apply (IH th i); auto. lia.
Qed.
Lemma select_sub : forall m (l : list b64) x, In x (mask_select m l) -> In x l.
Proof. induction m as [|[] m IH]; intros [|y l] x H; cbn in *; try tauto; firstorder. Qed.
Lemma nmaximum_in : forall (l : list b64), l <> [] -> exists m, @nmaximum b64 BNum l = Ok m /\ In m l.
Proof.
  intros [|x l] H; [congruence|]. cbn [nmaximum]. eexists. split; [reflexivity|]. clear H. revert x. induction l as [|y l IH]; intros x; cbn [fold_left]; [left; auto|].
  change (@nmax b64 BNum x y) with (if Bltb x y then y else x). destruct (Bltb x y); [right; apply IH|]. destruct (IH x) as [E|E]; [left; exact E|right; right; exact E].
Qed.
Definition rnd (x : R) : R := round radix2 (SpecFloat.fexp 53 1024) (round_mode mode_NE) x.
Lemma sub_shrink : forall x t : b64, is_finite x = true -> is_finite t = true -> 0 <= B2R x -> 0 <= B2R t -> is_finite (b64_sub x t) = true /\ B2R (b64_sub x t) = rnd (B2R x - B2R t) /\ B2R (b64_sub x t) <= B2R x.
Proof.
  intros x t FX FT PX PT. pose proof (Bminus_correct 53 1024 prec_pos prec_emax mode_NE x t FX FT) as C. fold (rnd (B2R x - B2R t)) in C.
  assert (VE : Valid_exp (SpecFloat.fexp 53 1024)) by (apply fexp_correct; exact prec_pos). assert (VR : Valid_rnd (round_mode mode_NE)) by apply valid_rnd_N.
  assert (U : rnd (B2R x - B2R t) <= B2R x) by (apply round_le_generic; auto; [apply generic_format_B2R|lra]).
  assert (L : - B2R t <= rnd (B2R x - B2R t)) by (apply round_ge_generic; auto; [apply generic_format_opp, generic_format_B2R|lra]).
  pose proof (abs_B2R_lt_emax 53 1024 x) as AX. pose proof (abs_B2R_lt_emax 53 1024 t) as AT. apply Rabs_lt_inv in AX. apply Rabs_lt_inv in AT.
  rewrite Rlt_bool_true in C by (apply Rabs_lt; lra). destruct C as (C1&C2&_). unfold b64_sub. rewrite C1. auto.
Qed.
Lemma clip_one : forall x : b64, is_finite x = true -> let z := if Bltb x b64_zero then b64_zero else x in is_finite z = true /\ B2R z = Rmax (B2R x) 0.
Proof.
  intros x F. cbv zeta. rewrite Bltb_correct by (auto; reflexivity). change (B2R b64_zero) with 0. destruct (Rlt_bool_spec (B2R x) 0) as [C|C].
  - split; [reflexivity|]. rewrite Rmax_right by lra. reflexivity.
  - split; [exact F|]. rewrite Rmax_left by lra. reflexivity.
Qed.
(** the statement of the property *)
Definition moderate (y : list b64) : Prop :=
  y <> [] /\ (Z.of_nat (length y) <= 2 ^ 40)%Z /\
  forall x, In x y -> is_finite x = true /\ B2R x * (INR (length y) * INR (length y)) <= bpow radix2 50.
Definition shifted (y r y' : list b64) (theta : R) : Prop :=
  Forall2 (fun x z => is_finite z = true /\ B2R z = Rmax (B2R x) 0) y y' /\
  Forall2 (fun x z => is_finite z = true /\ B2R z = Rmax (rnd (Rmax (B2R x) 0 - theta)) 0 /\ B2R z <= Rmax (B2R x) 0) y r.
Lemma p_safe_thr : forall y, moderate y -> exists r y' theta, prox_project64 y = Ok (r, y') /\ 0 <= theta /\ (theta = 0 \/ exists x, In x y /\ theta < B2R x) /\ shifted y r y' theta /\
  exists j, (j < length y)%nat /\ theta = Rmax (B2R (nth j (@thresholds b64 BNum (@cumsum b64 BNum (@sort_desc b64 BNum (@clip0 b64 BNum y)))) b64_zero)) 0.
Proof.
  intros y (NE&HK&HF). rewrite p_same by (intros x H; destruct (HF x H) as [F _]; destruct x; auto; discriminate F).
  assert (CF : Forall2 (fun x z => is_finite z = true /\ B2R z = Rmax (B2R x) 0) y (@clip0 b64 BNum y)).
  { unfold clip0. cbn [nltb n0 BNum]. assert (G : forall l, (forall x, In x l -> is_finite x = true) -> Forall2 (fun x z : b64 => is_finite z = true /\ B2R z = Rmax (B2R x) 0) l (map (fun x => if Bltb x b64_zero then b64_zero else x) l)).
    { induction l as [|x l IH]; intros H; constructor; [apply clip_one, H; left; auto|apply IH; intros; apply H; right; auto]. } apply G. intros x H. apply HF; auto. }
  set (c := @clip0 b64 BNum y) in *. assert (LC : length c = length y) by (unfold c, clip0; apply map_length).
  assert (CN : c <> []). { destruct c; [destruct y; [congruence|discriminate LC]|discriminate]. }
  assert (CB : forall z, In z c -> is_finite z = true /\ 0 <= B2R z /\ (B2R z = 0 \/ exists x, In x y /\ B2R x = B2R z)).
  { intros z HZ. clear - CF HZ. induction CF as [|x z0 y c [F V] H IH]; [destruct HZ|]. destruct HZ as [<-|HZ].
    - split; auto. rewrite V. split; [apply Rmax_r|]. destruct (Rle_or_lt (B2R x) 0) as [C|C]; [left; rewrite Rmax_right by lra; auto|right; exists x; split; [left; auto|rewrite Rmax_left by lra; auto]].
    - destruct (IH HZ) as (A&B&[D|(x'&D&E)]); split; auto; split; auto. right. exists x'. split; auto. right. auto. }
  destruct (max_index c CN) as (i&L&HM). set (M := nth i c b64_zero) in *. assert (IM : In M c) by (apply nth_In; auto). destruct (CB M IM) as (FM&PM&OM).
  assert (MB : B2R M * (INR (length y) * INR (length y)) <= bpow radix2 50). { destruct OM as [->|(x&HX&<-)]; [rewrite Rmult_0_l; apply bpow_ge_0|apply HF; auto]. }
  assert (TH : forall j, (j < length c)%nat -> let t := nth j (@thresholds b64 BNum (@cumsum b64 BNum (@sort_desc b64 BNum c))) b64_zero in is_finite t = true /\ B2R t < B2R M).
  { intros j LJ. cbv zeta. apply (safe_th c (B2R M)); auto; try (rewrite LC; auto); try lra. intros x HX. destruct (CB x HX) as (A&B&_). split; [split; auto|auto]. }
  unfold prox_project. fold c. cbn [nltb BNum].
  set (th := @thresholds b64 BNum (@cumsum b64 BNum (@sort_desc b64 BNum c))) in *.
  assert (LT : length th = length c). { unfold th. rewrite thr_length. unfold cumsum. rewrite cs_length. symmetry. apply Permutation_length, sort_perm. }
  destruct (nmaximum_in (mask_select (map2 (fun yi ti => Bltb ti yi) c th) th)) as (m&EM&HI).
  { apply (select_in c th i); auto. destruct (TH i L) as [A B]. rewrite Bltb_correct by auto. apply Rlt_bool_true. exact B. }
  assert (MT : exists j, (j < length c)%nat /\ m = nth j th b64_zero). { apply select_sub in HI. apply (In_nth _ _ b64_zero) in HI. destruct HI as (j&LJ&EJ). exists j. split; [lia|auto]. } destruct MT as (j&LJ&EJ). destruct (TH j LJ) as [Fm Lm]. rewrite <- EJ in Fm, Lm.
  rewrite EM. cbn [bind]. set (theta := @nmax b64 BNum m (@n0 b64 BNum)).
  assert (T : is_finite theta = true /\ 0 <= B2R theta /\ (B2R theta = 0 \/ B2R theta < B2R M) /\ B2R theta = Rmax (B2R m) 0).
  { unfold theta, nmax. cbn [nltb n0 BNum]. rewrite Bltb_correct by (auto; reflexivity). change (B2R b64_zero) with 0. destruct (Rlt_bool_spec (B2R m) 0); [rewrite Rmax_right by lra; split; [reflexivity|cbn; lra]|rewrite Rmax_left by lra; split; [auto|lra]]. }
  destruct T as (FT&PT&OT&MX). eexists. exists c, (B2R theta). split; [reflexivity|]. split; [exact PT|]. split.
  { destruct OT as [OT|OT]; [left; exact OT|]. destruct OM as [Z|(x&HX&EX)]; [left; lra|right; exists x; split; [auto|rewrite EX; exact OT]]. }
  split; [|exists j; split; [rewrite <- LC; exact LJ|fold c; fold th; rewrite <- EJ; exact MX]]. split; [exact CF|]. clear - CF FT PT. unfold clip0. cbn [nsub nltb n0 BNum]. rewrite map_map. induction CF as [|x z y c [F V] H IH]; cbn [map]; constructor; [|exact IH].
  assert (PZ : 0 <= B2R z) by (rewrite V; apply Rmax_r). destruct (sub_shrink z theta F FT PZ PT) as (A&B&C). destruct (clip_one _ A) as [D E]. cbv zeta in D, E. split; [exact D|]. rewrite E. split; [rewrite B, V; reflexivity|]. rewrite <- V. apply Rmax_lub; auto.
Qed.
Lemma p_safe : forall y, moderate y -> exists r y' theta, prox_project64 y = Ok (r, y') /\ 0 <= theta /\ (theta = 0 \/ exists x, In x y /\ theta < B2R x) /\ shifted y r y' theta.
Proof. intros y H. destruct (p_safe_thr y H) as (r&y'&t&A&B&C&D&_). exists r, y', t. auto. Qed.

(** *** a vector whose positive part sums to less than 1 is only clipped *)
Definition pos_sum (y : list b64) : R := fold_right (fun x a => Rmax (B2R x) 0 + a) 0 y.
Lemma pos_sum_clip : forall y, (forall x, In x y -> is_finite x = true) -> rsum (@clip0 b64 BNum y) = pos_sum y.
Proof.
  induction y as [|x y IH]; intros H; [reflexivity|]. destruct (clip_one x) as [_ V]; [apply H; left; auto|]. cbv zeta in V. unfold clip0. cbn [map nltb n0 BNum].
  match goal with |- rsum (?a :: ?l) = _ => change (B2R a + rsum l = Rmax (B2R x) 0 + pos_sum y) end. rewrite V. f_equal. apply IH. intros. apply H. right. auto.
Qed.
Lemma rsum_app : forall l l', rsum (l ++ l') = rsum l + rsum l'.
Proof. induction l as [|x l IH]; intros l'; [unfold rsum; cbn; lra|]. change (rsum ((x :: l) ++ l')) with (B2R x + rsum (l ++ l')). rewrite IH. change (rsum (x :: l)) with (B2R x + rsum l). lra. Qed.
Lemma rsum_perm : forall l l', Permutation l l' -> rsum l = rsum l'.
Proof. intros l l' H. induction H; unfold rsum in *; cbn in *; lra. Qed.
Lemma pos_sum_ge : forall y x, In x y -> B2R x <= pos_sum y /\ 0 <= pos_sum y.
Proof.
  assert (P : forall y, 0 <= pos_sum y). { induction y as [|x y IH]; [apply Rle_refl|]. change (pos_sum (x :: y)) with (Rmax (B2R x) 0 + pos_sum y). pose proof (Rmax_r (B2R x) 0). lra. }
  induction y as [|a y IH]; intros x H; [destruct H|]. split; [|apply P]. change (pos_sum (a :: y)) with (Rmax (B2R a) 0 + pos_sum y). pose proof (P y). pose proof (Rmax_r (B2R a) 0). pose proof (Rmax_l (B2R a) 0). destruct H as [->|H]; [lra|]. destruct (IH x H). lra.
Qed.
Lemma p_inside : forall y, y <> [] -> (Z.of_nat (length y) <= 2 ^ 25)%Z -> (forall x, In x y -> is_finite x = true) -> pos_sum y <= 1 - 2 * (INR (length y) * uu) ->
  exists r y', prox_project64 y = Ok (r, y') /\ Forall2 (fun x z => is_finite z = true /\ B2R z = Rmax (B2R x) 0) y r /\ Forall2 (fun x z => is_finite z = true /\ B2R z = Rmax (B2R x) 0) y y'.
Proof.
  intros y NE HK HF HS. pose proof uu_pos as UP. pose proof uu_le as UL. set (K := INR (length y)) in *. assert (K0 : 0 <= K) by apply pos_INR.
  assert (KB : K <= bpow radix2 25) by (unfold K; rewrite INR_IZR_INZ, <- (IZR_Zpower radix2) by lia; apply IZR_le; exact HK).
  assert (MO : moderate y). { split; auto. split; [lia|]. intros x H. split; auto. fold K. destruct (pos_sum_ge y x H) as [A B]. assert (B2R x <= 1) by nra. change 50%Z with (25 + 25)%Z. rewrite bpow_plus. assert (K * K <= bpow radix2 25 * bpow radix2 25) by (apply Rmult_le_compat; auto). assert (0 <= K * K) by nra. nra. }
  destruct (p_safe_thr y MO) as (r&y'&theta&A&B&_&[D1 D2]&j&LJ&ET). exists r, y'. split; [exact A|]. split; [|exact D1].
  assert (TZ : theta = 0).
  { rewrite ET. apply Rmax_right. set (c := @clip0 b64 BNum y). set (u := @sort_desc b64 BNum c). assert (LC : length c = length y) by (unfold c, clip0; apply map_length).
    assert (LU : length u = length y) by (rewrite <- LC; unfold u; symmetry; apply Permutation_length, sort_perm).
    assert (NU : Forall L_Start.nonneg u). { eapply Permutation_Forall; [apply sort_perm|]. apply Forall_forall. intros z HZ. unfold c, clip0 in HZ. apply in_map_iff in HZ. destruct HZ as (x&<-&HX). cbn [nltb n0 BNum]. destruct (clip_one x (HF x HX)) as [F V]. cbv zeta in F, V. split; auto. rewrite V. apply Rmax_r. }
    assert (SU : rsum u = pos_sum y) by (unfold u; rewrite <- (rsum_perm _ _ (sort_perm c)); apply pos_sum_clip; auto).
    set (n := S j). assert (FN : Forall L_Start.nonneg (firstn n u) /\ Forall L_Start.nonneg (skipn n u)) by (apply Forall_app; rewrite firstn_skipn; auto). destruct FN as [FA FB].
    assert (SF : 0 <= rsum (firstn n u) <= pos_sum y). { assert (E2 : rsum u = rsum (firstn n u) + rsum (skipn n u)) by (rewrite <- rsum_app, firstn_skipn; reflexivity). rewrite <- SU, E2. pose proof (L_Start.rsum_pos _ FA). pose proof (L_Start.rsum_pos _ FB). lra. }
    pose proof (cumsum_sums u b64_zero [] j (sum_nil _ _) ltac:(lia)) as SS. cbn [app] in SS. fold n in SS. set (s := nth j (@cumsum_from b64 BNum b64_zero u) b64_zero) in SS.
    assert (LF : length (firstn n u) = n) by (apply firstn_length_le; unfold n; lia). assert (NK : INR n <= K) by (apply le_INR; unfold n; lia).
    assert (P1 : bpow radix2 25 * uu <= 1 / 1024). { unfold uu. rewrite <- bpow_plus. replace (1 / 1024) with (bpow radix2 (-10)) by (cbn; lra). apply bpow_le. lia. }
    assert (KU : K * uu <= 1 / 1024) by nra. assert (NU2 : INR n * uu <= K * uu) by nra. pose proof (pow_up_lin n ltac:(lra)) as PU. pose proof (L_Start.pow_up n) as P0.
    assert (BG : rsum (firstn n u) * (1 + uu) ^ n <= 1). { apply Rle_trans with ((1 - 2 * (K * uu)) * (1 + 2 * (K * uu))); [|nra]. apply Rmult_le_compat; lra. }
    assert (B10 : 1 < bpow radix2 1024) by (change 1 with (bpow radix2 0); apply bpow_lt; lia).
    destruct (sums_bound s (firstn n u) SS FA) as (FS&SL&SB); [rewrite LF; lra|]. rewrite LF in SL, SB. pose proof (L_Start.pow_down n) as PD.
    assert (S0 : 0 <= B2R s) by nra. assert (S1 : B2R s <= 1) by lra.
    rewrite thr_nth by (unfold cumsum; rewrite cs_length; fold u; lia). change (nth j (@cumsum b64 BNum u) b64_zero) with s. fold n.
    destruct (sub_error s FS) as (FD&e&E&VD). { split; auto. apply Rle_trans with 1; auto. change 1 with (bpow radix2 0). apply bpow_le. lia. } apply Rabs_le_inv in E.
    destruct (of_nat_val n) as [Fn Vn]; [unfold n; lia|]. assert (N1 : 1 <= B2R (b64_of_nat n)) by (rewrite Vn; apply IZR_le; unfold n; lia).
    assert (D0 : -2 <= B2R (b64_sub s b64_one) <= 0) by (rewrite VD; nra).
    destruct (div_error2 (b64_sub s b64_one) (b64_of_nat n) FD Fn N1) as (FQ&VQ&_). { apply Rle_trans with (bpow radix2 1); [change (bpow radix2 1) with 2; apply Rabs_le; lra|apply bpow_le; lia]. }
    rewrite VQ. apply round_le_generic; [apply fexp_correct; exact prec_pos|apply valid_rnd_N|apply generic_format_0|]. apply Rmult_le_reg_r with (B2R (b64_of_nat n)); [lra|]. unfold Rdiv. rewrite Rmult_assoc, Rinv_l by lra. lra. }
  rewrite TZ in D2. clear - D1 D2. revert y' D1. induction D2 as [|x z y r (F&V&_) H IH]; intros y' D1; inversion D1 as [|? w ? ? [FW VW] D1']; subst; constructor; [|eapply IH; eauto].
  split; [exact F|]. rewrite V, Rminus_0_r. rewrite <- VW. unfold rnd. rewrite round_generic; [|apply valid_rnd_N|apply (generic_format_B2R 53 1024 w)]. rewrite VW. apply Rmax_left. apply Rmax_r.
Qed.
