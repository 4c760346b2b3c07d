(** L_Prelim: lemmas about the scripts prelim_examination*.py. *)
From Coq Require Import Ascii.
From Verif Require Import Base TreeSpec M_Tree M_Gamma M_Smooth M_Data M_Main M_Predict M_Analysis M_Prelim Spec SpecMain SpecPredict SpecPrelim.
From Verif Require Import L_Base L_Gamma2 L_Main L_Predict3.
From Coq Require Import Reals Lia Lra.
Local Open Scope R_scope.

(** ** Scores *)
Definition kind_for (ty : rf_type) : kind := match ty with TReg => Reg | _ => Class 0 end.

Lemma scoring_ok : forall ty (y p : list R), ty <> TOther -> length y = length p ->
  scoring ty y p = Ok (rated ty (length y) (fun o => nth o y 0) (fun o => nth o p 0)).
Proof.
  intros ty y p NT L. destruct ty; [| |congruence]; cbn [scoring rated].
  - unfold mean_squared_error. rewrite L, Nat.eqb_refl. f_equal. unfold mse_of. change (@ndiv R _) with Rdiv. f_equal.
    change (nsum (map2 (fun a b : R => (a - b) * (a - b)) y p) = sumto (length p) (fun o => (nth o y 0 - nth o p 0) * (nth o y 0 - nth o p 0))).
    rewrite nsum_map2 by auto. rewrite L. auto.
  - unfold accuracy_score. rewrite L, Nat.eqb_refl. f_equal. change (@ndiv R _) with Rdiv. f_equal.
    rewrite (nsum_map2 (fun a b => if neqb a b then n1 else n0)) by auto. rewrite L.
    rewrite <- (count_sum (fun o => if Req_EM_T (nth o y 0) (nth o p 0) then true else false)). apply sumto_ext. intros o Ho.
    change (@neqb R _ (nth o y 0) (nth o p 0)) with (Reqb (nth o y 0) (nth o p 0)). unfold Reqb. destruct (Req_EM_T _ _); reflexivity.
Qed.
Lemma scoring_bad : forall ty (y p : list R), length y <> length p -> scoring ty y p = Err ValueError.
Proof.
  intros ty y p L. apply Nat.eqb_neq in L. destruct ty; cbn [scoring]; auto; unfold mean_squared_error, accuracy_score; rewrite L; auto.
Qed.
Lemma rated_ext : forall ty n (y y' p p' : nat -> R), (forall o, (o < n)%nat -> y o = y' o) -> (forall o, (o < n)%nat -> p o = p' o) -> rated ty n y p = rated ty n y' p'.
Proof.
  intros ty n y y' p p' HY HP. assert (C : length (filter (fun o => if Req_EM_T (y o) (p o) then true else false) (seq 0 n)) =
    length (filter (fun o => if Req_EM_T (y' o) (p' o) then true else false) (seq 0 n))).
  { f_equal. apply filter_ext_in. intros o Ho. apply in_seq in Ho. rewrite HY, HP by lia. auto. }
  destruct ty; cbn [rated]; try (rewrite C; reflexivity). unfold mse_of. f_equal. apply sumto_ext. intros o Ho. rewrite HY, HP by auto. auto.
Qed.

(** ** regression_prep *)
Lemma set_at_ok : forall (l : list R) i v, (i < length l)%nat -> exists l', set_at l i v = Ok l' /\ length l' = length l /\
  nth i l' 0 = v /\ forall j, j <> i -> nth j l' 0 = nth j l 0.
Proof.
  intros l i v Hi. unfold set_at. pose proof (proj2 (Nat.ltb_lt _ _) Hi) as E. rewrite E. eexists. split; [reflexivity|].
  assert (LF : length (firstn i l) = i) by (apply firstn_length_le; lia).
  split; [rewrite app_length, LF; cbn [length]; rewrite skipn_length; lia|].
  split; [rewrite app_nth2 by lia; rewrite LF, Nat.sub_diag; auto|].
  intros j Hj. destruct (Nat.lt_ge_cases j i).
  - rewrite app_nth1 by lia. rewrite <- (firstn_skipn i l) at 2. rewrite app_nth1 by lia. auto.
  - rewrite app_nth2 by lia. rewrite LF. replace (j - i)%nat with (S (j - S i)) by lia. cbn [nth].
    rewrite <- (firstn_skipn (S i) l) at 2. rewrite app_nth2; rewrite firstn_length_le by lia; [f_equal; lia|lia].
Qed.

Section Prep.
Variables (fit : nat -> rf_type -> nat -> nat -> @frame R -> @fitted R) (train test : @frame R) (ty : rf_type) (ntree : nat).
Let step (v : list R) (it : nat * nat) : result (list R) :=
  let m := fit (fst it) ty (snd it) ntree train in
  do p <- predict_rows (f_kind m) (f_classes m) (f_trees m) (fst test);
  do s <- scoring ty (snd test) p;
  set_at v (fst it) s.

Lemma step_ok : forall v it, ty <> TOther -> fst test <> [] -> length (snd test) = length (fst test) ->
  step v it = set_at v (fst it) (forest_rated ty (fit (fst it) ty (snd it) ntree train) test).
Proof.
  intros v it NT NE L. unfold step. cbv zeta. set (m := fit _ _ _ _ _). unfold predict_rows. destruct (fst test) as [|x X] eqn:E; [congruence|].
  cbn [bind]. rewrite scoring_ok by (auto; rewrite map_length; auto). cbn [bind]. f_equal. unfold forest_rated. rewrite E, L.
  apply rated_ext; auto. intros o Ho. rewrite nth_map_in with (d := []) by auto. auto.
Qed.
Lemma step_bad : forall v it, fst test = [] \/ length (snd test) <> length (fst test) -> step v it = Err ValueError.
Proof.
  intros v it H. unfold step. cbv zeta. unfold predict_rows. destruct (fst test) as [|x X] eqn:E; [reflexivity|].
  destruct H as [H|H]; [congruence|]. cbn [bind]. rewrite scoring_bad by (rewrite map_length; auto). auto.
Qed.

Lemma prep_steps : forall range, regression_prep fit train test range ty ntree =
  match ty with TOther => Err ValueError | _ => foldM step (combine (seq 0 (length range)) range) (repeat 0 (length range)) end.
Proof. intros. destruct ty; reflexivity. Qed.

Lemma fill : ty <> TOther -> fst test <> [] -> length (snd test) = length (fst test) ->
  forall r k v, (k + length r <= length v)%nat -> exists v', foldM step (combine (seq k (length r)) r) v = Ok v' /\ length v' = length v /\
    (forall j, (j < length r)%nat -> nth (k + j) v' 0 = forest_rated ty (fit (k + j) ty (nth j r O) ntree train) test) /\
    forall j, (j < k)%nat -> nth j v' 0 = nth j v 0.
Proof.
  intros NT NE L. induction r as [|d r IH]; intros k v Hk; cbn [length seq combine foldM] in *.
  - exists v. repeat split; auto. intros j Hj. lia.
  - rewrite step_ok by auto. destruct (set_at_ok v (fst (k, d)) (forest_rated ty (fit (fst (k, d)) ty (snd (k, d)) ntree train) test)) as (v1&E1&L1&V1&O1); [cbn [fst]; lia|].
    rewrite E1. cbn [bind]. destruct (IH (S k) v1 ltac:(lia)) as (v'&E&L'&V'&O'). exists v'. split; [auto|]. split; [lia|]. cbn [fst snd] in *. split.
    + intros [|j] Hj; cbn [nth].
      * rewrite Nat.add_0_r, O' by lia. auto.
      * replace (k + S j)%nat with (S k + j)%nat by lia. rewrite V' by lia. auto.
    + intros j Hj. rewrite O' by lia. apply O1. lia.
Qed.

Lemma p_prep : forall range, ty <> TOther -> fst test <> [] -> length (snd test) = length (fst test) ->
  exists v, regression_prep fit train test range ty ntree = Ok v /\ length v = length range /\
    forall j, (j < length range)%nat -> nth j v 0 = forest_rated ty (fit j ty (nth j range O) ntree train) test.
Proof.
  intros range NT NE L. rewrite prep_steps. destruct (fill NT NE L range 0 (repeat 0 (length range))) as (v&E&LV&V&_); [rewrite repeat_length; lia|].
  exists v. rewrite repeat_length in LV. split; [destruct ty; [auto|auto|congruence]|]. split; auto.
Qed.
Lemma p_prep_bad : forall range, ty = TOther \/ (range <> [] /\ (fst test = [] \/ length (snd test) <> length (fst test))) ->
  regression_prep fit train test range ty ntree = Err ValueError.
Proof.
  intros range H. rewrite prep_steps. destruct H as [-> | [NR H]]; [auto|].
  assert (X : foldM step (combine (seq 0 (length range)) range) (repeat 0 (length range)) = Err ValueError).
  { destruct range as [|d r]; [congruence|]. cbn [length seq combine foldM]. rewrite step_bad by auto. auto. }
  destruct ty; auto.
Qed.
End Prep.
(** nothing but a list of the right length or a ValueError comes out *)
Lemma prep_cases : forall fit (train test : @frame R) ty ntree range, (exists v, regression_prep fit train test range ty ntree = Ok v /\ length v = length range) \/
  regression_prep fit train test range ty ntree = Err ValueError.
Proof.
  intros fit train test ty ntree range. destruct range as [|d r].
  - destruct ty; [left|left|right]; try (exists []; split; reflexivity). reflexivity.
  - destruct (fst test) as [|x X] eqn:E.
    + right. apply p_prep_bad. right. split; [discriminate|auto].
    + destruct (Nat.eq_dec (length (snd test)) (length (fst test))) as [L|L].
      * assert (NT : {ty = TOther} + {ty <> TOther}) by (destruct ty; auto; right; discriminate). destruct NT as [H|NT].
        -- right. apply p_prep_bad. auto.
        -- left. destruct (p_prep fit train test ty ntree (d :: r) NT ltac:(rewrite E; discriminate) L) as (v&EV&LV&_). eauto.
      * right. apply p_prep_bad. right. split; [discriminate|auto].
Qed.

(** ** The table *)
Lemma p_table : forall b (cv : @arr2 R) ir, match ir with None => True | Some l => length l = r_1 cv end ->
  exists tab, depth_error_vis2 b cv ir = Ok tab /\
    describes b (r_0 cv) (match ir with None => seq 0 (r_1 cv) | Some l => l end) (at2 cv) tab.
Proof.
  intros b cv ir H. unfold depth_error_vis2. cbv zeta. set (idx := match ir with None => seq 0 (r_1 cv) | Some l => l end).
  assert (LI : length idx = r_1 cv) by (destruct ir; unfold idx; auto; apply seq_length).
  rewrite LI, Nat.eqb_refl. cbn [negb]. eexists. split; [reflexivity|]. unfold describes. rewrite map_length, seq_length, LI. split; [auto|].
  intros j Hj. rewrite nth_error_map, seq_nth_error by auto. cbn [option_map Nat.add].
  set (col := map (fun s => at2 cv s j) (seq 0 (r_0 cv))). eexists. exists (std col). split; [reflexivity|]. cbn [v_idx v_mu v_lower v_upper].
  split; [auto|]. split; [apply mean_average|]. split; [apply std_spread|]. destruct b; split; reflexivity.
Qed.
Lemma p_table_bad : forall b (cv : @arr2 R) l, length l <> r_1 cv -> depth_error_vis2 b cv (Some l) = Err ValueError.
Proof. intros b cv l H. unfold depth_error_vis2. cbv zeta. apply Nat.eqb_neq in H. rewrite H. auto. Qed.

(** all of f 0, ..., f (n-1) are equal when their spread is 0 *)
Lemma spread_zero : forall n f s, (0 < n)%nat -> spread n f s -> (s = 0 <-> forall i, (i < n)%nat -> f i = f O).
Proof.
  intros n f s Hn [Hs E]. assert (PN : 0 < INR n) by (apply lt_0_INR; auto). split.
  - intros ->. assert (Z : sumto n (fun i => (f i - average n f) * (f i - average n f)) = 0).
    { unfold average at 1 in E. rewrite Rmult_0_l in E. apply Rmult_eq_reg_r with (/ INR n); [unfold Rdiv in E; lra|]. apply Rinv_neq_0_compat. lra. }
    assert (EQ : forall i, (i < n)%nat -> f i = average n f).
    { intros i Hi. pose proof (sumto_elem_le n (fun i => (f i - average n f) * (f i - average n f)) i (fun j _ => Rle_0_sqr _) Hi) as LE. cbn beta in LE.
      rewrite Z in LE. assert (D : f i - average n f = 0); [|lra]. apply Rsqr_0_uniq. unfold Rsqr. apply Rle_antisym; [auto|apply Rle_0_sqr]. }
    intros i Hi. rewrite (EQ i Hi), (EQ O Hn). auto.
  - intros H. assert (A : average n f = f O).
    { unfold average. rewrite (sumto_ext n f (fun _ => f O)) by auto. rewrite sumto_const. field. lra. }
    assert (V : average n (fun i => (f i - average n f) * (f i - average n f)) = 0).
    { unfold average at 1. rewrite (sumto_ext n _ (fun _ => 0)) by (intros i Hi; rewrite A, (H i Hi); ring). rewrite sumto_const. unfold Rdiv. ring. }
    rewrite V in E. apply Rmult_integral in E. destruct E; auto.
Qed.
Lemma p_inverted : forall b n range f tab r j, (0 < n)%nat -> describes b n range f tab -> nth_error tab j = Some r ->
  v_upper r <= v_mu r <= v_lower r /\ (v_upper r = v_lower r <-> forall s, (s < n)%nat -> f s j = f O j).
Proof.
  intros b n range f tab r j Hn [L D] N. assert (Hj : (j < length range)%nat) by (rewrite <- L; apply nth_error_Some; congruence).
  destruct (D j Hj) as (r'&sd&N'&_&_&SP&EL&EU). rewrite N in N'. assert (r' = r) by congruence. subst r'.
  assert (PN : 0 < sqrt (INR n)) by (apply sqrt_lt_R0, lt_0_INR; auto). rewrite EL, EU.
  assert (HH : exists c, 0 < c /\ match b with SdBand => sd | SeBand => sd / sqrt (INR n) end = sd * c).
  { destruct b; [exists 1; split; [lra|ring]|exists (/ sqrt (INR n)); split; [apply Rinv_0_lt_compat; auto|reflexivity]]. }
  destruct HH as (c&Pc&EH). rewrite EH. pose proof (proj1 SP) as P. assert (0 <= sd * c) by (apply Rmult_le_pos; lra). split; [lra|].
  rewrite <- (spread_zero n (fun s => f s j) sd Hn SP). split; intros Q.
  - assert (X : sd * c = 0) by lra. apply Rmult_integral in X. destruct X; lra.
  - rewrite Q. ring.
Qed.

(** ** The loop over the simulations *)
Lemma foldM_snoc : forall {A B} (f : A -> B -> result A) l b a, foldM f (l ++ [b]) a = do x <- foldM f l a; f x b.
Proof.
  intros A B f. induction l as [|c l IH]; intros b a; cbn [foldM app bind].
  - destruct (f a b); reflexivity.
  - destruct (f a c); cbn [bind]; auto.
Qed.

Section Sims.
Variables (p : prelim) (u : @outside R) (k : nat) (ty : rf_type) (ntree : nat).
Let step (A : @arr2 R) (s : nat) : result (@arr2 R) :=
  let d := sim_data p u k s in
  do v <- regression_prep (u_fit u k s) (pick d (fst (u_split u k s))) (pick d (snd (u_split u k s))) (pl_prep p) ty ntree;
  set_row2 A s v.

Lemma sims_steps : sims p u k ty ntree = foldM step (seq 0 (pl_sims p)) (zeros2 (pl_sims p) (length (pl_range p))).
Proof. reflexivity. Qed.

Lemma sims_loop : ty <> TOther -> has_tests p u -> length (pl_prep p) = length (pl_range p) -> forall n, (n <= pl_sims p)%nat ->
  exists A, foldM step (seq 0 n) (zeros2 (pl_sims p) (length (pl_range p))) = Ok A /\ r_0 A = pl_sims p /\ r_1 A = length (pl_range p) /\
    forall s j, (s < n)%nat -> (j < length (pl_range p))%nat -> at2 A s j = forest_rated ty (nth_forest p u k s ty ntree j) (test_part p u k s).
Proof.
  intros NT HT LP. induction n as [|n IH]; intros Hn.
  - eexists. split; [reflexivity|]. cbn [zeros2 r_0 r_1]. repeat split; auto. intros; lia.
  - destruct (IH ltac:(lia)) as (A&E&R0&R1&V). rewrite seq_S, foldM_snoc, E. cbn [bind Nat.add]. unfold step. cbv zeta.
    set (tr := pick (sim_data p u k n) (fst (u_split u k n))). set (te := pick (sim_data p u k n) (snd (u_split u k n))).
    assert (NE : fst te <> []).
    { unfold te, pick. cbn [fst]. pose proof (HT k n) as X. destruct (snd (u_split u k n)); [congruence|discriminate]. }
    assert (LT : length (snd te) = length (fst te)) by (unfold te, pick; cbn [fst snd]; rewrite !map_length; auto).
    destruct (p_prep (u_fit u k n) tr te ty ntree (pl_prep p) NT NE LT) as (v&EV&LV&VV). rewrite EV. cbn [bind].
    unfold set_row2. rewrite R0, R1. pose proof (proj2 (Nat.ltb_lt n (pl_sims p)) ltac:(lia)) as B. rewrite B. cbn [negb]. rewrite LV, LP, Nat.eqb_refl.
    eexists. split; [reflexivity|]. cbn [r_0 r_1 at2]. split; [auto|]. split; [auto|]. intros s j Hs Hj. destruct (Nat.eqb_spec s n) as [->|NS].
    + rewrite <- LP in Hj. exact (VV j Hj).
    + apply V; auto; lia.
Qed.
Lemma p_sims : ty <> TOther -> has_tests p u -> length (pl_prep p) = length (pl_range p) ->
  exists A, sims p u k ty ntree = Ok A /\ r_0 A = pl_sims p /\ r_1 A = length (pl_range p) /\
    forall s j, (s < pl_sims p)%nat -> (j < length (pl_range p))%nat -> at2 A s j = forest_rated ty (nth_forest p u k s ty ntree j) (test_part p u k s).
Proof. intros. rewrite sims_steps. apply sims_loop; auto. Qed.

Lemma sims_mismatch : (0 < pl_sims p)%nat -> length (pl_prep p) <> length (pl_range p) -> length (pl_prep p) <> 1%nat -> sims p u k ty ntree = Err ValueError.
Proof.
  intros Hn NL N1. rewrite sims_steps. destruct (pl_sims p) as [|n]; [lia|]. cbn [seq foldM]. 
  assert (E : step (zeros2 (S n) (length (pl_range p))) 0 = Err ValueError).
  { unfold step. cbv zeta. match goal with |- context [regression_prep ?a ?b ?c ?d ?e ?f] => destruct (prep_cases a b c e f d) as [(v&EV&LV)|EV] end; rewrite EV; [|reflexivity].
    cbn [bind]. unfold set_row2. cbn [zeros2 r_0 r_1 Nat.ltb Nat.leb negb]. rewrite LV. apply Nat.eqb_neq in NL. rewrite NL. destruct v as [|a [|b v]]; auto. cbn [length] in LV. lia. }
  rewrite E. auto.
Qed.
Lemma sims_dims : forall A, sims p u k ty ntree = Ok A -> r_0 A = pl_sims p /\ r_1 A = length (pl_range p).
Proof.
  intros A. rewrite sims_steps. assert (G : forall l B A, foldM step l B = Ok A -> r_0 A = r_0 B /\ r_1 A = r_1 B).
  { clear A. induction l as [|s l IH]; intros B A H; cbn [foldM] in H; [split; congruence|]. destruct (step B s) as [C|e] eqn:E; cbn [bind] in H; [|discriminate].
    destruct (IH C A H) as [-> ->]. unfold step in E. cbv zeta in E. match type of E with bind ?x _ = _ => destruct x as [v|e] end; cbn [bind] in E; [|discriminate].
    unfold set_row2 in E. destruct (negb (Nat.ltb s (r_0 B))); [discriminate|]. destruct (Nat.eqb (length v) (r_1 B)); [|destruct v as [|w [|w' v]]]; try discriminate;
    match type of E with Ok ?a = Ok ?b => assert (X : b = a) by congruence end; rewrite X; auto. }
  intros H. apply (G _ _ _ H).
Qed.
End Sims.

Lemma average_ext : forall n f g, (forall s, (s < n)%nat -> f s = g s) -> average n f = average n g.
Proof. intros n f g H. unfold average. f_equal. apply sumto_ext. auto. Qed.
Lemma spread_ext : forall n f g sd, (forall s, (s < n)%nat -> f s = g s) -> spread n f sd -> spread n g sd.
Proof.
  intros n f g sd H [P Q]. split; [auto|]. rewrite Q, <- (average_ext n f g H). apply average_ext. intros s Hs. rewrite (H s Hs). auto.
Qed.
Lemma describes_ext : forall b n range f g tab, (forall s j, (s < n)%nat -> (j < length range)%nat -> f s j = g s j) -> describes b n range f tab -> describes b n range g tab.
Proof.
  intros b n range f g tab H [L D]. split; [auto|]. intros j Hj. destruct (D j Hj) as (r&sd&N&EI&EM&SP&EB). exists r, sd. split; [auto|]. split; [auto|].
  split; [rewrite EM; apply average_ext; intros; apply H; auto|]. split; [|exact EB]. eapply spread_ext; [|exact SP]. intros; apply H; auto.
Qed.

Lemma p_files : forall p (u : @outside R), pl_type p <> TOther -> pl_type2 p <> TOther -> has_tests p u -> length (pl_prep p) = length (pl_range p) ->
  exists t10 t300, prelim_run p u = ([(csv_name p 10, t10); (csv_name p 300, t300)], None) /\
    describes (pl_band p) (pl_sims p) (pl_range p) (fun s j => forest_rated (pl_type p) (nth_forest p u 0 s (pl_type p) 10 j) (test_part p u 0 s)) t10 /\
    (pl_own p = true -> describes (pl_band p) (pl_sims p) (pl_range p) (fun s j => forest_rated (pl_type2 p) (nth_forest p u 1 s (pl_type2 p) 300 j) (test_part p u 1 s)) t300) /\
    (pl_own p = false -> t300 = t10).
Proof.
  intros p u T1 T2 HT LP. unfold prelim_run.
  destruct (p_sims p u 0 (pl_type p) 10 T1 HT LP) as (A&EA&A0&A1&AV). destruct (p_sims p u 1 (pl_type2 p) 300 T2 HT LP) as (B&EB&B0&B1&BV).
  destruct (p_table (pl_band p) A (Some (pl_range p))) as (t10&ET&DT); [congruence|]. destruct (p_table (pl_band p) B (Some (pl_range p))) as (tb&EB'&DB); [congruence|].
  rewrite EA, ET, EB. rewrite A0 in DT. rewrite B0 in DB. exists t10, (if pl_own p then tb else t10).
  assert (X : depth_error_vis2 (pl_band p) (if pl_own p then B else A) (Some (pl_range p)) = Ok (if pl_own p then tb else t10)) by (destruct (pl_own p); auto).
  rewrite X. split; [reflexivity|]. split; [eapply describes_ext; [|exact DT]; auto|]. split.
  - intros ->. eapply describes_ext; [|exact DB]; auto.
  - intros ->. auto.
Qed.
Lemma p_same_table : forall p (u : @outside R) fs e, pl_own p = false -> prelim_run p u = (fs, e) ->
  (e = None /\ exists t, fs = [(csv_name p 10, t); (csv_name p 300, t)]) \/ (e <> None /\ (fs = [] \/ exists t, fs = [(csv_name p 10, t)])).
Proof.
  intros p u fs e OW H. unfold prelim_run in H. rewrite OW in H. destruct (sims p u 0 (pl_type p) 10) as [A|x]; [|right; split; [|left]; congruence].
  destruct (depth_error_vis2 (pl_band p) A (Some (pl_range p))) as [t|x] eqn:ET; [|right; split; [|left]; congruence].
  destruct (sims p u 1 (pl_type2 p) 300) as [B|x]; [|right; split; [|right; exists t]; congruence]. cbn [app] in H. left. split; [congruence|]. exists t. congruence.
Qed.
Lemma p_tania : forall u : @outside R, prelim_run tania u = ([], Some ValueError).
Proof.
  intros u. unfold prelim_run. rewrite sims_mismatch; auto.
  - cbn. lia.
  - vm_compute. discriminate.
  - vm_compute. discriminate.
Qed.

(** ** What a run depends on *)
Lemma sims_ext : forall p (u u' : @outside R) k ty ntree, u_split u' = u_split u -> u_fit u' = u_fit u -> (forall s, sim_data p u' k s = sim_data p u k s) ->
  sims p u' k ty ntree = sims p u k ty ntree.
Proof.
  intros p u u' k ty ntree ES EF ED. unfold sims. apply foldM_same. intros A s _. cbv zeta. rewrite ED, ES, EF. auto.
Qed.
Lemma run_ext : forall p (u u' : @outside R), u_split u' = u_split u -> u_fit u' = u_fit u -> (forall k s, sim_data p u' k s = sim_data p u k s) -> prelim_run p u' = prelim_run p u.
Proof. intros p u u' ES EF ED. unfold prelim_run. rewrite !(sims_ext p u u') by auto. auto. Qed.
Lemma p_ignores_file : forall p (u u' : @outside R), pl_fresh p = true -> same_but_file u u' -> prelim_run p u' = prelim_run p u.
Proof. intros p u u' F (A&B&C). apply run_ext; auto. intros. unfold sim_data. rewrite F, A. auto. Qed.
Lemma p_ignores_made : forall p (u u' : @outside R), pl_fresh p = false -> same_but_made u u' -> prelim_run p u' = prelim_run p u.
Proof. intros p u u' F (A&B&C). apply run_ext; auto. intros. unfold sim_data. rewrite F, A. auto. Qed.

(** ** The labels among the features *)
Lemma p_leak : forall (rows : list (@srow R)) is, (forall i, In i is -> (i < length rows)%nat) ->
  forall o, (o < length is)%nat -> let d := pick (spiral_frame rows) is in nth 3 (nth o (fst d) []) 0 = nth o (snd d) 0 /\ length (nth o (fst d) []) = 4%nat.
Proof.
  intros rows is H o Ho. cbv zeta. unfold pick, spiral_frame. cbn [fst snd]. rewrite !(nth_map_in _ _ _ O) by auto.
  set (i := nth o is O). assert (Hi : (i < length rows)%nat) by (apply H, nth_In; auto).
  destruct rows as [|r0 rows]; [cbn in Hi; lia|]. rewrite !(nth_map_in _ _ _ r0) by auto. split; reflexivity.
Qed.
Lemma p_leak_score : forall (rows : list (@srow R)) is, is <> [] -> (forall i, In i is -> (i < length rows)%nat) ->
  let d := pick (spiral_frame rows) is in scoring TClass (snd d) (map (fun x => nth 3 x 0) (fst d)) = Ok 1.
Proof.
  intros rows is NE H. cbv zeta. set (d := pick (spiral_frame rows) is).
  assert (L1 : length (fst d) = length is) by (unfold d, pick; cbn [fst]; apply map_length). assert (L2 : length (snd d) = length is) by (unfold d, pick; cbn [snd]; apply map_length).
  assert (P : 0 < INR (length is)) by (apply lt_0_INR; destruct is; [congruence|cbn; lia]).
  rewrite scoring_ok by (auto; rewrite ?map_length; congruence || discriminate). f_equal. cbn [rated]. rewrite L2.
  rewrite <- (count_sum (fun o => if Req_EM_T (nth o (snd d) 0) (nth o (map (fun x => nth 3 x 0) (fst d)) 0) then true else false)).
  rewrite (sumto_ext _ _ (fun _ => 1)).
  - rewrite sumto_const. field. lra.
  - intros o Ho. rewrite nth_map_in with (d := []) by lia. destruct (p_leak rows is H o Ho) as [E _]. fold d in E. rewrite E. destruct (Req_EM_T _ _); congruence.
Qed.

(** ** Names *)
Lemma str_eqb_refl : forall a, str_eqb a a = true.
Proof. intros a. unfold str_eqb. destruct (str_eq_dec a a); congruence. Qed.
Lemma run_names_cons : forall st l env, run_names (st :: l) env =
  if forallb (fun n => existsb (str_eqb n) env) (st_reads st) then run_names l (st_binds st ++ env) else Err NameError.
Proof. intros. unfold run_names. cbn [foldM]. destruct (forallb _ _); reflexivity. Qed.
(** a statement whose names are known among those bound since some point *)
Lemma exists_known : forall n (l env : list str), existsb (str_eqb n) l = true -> existsb (str_eqb n) (l ++ env) = true.
Proof. intros. rewrite existsb_app, H. auto. Qed.
Lemma unknown : forall n (l : list str), ~ In n l -> existsb (str_eqb n) l = false.
Proof.
  intros n l H. destruct (existsb (str_eqb n) l) eqn:E; auto. apply existsb_exists in E. destruct E as (x&Hx&Q). unfold str_eqb in Q. destruct (str_eq_dec n x); [subst; contradiction|discriminate].
Qed.
