(** L_Prox: lemmas about prox_project. *)
From Verif Require Import Base TreeSpec Spec M_Prox L_Base L_Gamma L_Gamma2 L_PropsTree.
From Coq Require Import Reals Lra Permutation Sorted.
Local Open Scope R_scope.

Lemma clip0_ppos : forall y : list R, clip0 y = map ppos y.
Proof.
  intros. unfold clip0. apply map_ext. intros x. rn. unfold ppos, Rmax.
  destruct (Rltb_spec x 0), (Rle_dec x 0); lra.
Qed.
Lemma clip0_length : forall y : list R, length (clip0 y) = length y.
Proof. intros. unfold clip0. apply map_length. Qed.
Lemma clip0_nonneg : forall (y : list R) x, In x (clip0 y) -> 0 <= x.
Proof.
  intros y x H. rewrite clip0_ppos in H. apply in_map_iff in H. destruct H as (z&<-&_). apply Rmax_r.
Qed.

Lemma insert_desc_perm : forall x (l : list R), Permutation (x :: l) (insert_desc x l).
Proof.
  induction l; simpl; auto. rn. destruct (Rltb x a); auto.
  eapply perm_trans; [apply perm_swap|]. auto.
Qed.
Lemma sort_desc_perm : forall l : list R, Permutation l (sort_desc l).
Proof.
  induction l; simpl; auto. eapply perm_trans; [apply perm_skip, IHl|]. apply insert_desc_perm.
Qed.
Lemma sort_desc_length : forall l : list R, length (sort_desc l) = length l.
Proof. intros. symmetry. apply Permutation_length, sort_desc_perm. Qed.

Lemma insert_desc_sorted : forall x (l : list R), desc l -> desc (insert_desc x l).
Proof.
  unfold desc. induction l; simpl; intros H.
  - constructor; auto. 
  - inversion H; subst. rn. destruct (Rltb_spec x a).
    + constructor; auto. rewrite Forall_forall in *. intros z Hz.
      apply (Permutation_in z (Permutation_sym (insert_desc_perm x l))) in Hz.
      destruct Hz as [<-|Hz]; [lra|auto].
    + constructor; auto. constructor; auto. rewrite Forall_forall in *. intros z Hz.
      specialize (H3 z Hz). lra.
Qed.
Lemma sort_desc_sorted : forall l : list R, desc (sort_desc l).
Proof. induction l; simpl; [constructor|apply insert_desc_sorted; auto]. Qed.

Lemma insert_desc_head : forall x (l : list R), Forall (fun b => b <= x) l -> insert_desc x l = x :: l.
Proof.
  intros x [|a l] H; simpl; auto. inversion H; subst. rn. destruct (Rltb_spec x a); auto. lra.
Qed.
Lemma sort_desc_id : forall l : list R, desc l -> sort_desc l = l.
Proof.
  induction l; simpl; auto. intros H. inversion H; subst. rewrite IHl by auto. apply insert_desc_head; auto.
Qed.

Lemma desc_nth : forall l : list R, desc l -> forall i j, (i <= j < length l)%nat -> nth j l 0 <= nth i l 0.
Proof.
  unfold desc. induction l; simpl; intros H i j L; [lia|]. inversion H; subst.
  destruct j, i; try lra; try lia.
  - rewrite Forall_forall in H3. apply H3. apply nth_In. lia.
  - apply IHl; auto. lia.
Qed.
Lemma desc_map_ppos : forall l, desc l -> desc (map ppos l).
Proof.
  unfold desc. induction l; simpl; intros H; constructor; inversion H; subst; auto.
  rewrite Forall_forall in *. intros x Hx. apply in_map_iff in Hx. destruct Hx as (z&<-&Hz).
  unfold ppos. apply Rle_max_compat_r. auto.
Qed.

Lemma cumsum_from_length : forall (l : list R) a, length (cumsum_from a l) = length l.
Proof. induction l; simpl; auto. Qed.
Lemma cumsum_length : forall l : list R, length (cumsum l) = length l.
Proof. intros. apply cumsum_from_length. Qed.
Lemma cumsum_from_nth : forall (l : list R) a i, (i < length l)%nat ->
  nth i (cumsum_from a l) 0 = a + sumto (S i) (fun j => nth j l 0).
Proof.
  induction l; cbn [length cumsum_from]; intros a0 i H; [lia|]. rn. destruct i.
  - cbn. lra.
  - cbn [nth]. rewrite IHl by lia.
    assert (X : forall n (f : nat -> R), sumto (S n) f = f 0%nat + sumto n (fun j => f (S j))).
    { induction n; intros; simpl in *; [lra|]. rewrite IHn. lra. }
    rewrite (X (S i)). cbn [nth]. lra.
Qed.
Lemma cumsum_nth : forall (l : list R) i, (i < length l)%nat ->
  nth i (cumsum l) 0 = sumto (S i) (fun j => nth j l 0).
Proof. intros. unfold cumsum. rewrite cumsum_from_nth by auto. rn. lra. Qed.

Definition tau (u : list R) (i : nat) : R := (sumto (S i) (fun j => nth j u 0) - 1) / INR (S i).

Lemma thresholds_length : forall sv : list R, length (thresholds sv) = length sv.
Proof. intros. unfold thresholds. rewrite map2_length, seq_length. lia. Qed.
Lemma thresholds_nth : forall (u : list R) i, (i < length u)%nat -> nth i (thresholds (cumsum u)) 0 = tau u i.
Proof.
  intros. unfold thresholds. rewrite nth_map2 with (da := 0) (db := 0%nat); rewrite ?seq_length, ?cumsum_length; auto.
  rewrite seq_nth, cumsum_nth by (rewrite ?cumsum_length; auto). rn. reflexivity.
Qed.

Lemma mask_select_In : forall {A} m (l : list A) d x, length m = length l -> In x (mask_select m l) <->
  exists i, (i < length l)%nat /\ nth i m false = true /\ nth i l d = x.
Proof.
  induction m; destruct l; cbn [length mask_select]; intros d x L; try discriminate.
  - split; [intros []|]. intros (i&?&_). lia.
  - destruct a.
    + cbn [In]. rewrite (IHm l d) by lia. split.
      * intros [->|(i&Hi&E1&E2)]; [exists 0%nat|exists (S i)]; (split; [lia|split; auto]).
      * intros ([|i]&Hi&E1&E2); auto. right. exists i. split; [lia|split; auto].
    + rewrite (IHm l d) by lia. split.
      * intros (i&Hi&E1&E2). exists (S i). split; [lia|split; auto].
      * intros ([|i]&Hi&E1&E2); [discriminate|]. exists i. split; [lia|split; auto].
Qed.

Lemma fold_nmax_ok : forall x (l : list R), exists m, nmaximum (x :: l) = Ok m.
Proof. intros. eexists. reflexivity. Qed.

Lemma sumto_le_const : forall n (f : nat -> R) c, (forall i, (i < n)%nat -> f i <= c) -> sumto n f <= INR n * c.
Proof.
  induction n; intros f c H; simpl sumto; [simpl; lra|]. rewrite S_INR.
  pose proof (H n ltac:(lia)). pose proof (IHn f c ltac:(intros; apply H; lia)). lra.
Qed.

Lemma INR_S_pos : forall i, 0 < INR (S i).
Proof. intros. apply lt_0_INR. lia. Qed.

Lemma tau_mul : forall u i, INR (S i) * tau u i = sumto (S i) (fun j => nth j u 0) - 1.
Proof. intros. unfold tau. pose proof (INR_S_pos i). field. lra. Qed.

(** what prox_project computes, in terms of u = positive part *)
Lemma prox_spec : forall y : list R, y <> [] ->
  let y1 := map ppos y in let u := sort_desc y1 in
  exists m theta, (m < length y)%nat /\ tau u m < nth m y1 0 /\
    (forall i, (i < length y)%nat -> tau u i < nth i y1 0 -> tau u i <= tau u m) /\
    theta = Rmax (tau u m) 0 /\
    prox_project y = Ok (map (fun x => ppos (x - theta)) y1, y1).
Proof.
  intros y NE y1 u. unfold prox_project. rewrite (clip0_ppos y). fold y1. fold u.
  assert (L1 : length y1 = length y) by (unfold y1; apply map_length).
  assert (LU : length u = length y) by (unfold u; rewrite sort_desc_length; auto).
  set (rho := map2 (fun yi ti => nltb ti yi) y1 (thresholds (cumsum u))).
  assert (LR : length rho = length (thresholds (cumsum u))).
  { unfold rho. rewrite map2_length, thresholds_length, cumsum_length. lia. }
  assert (RN : forall i, (i < length y)%nat -> nth i rho false = Rltb (tau u i) (nth i y1 0)).
  { intros i Hi. unfold rho. rewrite nth_map2 with (da := 0) (db := 0) by (rewrite ?thresholds_length, ?cumsum_length; lia).
    rewrite thresholds_nth by lia. reflexivity. }
  (* a position in rho: where the maximum sits *)
  assert (EX : exists i, (i < length y)%nat /\ tau u i < nth i y1 0).
  { assert (H0 : In (nth 0 u 0) y1).
    { apply (Permutation_in _ (Permutation_sym (sort_desc_perm y1))). apply nth_In. fold u. rewrite LU.
      destruct y; simpl; [congruence|lia]. }
    destruct (In_nth _ _ 0 H0) as (i&Hi&E). exists i. split; [lia|].
    rewrite E. pose proof (tau_mul u i) as TM. pose proof (INR_S_pos i) as P.
    assert (B : sumto (S i) (fun j => nth j u 0) <= INR (S i) * nth 0 u 0).
    { apply sumto_le_const. intros j Hj. apply desc_nth; [apply sort_desc_sorted|]. fold u. lia. }
    apply Rmult_lt_reg_l with (INR (S i)); auto. lra. }
  destruct EX as (i0&Hi0&T0).
  destruct (nmaximum (mask_select rho (thresholds (cumsum u)))) as [mx|e] eqn:EM.
  2:{ exfalso. assert (I0 : In (tau u i0) (mask_select rho (thresholds (cumsum u)))).
      { apply (mask_select_In _ _ 0); auto. exists i0. rewrite thresholds_length, cumsum_length, LU.
        repeat split; auto. - rewrite RN by auto. apply Rltb_true; auto. - apply thresholds_nth. lia. }
      destruct (mask_select rho (thresholds (cumsum u))); [destruct I0|discriminate]. }
  destruct (nmaximum_spec _ _ EM) as [IM UB].
  apply (mask_select_In _ _ 0) in IM; auto. destruct IM as (m&Hm&Rm&Vm).
  rewrite thresholds_length, cumsum_length, LU in Hm. rewrite thresholds_nth in Vm by lia.
  rewrite RN in Rm by auto. destruct (Rltb_spec (tau u m) (nth m y1 0)); [|discriminate].
  exists m, (Rmax (tau u m) 0). split; auto. split; auto. split.
  { intros i Hi Ti. rewrite Vm. apply UB. apply (mask_select_In _ _ 0); auto. exists i.
    rewrite thresholds_length, cumsum_length, LU. repeat split; auto.
    - rewrite RN by auto. apply Rltb_true; auto.
    - apply thresholds_nth. lia. }
  split; auto. cbn [bind]. rewrite <- Vm. rewrite clip0_ppos, map_map.
  replace (nmax (tau u m) n0) with (Rmax (tau u m) 0); auto.
  unfold nmax, Rmax. rn. destruct (Rltb_spec (tau u m) 0), (Rle_dec (tau u m) 0); lra.
Qed.

Lemma prox_general : forall y : list R, y <> [] ->
  exists r, prox_project y = Ok (r, map ppos y) /\ length r = length y /\
  forall i, (i < length y)%nat -> 0 <= nth i r 0 <= ppos (nth i y 0).
Proof.
  intros y NE. destruct (prox_spec y NE) as (m&th&_&_&_&ET&E).
  eexists. split; [exact E|]. split; [rewrite !map_length; auto|].
  intros i Hi. rewrite nth_map_in with (d := 0) by (rewrite map_length; auto).
  rewrite nth_map_in with (d := 0) by auto. unfold ppos at 1 4. split; [apply Rmax_r|].
  assert (0 <= th) by (subst; apply Rmax_r). unfold ppos.
  pose proof (Rmax_r (nth i y 0) 0). apply Rmax_lub; lra.
Qed.

Lemma sumto_perm_total : forall l : list R, sumto (length l) (fun j => nth j l 0) = nsum l.
Proof. intros. rewrite nsum_sumto. auto. Qed.

Lemma sumto_mono_len : forall (f : nat -> R) n m, (n <= m)%nat -> (forall i, (i < m)%nat -> 0 <= f i) -> sumto n f <= sumto m f.
Proof.
  intros f n m H. induction H; intros P; [lra|]. simpl. pose proof (P m ltac:(lia)).
  assert (sumto n f <= sumto m f) by (apply IHle; intros; apply P; lia). lra.
Qed.

(** already inside: the positive part is returned *)
Lemma prox_small : forall y : list R, y <> [] -> nsum (map ppos y) <= 1 ->
  prox_project y = Ok (map ppos y, map ppos y).
Proof.
  intros y NE S1. destruct (prox_spec y NE) as (m&th&Hm&_&_&ET&E). rewrite E.
  assert (TN : tau (sort_desc (map ppos y)) m <= 0).
  { set (u := sort_desc (map ppos y)) in *.
    assert (LU : length u = length y) by (unfold u; rewrite sort_desc_length, map_length; auto).
    assert (B : sumto (S m) (fun j => nth j u 0) <= 1).
    { apply Rle_trans with (sumto (length u) (fun j => nth j u 0)).
      - apply sumto_mono_len; [lia|]. intros i Hi. 
        assert (In (nth i u 0) (map ppos y)).
        { apply (Permutation_in _ (Permutation_sym (sort_desc_perm _))). apply nth_In; auto. }
        apply in_map_iff in H. destruct H as (z&<-&_). apply Rmax_r.
      - rewrite sumto_perm_total. unfold u. rewrite <- (nsum_perm _ _ (sort_desc_perm _)). auto. }
    pose proof (tau_mul u m). pose proof (INR_S_pos m).
    apply Rmult_le_reg_l with (INR (S m)); auto. lra. }
  assert (T0 : th = 0) by (subst; apply Rmax_right; auto).
  f_equal. f_equal. rewrite T0, map_map. apply map_ext. intros a. rewrite Rminus_0_r.
  unfold ppos. apply Rmax_left. apply Rmax_r.
Qed.

(** descending input with positive part summing to at least 1 *)
Lemma prox_sorted_theta : forall y : list R, y <> [] -> desc y -> 1 <= nsum (map ppos y) ->
  exists theta, 0 <= theta /\
    prox_project y = Ok (map (fun x => ppos (x - theta)) (map ppos y), map ppos y) /\
    nsum (map (fun x => ppos (x - theta)) (map ppos y)) = 1.
Proof.
  intros y NE D S1. destruct (prox_spec y NE) as (m&th&Hm&Tm&UB&ET&E).
  set (u := map ppos y) in *.
  assert (DU : desc u) by (apply desc_map_ppos; auto).
  rewrite (sort_desc_id u DU) in *.
  assert (LU : length u = length y) by (unfold u; apply map_length).
  assert (PU : forall i, (i < length u)%nat -> 0 <= nth i u 0).
  { intros i Hi. unfold u. rewrite nth_map_in with (d := 0) by lia. apply Rmax_r. }
  assert (TS : forall i, INR (S (S i)) * tau u (S i) = INR (S i) * tau u i + nth (S i) u 0).
  { intros. rewrite !tau_mul. simpl. lra. }
  assert (After : forall i, (m < i < length u)%nat -> nth i u 0 <= tau u m).
  { intros i Hi. apply Rnot_lt_le. intros B.
    assert (B1 : tau u m < nth (S m) u 0).
    { apply Rlt_le_trans with (nth i u 0); auto. apply desc_nth; auto; lia. }
    pose proof (TS m) as TSm. rewrite S_INR in TSm. pose proof (INR_S_pos m) as P.
    assert (B2 : tau u m < tau u (S m)).
    { apply Rmult_lt_reg_l with (INR (S m) + 1); [lra|]. rewrite TSm. lra. }
    assert (B3 : tau u (S m) < nth (S m) u 0).
    { apply Rmult_lt_reg_l with (INR (S m) + 1); [lra|]. rewrite TSm.
      assert (INR (S m) * tau u m < INR (S m) * nth (S m) u 0) by (apply Rmult_lt_compat_l; auto). lra. }
    pose proof (UB (S m) ltac:(lia) B3). lra. }
  assert (T0 : 0 <= tau u m).
  { apply Rnot_lt_le. intros B. destruct (Nat.eq_dec (S m) (length u)) as [Q|Q].
    - pose proof (tau_mul u m) as TM. rewrite Q in TM at 2. rewrite sumto_perm_total in TM.
      pose proof (INR_S_pos m) as P. assert (INR (S m) * tau u m < 0).
      { replace 0 with (INR (S m) * 0) by lra. apply Rmult_lt_compat_l; auto. }
      lra.
    - pose proof (After (S m) ltac:(lia)). pose proof (PU (S m) ltac:(lia)). lra. }
  assert (TE : th = tau u m) by (subst th; apply Rmax_left; auto).
  exists th. split; [lra|]. split; [exact E|].
  rewrite nsum_sumto, map_length.
  rewrite (sumto_ext (length u) _ (fun i => if Nat.leb i m then nth i u 0 - tau u m else 0)).
  2:{ intros i Hi. rewrite nth_map_in with (d := 0) by auto. rewrite TE. unfold ppos.
      destruct (Nat.leb_spec i m).
      - apply Rmax_left. assert (nth m u 0 <= nth i u 0) by (apply desc_nth; auto; lia). lra.
      - apply Rmax_right. pose proof (After i ltac:(lia)). lra. }
  assert (X : forall n, (S m <= n)%nat ->
     sumto n (fun i => if Nat.leb i m then nth i u 0 - tau u m else 0) = 1).
  { intros n Hn. induction Hn.
    - rewrite (sumto_ext (S m) _ (fun i => nth i u 0 + (- tau u m))).
      + rewrite sumto_plus, sumto_const. pose proof (tau_mul u m) as TM. lra.
      + intros i Hi. destruct (Nat.leb_spec i m); [lra|lia].
    - cbn [sumto]. rewrite IHHn. destruct (Nat.leb_spec m0 m); [lia|lra]. }
  apply X. lia.
Qed.

Lemma prox_optimal : forall y : list R, y <> [] -> desc y -> 1 <= nsum (map ppos y) ->
  exists r, prox_project y = Ok (r, map ppos y) /\ simplex (length y) r /\
  forall z, simplex (length y) z -> sqdist r y <= sqdist z y.
Proof.
  intros y NE D S1. destruct (prox_sorted_theta y NE D S1) as (th&T0&E&SUM).
  set (r := map (fun x => ppos (x - th)) (map ppos y)) in *. exists r. split; auto.
  assert (LR : length r = length y) by (unfold r; rewrite !map_length; auto).
  split; [split; [auto|split; auto]; intros x Hx; unfold r in Hx; apply in_map_iff in Hx; destruct Hx as (q&<-&_); apply Rmax_r|].
  intros z (LZ&PZ&SZ).
  assert (RV : forall i, (i < length y)%nat -> nth i r 0 = ppos (nth i y 0 - th)).
  { intros i Hi. unfold r. rewrite nth_map_in with (d := 0) by (rewrite map_length; auto).
    rewrite nth_map_in with (d := 0) by auto. unfold ppos, Rmax.
    repeat destruct (Rle_dec _ _); lra. }
  unfold sqdist. rewrite !map2_as_seq with (da := 0) (db := 0) by lia. rewrite LR, LZ.
  (* sum over i of (z_i-y_i)^2 - (r_i-y_i)^2 >= -2 th (sum z - sum r) = 0 *)
  assert (K : 0 <= nsum (map (fun i => ((nth i z 0 - nth i y 0) * (nth i z 0 - nth i y 0)
                 - (nth i r 0 - nth i y 0) * (nth i r 0 - nth i y 0)) + 2 * th * (nth i z 0 - nth i r 0)) (seq 0 (length y)))).
  { apply nsum_nonneg. intros i Hi. apply in_seq in Hi.
    assert (Zi : 0 <= nth i z 0) by (apply PZ, nth_In; lia).
    rewrite (RV i ltac:(lia)). unfold ppos, Rmax. generalize dependent (nth i z 0). generalize (nth i y 0). intros b a Ha.
    destruct (Rle_dec (b - th) 0).
    - replace (_ + _) with (a * (a + 2 * (th - b))) by ring. apply Rmult_le_pos; lra.
    - replace (_ + _) with ((a - b + th) * (a - b + th)) by ring. apply Rle_0_sqr. }
  rewrite nsum_plus, nsum_minus, nsum_scal, nsum_minus in K.
  assert (SZ' : nsum (map (fun i => nth i z 0) (seq 0 (length y))) = 1).
  { rewrite <- SZ. rewrite <- LZ, <- list_as_seq. auto. }
  assert (SR' : nsum (map (fun i => nth i r 0) (seq 0 (length y))) = 1).
  { rewrite <- SUM. fold r. rewrite <- LR, <- list_as_seq. auto. }
  rewrite SZ', SR' in K. lra.
Qed.
