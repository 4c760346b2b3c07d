(** L_Level2: distance matrices and kernels of smooth_level.py. *)
From Verif Require Import Base TreeSpec Spec M_Tree M_Gamma M_Levels M_Smooth M_Level SpecTune SpecLevel.
From Verif Require Import L_Base L_Tree L_TreeModel L_TreeModel2 L_Gamma L_Gamma2 L_Route L_Box L_Level.
From Coq Require Import Reals Lra Lia.
Local Open Scope R_scope.

(** *** C54 *)
Lemma zfold_max : forall r x, (x <= fold_left Z.max r x)%Z /\ (forall y, In y r -> (y <= fold_left Z.max r x)%Z) /\ (fold_left Z.max r x = x \/ In (fold_left Z.max r x) r).
Proof.
  induction r as [|a r IH]; intros x; cbn [fold_left In]; [split; [lia|split; [tauto|auto]]|].
  destruct (IH (Z.max x a)) as (A&B&C). split; [lia|]. split; [intros y [->|H]; [lia|auto]|].
  destruct C as [C|C]; [|auto]. rewrite C. destruct (Z.max_spec x a) as [[_ M]|[_ M]]; rewrite M; auto.
Qed.
Lemma zmaximum_spec : forall l, l <> [] -> exists m, zmaximum l = Ok m /\ In m l /\ forall y, In y l -> (y <= m)%Z.
Proof.
  intros [|x r] H; [congruence|]. destruct (zfold_max r x) as (A&B&C). cbn. eexists. split; [reflexivity|]. split.
  - destruct C as [C|C]; [left; auto|right; auto].
  - intros y [->|Hy]; auto.
Qed.
Lemma zfold_min : forall r x, (fold_left Z.min r x <= x)%Z /\ (forall y, In y r -> (fold_left Z.min r x <= y)%Z) /\ (fold_left Z.min r x = x \/ In (fold_left Z.min r x) r).
Proof.
  induction r as [|a r IH]; intros x; cbn [fold_left In]; [split; [lia|split; [tauto|auto]]|].
  destruct (IH (Z.min x a)) as (A&B&C). split; [lia|]. split; [intros y [->|H]; [lia|auto]|].
  destruct C as [C|C]; [|auto]. rewrite C. destruct (Z.min_spec x a) as [[_ M]|[_ M]]; rewrite M; auto.
Qed.
Lemma zminimum_spec : forall l, l <> [] -> exists m, zminimum l = Ok m /\ In m l /\ forall y, In y l -> (m <= y)%Z.
Proof.
  intros [|x r] H; [congruence|]. destruct (zfold_min r x) as (A&B&C). cbn. eexists. split; [reflexivity|]. split.
  - destruct C as [C|C]; [left; auto|right; auto].
  - intros y [->|Hy]; auto.
Qed.
Lemma in_concat_nth : forall {A} (D : list (list A)) x, In x (concat D) <-> exists i j, (i < length D)%nat /\ nth_error (nth i D []) j = Some x.
Proof.
  intros A D x. rewrite in_concat. split.
  - intros (r&Hr&Hx). apply (In_nth _ _ []) in Hr. destruct Hr as (i&Hi&<-). apply In_nth_error in Hx. destruct Hx as (j&Hj). eauto.
  - intros (i&j&Hi&Hj). exists (nth i D []). split; [apply nth_In; auto|eapply nth_error_In; eauto].
Qed.
Lemma sumn_one : forall (f : nat -> nat) k m, (k < m)%nat -> (forall d, (d < m)%nat -> d <> k -> f d = 0%nat) -> sumn (map f (seq 0 m)) = f k.
Proof.
  intros f k m Hk Z. induction m as [|m IH]; [lia|]. rewrite seq_S, map_app. cbn [map].
  assert (SA : forall a b, sumn (a ++ b) = (sumn a + sumn b)%nat) by (unfold sumn; induction a as [|a0 a IHa]; intros b; cbn [app fold_right]; [lia|rewrite IHa; lia]).
  rewrite SA. cbn [sumn fold_right]. cbn [Nat.add]. destruct (Nat.eq_dec k m) as [->|N].
  - rewrite <- (Nat.add_0_l (f m)) at 2. f_equal; [|cbn; lia].
    assert (Q : forall l, (forall d, In d l -> f d = 0%nat) -> sumn (map f l) = 0%nat).
    { induction l as [|d l IHl]; intros H; auto. cbn. rewrite (H d) by (left; auto). apply IHl. intros; apply H; right; auto. }
    apply Q. intros d Hd. apply in_seq in Hd. apply Z; lia.
  - rewrite IH by (try lia; intros; apply Z; lia). rewrite (Z m) by lia. lia.
Qed.
Lemma p_C54 : forall D, concat D <> [] -> (forall x, In x (concat D) -> (0 <= x)%Z) ->
  exists S, categorical_depth_expand D = Ok S /\
    (forall x, In x (concat D) -> (x < Z.of_nat (length S))%Z) /\ In (Z.of_nat (length S) - 1)%Z (concat D) /\
    (forall d, (d < length S)%nat -> length (nth d S []) = length D /\ forall i, (i < length D)%nat -> length (nth i (nth d S []) []) = length (nth i D [])) /\
    forall i j x, (i < length D)%nat -> nth_error (nth i D []) j = Some x ->
      (forall d, (d < length S)%nat -> nth j (nth i (nth d S []) []) 0%nat = if Z.eq_dec x (Z.of_nat d) then 1%nat else 0%nat) /\
      x = Z.of_nat (sumn (map (fun d => (d * nth j (nth i (nth d S []) []) 0)%nat) (seq 0 (length S)))).
Proof.
  intros D NE PO. unfold categorical_depth_expand. destruct (zminimum_spec _ NE) as (mn&E1&I1&M1). destruct (zmaximum_spec _ NE) as (mx&E2&I2&M2).
  rewrite E1. cbn [bind]. destruct (Z.ltb_spec mn 0) as [L|L]; [specialize (PO _ I1); lia|]. rewrite E2. cbn [bind].
  pose proof (PO _ I2) as PM. eexists. split; [reflexivity|]. rewrite map_length, seq_length.
  split; [intros x Hx; specialize (M2 _ Hx); lia|]. split; [replace (Z.of_nat (Z.to_nat (mx + 1)) - 1)%Z with mx by lia; auto|].
  split.
  - intros d Hd. rewrite nth_map_seq by auto. rewrite map_length. split; auto. intros i Hi. rewrite nth_map_in with (d := []) by auto. apply map_length.
  - intros i j x Hi Hj. assert (Hl : (j < length (nth i D []))%nat) by (apply nth_error_Some; congruence).
    assert (VAL : forall d, (d < Z.to_nat (mx + 1))%nat -> nth j (nth i (nth d (map (fun d => map (map (fun x : Z => if Z.eqb x (Z.of_nat d) then 1%nat else 0%nat)) D) (seq 0 (Z.to_nat (mx + 1)))) []) []) 0%nat
       = if Z.eq_dec x (Z.of_nat d) then 1%nat else 0%nat).
    { intros d Hd. rewrite nth_map_seq by auto. rewrite nth_map_in with (d := []) by auto. rewrite nth_map_in with (d := 0%Z) by auto.
      rewrite (nth_error_nth _ _ 0%Z Hj). cbn [Nat.add]. destruct (Z.eqb_spec x (Z.of_nat d)); destruct (Z.eq_dec x (Z.of_nat d)); auto; congruence. }
    split; [exact VAL|].
    assert (Ix : In x (concat D)) by (apply in_concat_nth; eauto). pose proof (PO _ Ix) as Px. pose proof (M2 _ Ix) as Mx.
    rewrite (map_ext_in _ (fun d => (d * if Z.eq_dec x (Z.of_nat d) then 1 else 0)%nat)) by (intros d Hd; apply in_seq in Hd; rewrite VAL by lia; reflexivity).
    rewrite (sumn_one _ (Z.to_nat x)); [|lia|].
    + destruct (Z.eq_dec x (Z.of_nat (Z.to_nat x))); lia.
    + intros d Hd N. destruct (Z.eq_dec x (Z.of_nat d)); lia.
Qed.
Lemma p_C54_fail : (forall D, concat D = [] -> categorical_depth_expand D = Err ValueError) /\
  (forall D x, In x (concat D) -> (x < 0)%Z -> categorical_depth_expand D = Err AssertionError).
Proof.
  split.
  - intros D E. unfold categorical_depth_expand. rewrite E. reflexivity.
  - intros D x Hx Lx. unfold categorical_depth_expand. destruct (zminimum_spec (concat D)) as (mn&E1&_&M1); [intros Z; rewrite Z in Hx; destruct Hx|].
    rewrite E1. cbn [bind]. specialize (M1 _ Hx). destruct (Z.ltb_spec mn 0); auto; lia.
Qed.
Lemma sym_dist_val : forall f n (D : list (list R)), square n D -> sym_dist f None (Some D) = Ok (map2 (map2 f) D (transpose 0 n D)) /\
  square n (map2 (map2 f) D (transpose 0 n D)) /\
  forall i j, (i < n)%nat -> (j < n)%nat -> nth j (nth i (map2 (map2 f) D (transpose 0 n D)) []) 0 = f (nth j (nth i D []) 0) (nth i (nth j D []) 0).
Proof.
  intros f n D [L R1]. unfold sym_dist. cbn [bind]. rewrite L. split; [reflexivity|].
  assert (RW : forall i, (i < n)%nat -> nth i (map2 (map2 f) D (transpose 0 n D)) [] = map2 f (nth i D []) (nth i (transpose 0 n D) [])).
  { intros i Hi. rewrite nth_map2 with (da := []) (db := []); auto; [lia|rewrite transpose_length; auto]. }
  split.
  - split; [rewrite map2_length, transpose_length; lia|]. intros i Hi. rewrite RW by auto. rewrite map2_length, transpose_row_length, R1, L by auto. lia.
  - intros i j Hi Hj. rewrite RW by auto. rewrite nth_map2 with (da := 0) (db := 0); [|rewrite R1; auto|rewrite transpose_row_length; auto; lia].
    rewrite transpose_entry by (auto; lia). reflexivity.
Qed.
Lemma p_C54_sym : forall n (D : list (list R)), square n D ->
  exists A B, max_depth_dist None (Some D) = Ok A /\ min_depth_dist None (Some D) = Ok B /\ square n A /\ square n B /\ symmetric n A /\ symmetric n B /\
  forall i j, (i < n)%nat -> (j < n)%nat ->
    nth j (nth i A []) 0 = Rmax (nth j (nth i D []) 0) (nth i (nth j D []) 0) /\ nth j (nth i B []) 0 = Rmin (nth j (nth i D []) 0) (nth i (nth j D []) 0).
Proof.
  intros n D SQ. destruct (sym_dist_val nmax n D SQ) as (E1&S1&V1). destruct (sym_dist_val nmin n D SQ) as (E2&S2&V2).
  do 2 eexists. split; [exact E1|]. split; [exact E2|].
  assert (MX : forall a b : R, nmax a b = Rmax a b). { intros. unfold nmax. rn. unfold Rmax. destruct (Rltb_spec a b); destruct (Rle_dec a b); lra. }
  assert (MN : forall a b : R, nmin a b = Rmin a b). { intros. unfold nmin. rn. unfold Rmin. destruct (Rltb_spec b a); destruct (Rle_dec a b); lra. }
  split; [exact S1|]. split; [exact S2|]. split; [|split].
  - intros i j Hi Hj. rewrite !V1, !MX by auto. apply Rmax_comm.
  - intros i j Hi Hj. rewrite !V2, !MN by auto. apply Rmin_comm.
  - intros i j Hi Hj. rewrite V1, V2 by auto. auto.
Qed.
Lemma depth_dist_val : forall n (K : list (list R)), square n K ->
  ((forall i, (i < n)%nat -> nth i (nth i K []) 0 = 0) -> depth_dist K = Err AssertionError) /\
  ((exists i, (i < n)%nat /\ nth i (nth i K []) 0 <> 0) -> exists D, depth_dist K = Ok D /\ square n D /\
     forall i j, (i < n)%nat -> (j < n)%nat -> nth j (nth i D []) 0 = nth i (nth i K []) 0 - nth j (nth i K []) 0).
Proof.
  intros n K [L R1]. unfold depth_dist. rewrite L. split.
  - intros Z. replace (forallb _ _) with true; [reflexivity|]. symmetry. apply forallb_forall. intros x Hx. apply in_map_iff in Hx.
    destruct Hx as (i&<-&Hi). apply in_seq in Hi. rn. destruct (Reqb_spec (nth i (nth i K []) 0) 0) as [_|N]; auto. exfalso. apply N, Z. lia.
  - intros (i0&Hi0&N0). destruct (forallb _ _) eqn:E.
    + exfalso. rewrite forallb_forall in E. specialize (E (nth i0 (nth i0 K []) 0)). rn.
      destruct (Reqb_spec (nth i0 (nth i0 K []) 0) 0) as [Y|_]; [contradiction|]. discriminate E. apply in_map_iff. exists i0. split; auto. apply in_seq. lia.
    + eexists. split; [reflexivity|].
      assert (RW : forall i, (i < n)%nat -> nth i (map2 (fun (o : R) r => map (fun x => nsub o x) r) (map (fun i => nth i (nth i K []) n0) (seq 0 n)) K) [] = map (fun x => nth i (nth i K []) 0 - x) (nth i K [])).
      { intros i Hi. rewrite nth_map2 with (da := 0) (db := []); [|rewrite map_length, seq_length; auto|lia]. rewrite nth_map_seq by auto. reflexivity. }
      split.
      * split; [rewrite map2_length, map_length, seq_length; lia|]. intros i Hi. rewrite RW by auto. rewrite map_length. auto.
      * intros i j Hi Hj. rewrite RW by auto. rewrite nth_map_in with (d := 0) by (rewrite R1; auto). reflexivity.
Qed.
