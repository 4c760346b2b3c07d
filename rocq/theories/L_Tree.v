(** L_Tree: facts about well-formed trees (specification level). *)
From Verif Require Import Base TreeSpec L_Base.

Lemma count_occ_nth_unique : forall (l : list Z) x d i j,
  count_occ Z.eq_dec l x = 1 -> i < length l -> j < length l ->
  nth i l d = x -> nth j l d = x -> i = j.
Proof.
  induction l; simpl; intros; [lia|].
  destruct (Z.eq_dec a x).
  - assert (count_occ Z.eq_dec l x = 0) by lia. apply count_occ_not_In in H4.
    destruct i, j; auto; exfalso; apply H4; [rewrite <- H3|rewrite <- H2|rewrite <- H2]; apply nth_In; lia.
  - destruct i, j; try congruence. f_equal. apply (IHl x d); auto; lia.
Qed.

Section S.
Context {T : Type}.
Variable t : tree T.
Hypothesis WF : wf_tree t.
Local Notation n := (size t).

Lemma wf_split :
  0 < n /\ length (t_right t) = n /\ length (t_feature t) = n /\ length (t_thresh t) = n /\
  length (t_value t) = n /\ length (t_weight t) = n /\ length (t_imp t) = n /\
  (forall v, v < n -> node_okb t v = true) /\
  (forall v, 1 <= v < n -> one_parentb t v = true).
Proof.
  unfold wf_tree, wf_treeb in WF. repeat rewrite andb_true_iff in WF.
  destruct WF as [[[[[[[[H1 H2] H3] H4] H5] H6] H7] H8] H9].
  apply Nat.ltb_lt in H1. apply Nat.eqb_eq in H2, H3, H4, H5, H6, H7.
  rewrite forallb_forall in H8, H9.
  repeat split; auto.
  - intros; apply H8. apply in_seq. lia.
  - intros; apply H9. apply in_seq. lia.
Qed.

Lemma wf_pos : 0 < n. Proof. apply wf_split. Qed.
Lemma wf_len_right : length (t_right t) = n. Proof. apply wf_split. Qed.
Lemma wf_len_left : length (t_left t) = n. Proof. reflexivity. Qed.
Lemma wf_len_feature : length (t_feature t) = n. Proof. apply wf_split. Qed.
Lemma wf_len_thresh : length (t_thresh t) = n. Proof. apply wf_split. Qed.
Lemma wf_len_value : length (t_value t) = n. Proof. apply wf_split. Qed.
Lemma wf_len_weight : length (t_weight t) = n. Proof. apply wf_split. Qed.
Lemma wf_len_imp : length (t_imp t) = n. Proof. apply wf_split. Qed.

(** a node is a leaf or has two distinct later children *)
Lemma wf_node : forall v, v < n ->
  (lc t v = (-1)%Z /\ rc t v = (-1)%Z) \/
  (exists l r, lc t v = Z.of_nat l /\ rc t v = Z.of_nat r /\ v < l < n /\ v < r < n /\ l <> r).
Proof.
  intros v Hv. pose proof wf_split as (_&_&_&_&_&_&_&H&_). specialize (H v Hv).
  unfold node_okb in H. apply orb_true_iff in H. destruct H.
  - left. apply andb_true_iff in H. rewrite !Z.eqb_eq in H. auto.
  - right. repeat rewrite andb_true_iff in H.
    destruct H as [[[[A B] C] D] E]. apply Z.ltb_lt in A, B, C, D.
    apply negb_true_iff, Z.eqb_neq in E.
    exists (Z.to_nat (lc t v)), (Z.to_nat (rc t v)). repeat split; lia.
Qed.

Lemma lc_oob : forall v, n <= v -> lc t v = (-1)%Z.
Proof. intros. unfold lc. apply nth_overflow. auto. Qed.
Lemma rc_oob : forall v, n <= v -> rc t v = (-1)%Z.
Proof. intros. unfold rc. apply nth_overflow. rewrite wf_len_right. auto. Qed.

Lemma child_lt : forall p c, child t p c -> p < c < n.
Proof.
  intros p c H. destruct (le_lt_dec n p) as [L|L].
  - destruct H as [H|H]; [rewrite lc_oob in H by auto|rewrite rc_oob in H by auto]; lia.
  - destruct (wf_node p L) as [[A B]|(l&r&A&B&C&D&E)].
    + destruct H; lia.
    + destruct H as [H|H]; rewrite H in *; lia.
Qed.

Lemma child_fun_l : forall p l, lc t p = Z.of_nat l -> child t p l.
Proof. left; auto. Qed.
Lemma child_fun_r : forall p l, rc t p = Z.of_nat l -> child t p l.
Proof. right; auto. Qed.

Lemma parent_ex : forall c, 1 <= c < n -> exists p, child t p c.
Proof.
  intros c Hc. pose proof wf_split as (_&_&_&_&_&_&_&_&H). specialize (H c Hc).
  unfold one_parentb in H. apply Nat.eqb_eq in H.
  assert (In (Z.of_nat c) (t_left t ++ t_right t)).
  { apply (count_occ_In Z.eq_dec). lia. }
  apply in_app_or in H0. destruct H0 as [H0|H0];
    destruct (In_nth _ _ (-1)%Z H0) as (p&Hp&E); exists p; [left|right]; auto.
Qed.

Lemma parent_unique : forall p q c, child t p c -> child t q c -> p = q.
Proof.
  intros p q c H1 H2. pose proof (child_lt _ _ H1). pose proof (child_lt _ _ H2).
  pose proof wf_split as (_&_&_&_&_&_&_&_&H5). specialize (H5 c ltac:(lia)).
  unfold one_parentb in H5. apply Nat.eqb_eq in H5.
  assert (L : length (t_left t ++ t_right t) = n + n).
  { rewrite app_length, wf_len_right. reflexivity. }
  assert (A : forall v, v < n -> nth v (t_left t ++ t_right t) (-1)%Z = lc t v).
  { intros. rewrite app_nth1; auto. }
  assert (B : forall v, v < n -> nth (n + v) (t_left t ++ t_right t) (-1)%Z = rc t v).
  { intros. rewrite app_nth2; [|unfold size; lia].
    unfold rc, size. f_equal. lia. }
  destruct H1 as [H1|H1], H2 as [H2|H2].
  - apply (count_occ_nth_unique _ _ (-1)%Z p q H5); try lia; rewrite A; auto; lia.
  - assert (p = n + q); [|lia].
    apply (count_occ_nth_unique _ _ (-1)%Z p (n+q) H5); try lia; [rewrite A|rewrite B]; auto; lia.
  - assert (q = n + p); [|lia].
    apply (count_occ_nth_unique _ _ (-1)%Z q (n+p) H5); try lia; [rewrite A|rewrite B]; auto; lia.
  - assert (n + p = n + q); [|lia].
    apply (count_occ_nth_unique _ _ (-1)%Z (n+p) (n+q) H5); try lia; rewrite B; auto; lia.
Qed.

(** the two children of a node *)
Lemma child_two : forall p c l r, lc t p = Z.of_nat l -> rc t p = Z.of_nat r ->
  child t p c -> c = l \/ c = r.
Proof. intros p c l r A B [H|H]; [left|right]; lia. Qed.

Lemma leaf_no_child : forall v c, is_leafb t v = true -> ~ child t v c.
Proof.
  intros v c H H2. pose proof (child_lt _ _ H2). unfold is_leafb in H. apply Z.eqb_eq in H.
  destruct (wf_node v ltac:(lia)) as [[A B]|(l&r&A&B&_)]; destruct H2; lia.
Qed.

Lemma nonleaf_children : forall v, v < n -> is_leafb t v = false ->
  exists l r, lc t v = Z.of_nat l /\ rc t v = Z.of_nat r /\ v < l < n /\ v < r < n /\ l <> r.
Proof.
  intros v Hv H. unfold is_leafb in H. apply Z.eqb_neq in H.
  destruct (wf_node v Hv) as [[A B]|E]; [contradiction|auto].
Qed.

(** *** ancestors *)

Lemma anc_lt : forall a v, anc t a v -> a <= v /\ v < n.
Proof.
  induction 1.
  - lia.
  - pose proof (child_lt _ _ H0). lia.
Qed.

Lemma anc_child : forall p c, child t p c -> forall a, anc t a c <-> a = c \/ anc t a p.
Proof.
  intros p c H a. split.
  - intros A. inversion A; subst; auto. right.
    rewrite (parent_unique _ _ _ H H1). auto.
  - intros [->|A].
    + apply anc_refl. apply child_lt in H. lia.
    + eapply anc_step; eauto.
Qed.

Lemma anc_zero : forall a, anc t a 0 -> a = 0.
Proof. intros a H. apply anc_lt in H. lia. Qed.

Lemma node_cases : forall v, v < n -> v = 0 \/ exists p, child t p v /\ p < v.
Proof.
  intros v H. destruct v; auto. right. destruct (parent_ex (S v)) as [p Hp]; [lia|].
  exists p. split; auto. apply child_lt in Hp. lia.
Qed.

(** induction from the root downwards *)
Lemma tree_ind : forall P : nat -> Prop,
  P 0 -> (forall p c, child t p c -> P p -> P c) -> forall v, v < n -> P v.
Proof.
  intros P H0 HS v. induction v as [v IH] using lt_wf_ind. intros Hv.
  destruct (node_cases v Hv) as [->|(p&Hp&L)]; auto. apply (HS p); auto. apply IH; lia.
Qed.

Lemma anc_root : forall v, v < n -> anc t 0 v.
Proof.
  apply tree_ind.
  - apply anc_refl. apply wf_pos.
  - intros. eapply anc_step; eauto.
Qed.

Lemma anc_trans : forall a b c, anc t a b -> anc t b c -> anc t a c.
Proof. intros a b c H1 H2. induction H2; auto. apply (anc_step t a p c); auto. Qed.

Lemma anc_antisym : forall a b, anc t a b -> anc t b a -> a = b.
Proof. intros a b H1 H2. apply anc_lt in H1, H2. lia. Qed.

Lemma anc_comparable : forall a b v, anc t a v -> anc t b v -> anc t a b \/ anc t b a.
Proof.
  intros a b v H. revert b. induction H; intros b Hb; auto.
  destruct (proj1 (anc_child _ _ H0 b) Hb) as [->|Hb'].
  - left. eapply anc_step; eauto.
  - auto.
Qed.

Lemma anc_dec : forall a v, v < n -> {anc t a v} + {~ anc t a v}.
Proof.
  intros a v. induction v as [v IH] using lt_wf_rec. intros Hv.
  destruct (Nat.eq_dec a v) as [->|NE]; [left; apply anc_refl; auto|].
  destruct v as [|v]; [right; intros H; apply anc_lt in H; lia|].
  (* search the parent *)
  assert (P : {p | child t p (S v)}).
  { destruct (find (fun p => Z.eqb (lc t p) (Z.of_nat (S v)) || Z.eqb (rc t p) (Z.of_nat (S v))) (seq 0 n)) as [q|] eqn:E.
    - apply find_some in E. destruct E as [_ E]. exists q.
      apply orb_true_iff in E. rewrite !Z.eqb_eq in E. destruct E; [left|right]; auto.
    - exfalso. destruct (parent_ex (S v)) as [p Hp]; [lia|].
      pose proof (child_lt _ _ Hp).
      pose proof (find_none _ _ E p ltac:(apply in_seq; lia)) as F.
      apply orb_false_iff in F. rewrite !Z.eqb_neq in F. destruct Hp; tauto. }
  destruct P as [p Hp]. pose proof (child_lt _ _ Hp).
  destruct (IH p ltac:(lia) ltac:(lia)) as [A|A].
  - left. eapply anc_step; eauto.
  - right. intros B. apply (anc_child _ _ Hp) in B. tauto.
Qed.

(** *** depth *)

Lemma depth_lt : forall v d, depth_of t v d -> v < n.
Proof. induction 1. - apply wf_pos. - apply child_lt in H0. lia. Qed.

Lemma depth_ex : forall v, v < n -> exists d, depth_of t v d.
Proof.
  apply (tree_ind (fun v => exists d, depth_of t v d)).
  - exists 0. constructor.
  - intros p c H [d D]. exists (S d). econstructor; eauto.
Qed.

Lemma depth_child : forall p c d, child t p c -> depth_of t c d ->
  exists d', d = S d' /\ depth_of t p d'.
Proof.
  intros p c d H D. inversion D; subst.
  - apply child_lt in H. lia.
  - exists d0. split; auto. rewrite (parent_unique _ _ _ H H1). auto.
Qed.

Lemma depth_unique : forall v d d', depth_of t v d -> depth_of t v d' -> d = d'.
Proof.
  intros v d d' H. revert d'. induction H; intros d' H'.
  - inversion H'; auto. apply child_lt in H0. lia.
  - destruct (depth_child _ _ _ H0 H') as (e&->&E). f_equal. auto.
Qed.

Lemma depth_zero : forall v, depth_of t v 0 -> v = 0.
Proof. intros v H. inversion H; auto. Qed.

Lemma depth_root0 : forall d, depth_of t 0 d -> d = 0.
Proof. intros d H. eapply depth_unique; eauto. constructor. Qed.

Lemma depth_anc : forall a v da dv, anc t a v -> depth_of t a da -> depth_of t v dv ->
  da <= dv /\ (da = dv -> a = v).
Proof.
  intros a v da dv H. revert dv. induction H; intros dv Ha Hv.
  - rewrite (depth_unique _ _ _ Ha Hv). auto.
  - destruct (depth_child _ _ _ H0 Hv) as (e&->&E). destruct (IHanc _ Ha E). lia.
Qed.

(** two ancestors of the same node at the same depth coincide *)
Lemma anc_same_depth : forall a b v d, anc t a v -> anc t b v ->
  depth_of t a d -> depth_of t b d -> a = b.
Proof.
  intros a b v d A B DA DB. destruct (anc_comparable _ _ _ A B) as [H|H].
  - apply (proj2 (depth_anc _ _ _ _ H DA DB)); auto.
  - symmetry. apply (proj2 (depth_anc _ _ _ _ H DB DA)); auto.
Qed.

Lemma anc_by_depth : forall a b v da db, anc t a v -> anc t b v ->
  depth_of t a da -> depth_of t b db -> da <= db -> anc t a b.
Proof.
  intros a b v da db A B DA DB L. destruct (anc_comparable _ _ _ A B) as [H|H]; auto.
  destruct (depth_anc _ _ _ _ H DB DA). assert (E : db = da) by lia.
  rewrite (H1 E). apply anc_refl. apply anc_lt in A. apply anc_lt in H. lia.
Qed.

(** ancestor at each smaller depth *)
Lemma anc_at_depth : forall v d, depth_of t v d -> forall k, k <= d ->
  exists a, anc t a v /\ depth_of t a k.
Proof.
  induction 1; intros k Hk.
  - exists 0. split; [apply anc_refl, wf_pos|]. assert (k = 0) by lia. subst. constructor.
  - destruct (Nat.eq_dec k (S d)) as [->|NE].
    + exists c. split; [apply anc_refl; apply child_lt in H0; lia|]. econstructor; eauto.
    + destruct (IHdepth_of k ltac:(lia)) as (a&A&B). exists a. split; auto. eapply anc_step; eauto.
Qed.

(** *** counting ancestors *)

Lemma filter_add_one : forall (f g : nat -> bool) c l, NoDup l -> In c l ->
  g c = false -> f c = true -> (forall a, In a l -> a <> c -> f a = g a) ->
  length (filter f l) = S (length (filter g l)).
Proof.
  intros f g c l ND. induction ND as [|x l NI ND IH]; simpl; [tauto|].
  intros I G F E. destruct (Nat.eq_dec x c) as [->|NE].
  - rewrite F, G. simpl. f_equal. f_equal. apply filter_ext_in. intros a Ia.
    apply E; auto. intro; subst; contradiction.
  - rewrite (E x (or_introl eq_refl) NE). destruct I; [contradiction|].
    destruct (g x); simpl; rewrite IH; auto.
Qed.

Lemma count_anc : forall v d, depth_of t v d -> forall f : nat -> bool,
  (forall a, a < n -> (f a = true <-> anc t a v)) -> length (filter f (seq 0 n)) = S d.
Proof.
  induction 1; intros f Hf.
  - rewrite (filter_ext_in _ (fun a => Nat.eqb a 0)).
    + pose proof wf_pos as P0. destruct n as [|m]; [lia|]. simpl. f_equal.
      rewrite filter_ext_in with (g := fun _ => false).
      * generalize (seq 1 m). induction l; simpl; auto.
      * intros a Ha. apply in_seq in Ha. apply Nat.eqb_neq. lia.
    + intros a Ha. apply in_seq in Ha. destruct (Nat.eqb_spec a 0).
      * subst. apply Hf; [lia|]. apply anc_refl, wf_pos.
      * destruct (f a) eqn:E; auto. apply Hf in E; [|lia]. apply anc_zero in E. contradiction.
  - pose proof (child_lt _ _ H0) as L.
    assert (G : exists g : nat -> bool, forall a, (g a = true <-> anc t a p)).
    { exists (fun a => if anc_dec a p ltac:(lia) then true else false).
      intros a. destruct (anc_dec a p _); split; auto; try discriminate; contradiction. }
    destruct G as [g Hg].
    rewrite <- (IHdepth_of g (fun a _ => Hg a)).
    apply filter_add_one with (c := c).
    + apply seq_NoDup.
    + apply in_seq. lia.
    + destruct (g c) eqn:E; auto. apply Hg, anc_lt in E. lia.
    + apply Hf; [lia|]. apply anc_refl. lia.
    + intros a Ia NE. apply in_seq in Ia. apply eq_true_iff_eq.
      rewrite Hf by lia. rewrite Hg. rewrite (anc_child _ _ H0). tauto.
Qed.
End S.
