(** L_Route: an observation visits exactly the nodes it reaches and ends in one leaf. *)
From Verif Require Import Base TreeSpec M_Tree M_Gamma M_Levels M_Prox M_Grad M_Sgd M_Smooth L_Base L_Tree L_TreeModel.
From Coq Require Import Lia.

Section Route.
Context {T : Type} {NT : Num T}.
Variable t : tree T.
Hypothesis WF : wf_tree t.
Variable x : list T.

Definition goes_left (v : nat) : bool := nleb (nth (nth v (t_feature t) 0) x n0) (nth v (t_thresh t) n0).
Definition nxt (v : nat) : nat := Z.to_nat (if goes_left v then lc t v else rc t v).

Lemma nxt_child : forall v, v < size t -> is_leafb t v = false ->
  child t v (nxt v) /\ v < nxt v < size t /\
  (goes_left v = true -> lc t v = Z.of_nat (nxt v)) /\ (goes_left v = false -> rc t v = Z.of_nat (nxt v)).
Proof.
  intros v Hv NL. destruct (nonleaf_children t WF v Hv NL) as (l&r&EL&ER&_). unfold nxt.
  destruct (goes_left v) eqn:G.
  - rewrite EL, to_nat_of. split; [left; auto|]. split; [apply (child_lt t WF v l); left; auto|]. split; [auto|discriminate].
  - rewrite ER, to_nat_of. split; [right; auto|]. split; [apply (child_lt t WF v r); right; auto|]. split; [discriminate|auto].
Qed.
Lemma reaches_lt : forall v, reaches t x v -> v < size t.
Proof.
  intros v H. induction H as [|p c _ _ L|p c _ _ L]; [apply wf_pos; auto|apply (child_lt t WF p c); left; auto|
    apply (child_lt t WF p c); right; auto].
Qed.
Lemma reaches_nxt : forall v, reaches t x v -> is_leafb t v = false -> reaches t x (nxt v).
Proof.
  intros v H NL. destruct (nxt_child v (reaches_lt v H) NL) as (_&_&A&B). destruct (goes_left v) eqn:G.
  - eapply reach_left; eauto.
  - eapply reach_right; eauto.
Qed.
Lemma path_eq : forall f v, path_nodes (S f) t x v = if is_leafb t v then [v] else v :: path_nodes f t x (nxt v).
Proof. intros. cbn [path_nodes]. destruct (is_leafb t v); auto. Qed.
Lemma path_head : forall f v, In v (path_nodes f t x v).
Proof. intros [|f] v; [cbn; destruct (is_leafb t v); left; auto|]. rewrite path_eq. destruct (is_leafb t v); left; auto. Qed.

Lemma path_sound : forall f v u, reaches t x v -> In u (path_nodes f t x v) -> reaches t x u.
Proof.
  induction f as [|f IH]; intros v u H I.
  - cbn in I. destruct (is_leafb t v); destruct I as [<-|[]]; auto.
  - rewrite path_eq in I. destruct (is_leafb t v) eqn:E; [destruct I as [<-|[]]; auto|].
    destruct I as [<-|I]; auto. apply (IH (nxt v)); auto. apply reaches_nxt; auto.
Qed.
Lemma path_closed : forall f v u, v < size t -> size t <= v + f -> In u (path_nodes f t x v) -> is_leafb t u = false ->
  In (nxt u) (path_nodes f t x v).
Proof.
  induction f as [|f IH]; intros v u Hv Hf I NL; [lia|]. rewrite path_eq in *.
  destruct (is_leafb t v) eqn:E; [destruct I as [<-|[]]; congruence|].
  destruct (nxt_child v Hv E) as (_&R&_).
  destruct I as [<-|I]; right; [apply path_head|apply IH; auto; lia].
Qed.
Lemma path_reaches : forall u, In u (path_nodes (size t) t x 0) <-> reaches t x u.
Proof.
  intros u. split; [apply path_sound; constructor|].
  pose proof (wf_pos t WF) as P. intros H. induction H as [|p c Hp IH L G|p c Hp IH L G]; [apply path_head| |].
  - assert (NL : is_leafb t p = false) by (unfold is_leafb; rewrite L; apply of_nat_neq).
    replace c with (nxt p) by (unfold nxt, goes_left; rewrite G, L; apply to_nat_of). apply path_closed; auto; lia.
  - assert (NL : is_leafb t p = false).
    { destruct (is_leafb t p) eqn:E; auto. exfalso. apply (leaf_no_child t WF p c E). right; auto. }
    replace c with (nxt p) by (unfold nxt, goes_left; rewrite G, L; apply to_nat_of). apply path_closed; auto; lia.
Qed.
Lemma path_one_leaf : forall f v, v < size t -> size t <= v + f ->
  exists l, filter (is_leafb t) (path_nodes f t x v) = [l].
Proof.
  induction f as [|f IH]; intros v Hv Hf; [lia|]. rewrite path_eq. destruct (is_leafb t v) eqn:E.
  - exists v. cbn. rewrite E. auto.
  - destruct (nxt_child v Hv E) as (_&R&_). destruct (IH (nxt v)) as (l&L); [lia|lia|]. exists l. cbn [filter]. rewrite E. auto.
Qed.
Lemma one_leaf : exists i, i < n_leaves t /\ reaches t x (leaf_id t i) /\
  forall j, j < n_leaves t -> reaches t x (leaf_id t j) -> j = i.
Proof.
  destruct (path_one_leaf (size t) 0 (wf_pos t WF) ltac:(lia)) as (l&E).
  assert (IL : In l (filter (is_leafb t) (path_nodes (size t) t x 0))) by (rewrite E; left; auto).
  apply filter_In in IL. destruct IL as [I1 I2]. apply path_reaches in I1.
  assert (ML : In l (leaf_ids t)) by (apply leaf_ids_spec; split; auto; apply reaches_lt; auto).
  destruct (In_nth _ _ 0 ML) as (i&Hi&Ei). exists i. split; auto. split; [unfold leaf_id; rewrite Ei; auto|].
  intros j Hj Rj. apply (leaf_id_inj t j i); auto. unfold leaf_id at 2. rewrite Ei.
  assert (IJ : In (leaf_id t j) (filter (is_leafb t) (path_nodes (size t) t x 0))).
  { apply filter_In. split; [apply path_reaches; auto|apply leaf_id_leaf; auto]. }
  rewrite E in IJ. destruct IJ as [<-|[]]. auto.
Qed.
End Route.
