(** L_Depth: lemmas about tune_depth.py. *)
From Verif Require Import Base TreeSpec Spec M_Tree M_Gamma M_Levels M_Smooth M_Prune M_Depth SpecDepth
  L_Base L_Tree L_TreeModel L_TreeModel2 L_Dist L_Gamma L_Gamma2 L_Sgd L_Smooth L_Smooth3 L_Smooth4 L_Route L_Prune4.
From Coq Require Import Reals Lra Lia.
Local Open Scope R_scope.

(** *** cut nodes *)
Section Cut.
Context {T : Type} {NT : Num T}.
Variable t : tree T.
Hypothesis WF : wf_tree t.

Lemma cut_ex : forall k v, (v < size t)%nat -> exists a, cut_node t k v a.
Proof.
  intros k v Hv. destruct (depth_ex t WF v Hv) as [d D]. destruct (anc_at_depth t WF v d D (Nat.min k d)) as (a&A&DA); [lia|].
  exists a, d. auto.
Qed.
Lemma cut_unique : forall k v a b, cut_node t k v a -> cut_node t k v b -> a = b.
Proof.
  intros k v a b (d&D&A&DA) (e&E&B&DB). rewrite (depth_unique t WF _ _ _ E D) in DB.
  eapply (anc_same_depth t WF); eauto.
Qed.
Lemma cut_lt : forall k v a, cut_node t k v a -> (v < size t)%nat /\ (a < size t)%nat.
Proof. intros k v a (d&D&A&DA). split; [eapply depth_lt; eauto|]. eapply depth_lt; eauto. Qed.

Lemma list_maxn_le : forall l m, (forall x, In x l -> (x <= m)%nat) -> (list_maxn l <= m)%nat.
Proof.
  intros l m H. destruct l as [|x l]; [cbn; lia|]. apply H. apply list_maxn_in. congruence.
Qed.
Lemma lowest_cut : forall k v, (v < size t)%nat ->
  cut_node t k v (lowest_viable (depth_per_node t) (nth v (v_all t) []) k).
Proof.
  intros k v Hv. destruct (cut_ex k v Hv) as [a C]. destruct (cut_lt _ _ _ C) as [_ La].
  replace (lowest_viable _ _ _) with a; auto. unfold lowest_viable.
  set (row := nth v (v_all t) []). assert (LR : length row = size t) by (apply v_row_len; auto).
  set (f := fun r u => Nat.mul r (if Nat.leb (nth u (depth_per_node t) O) k then u else O)).
  assert (E : forall u, (u < size t)%nat -> nth u (map2 f row (seq 0 (length row))) O = f (nth u row O) u).
  { intros u Hu. rewrite nth_map2 with (da := O) (db := O) by (rewrite ?seq_length; lia). rewrite seq_nth by lia. auto. }
  assert (LM : length (map2 f row (seq 0 (length row))) = size t) by (rewrite map2_length, seq_length; lia).
  destruct C as (d&D&A&DA). apply Nat.le_antisymm.
  - assert (X : f (nth a row O) a = a).
    { unfold f, row. rewrite (v_all_anc t WF v a Hv La A). apply (depth_per_node_iff t WF) in DA; auto. rewrite DA.
      destruct (Nat.leb_spec (Nat.min k d) k); lia. }
    rewrite <- X at 1. apply list_maxn_ge. rewrite <- E by auto. apply nth_In. lia.
  - apply list_maxn_le. intros x I. destruct (In_nth _ _ O I) as (u&Hu&<-). rewrite LM in Hu. rewrite E by auto.
    unfold f, row. destruct (anc_dec t WF u v Hv) as [AU|NA]; [|rewrite (v_all_not t WF v u Hv Hu NA); lia].
    rewrite (v_all_anc t WF v u Hv Hu AU). destruct (Nat.leb_spec (nth u (depth_per_node t) O) k) as [Y|Y]; [|lia].
    pose proof (depth_per_node_correct t WF u Hu) as DU. destruct (depth_anc t WF u v _ _ AU DU D) as [Z _].
    assert (AA : anc t u a) by (apply (anc_by_depth t WF u a v _ _ AU A DU DA); lia).
    apply (anc_lt t WF) in AA. lia.
Qed.

Lemma lpv_length : length (leaf_predicted_values t) = max_depth_of t.
Proof. unfold leaf_predicted_values. rewrite map_length, seq_length. auto. Qed.
Lemma lpv_row_length : forall k, (k < max_depth_of t)%nat -> length (nth k (leaf_predicted_values t) []) = n_leaves t.
Proof.
  intros k Hk. unfold leaf_predicted_values. rewrite nth_map_seq by exact Hk. rewrite map_length. apply v_leaf_length; auto.
Qed.
Lemma lpv_entry : forall k i a, (k < max_depth_of t)%nat -> (i < n_leaves t)%nat -> cut_node t k (leaf_id t i) a ->
  nth i (nth k (leaf_predicted_values t) []) [] = nth a (t_value t) [].
Proof.
  intros k i a Hk Hi C. unfold leaf_predicted_values. rewrite nth_map_seq by exact Hk.
  rewrite nth_map_in with (d := []) by (rewrite v_leaf_length; auto). cbn [Nat.add].
  rewrite (v_leaf_rows t WF). rewrite nth_map_in with (d := O) by exact Hi. fold (leaf_id t i).
  f_equal. eapply cut_unique; eauto. apply lowest_cut. apply leaf_id_lt; auto.
Qed.
Lemma tree_depth_iff : forall d, tree_depth t d <-> d = max_depth_of t.
Proof.
  assert (M : tree_depth t (max_depth_of t)).
  { split.
    - intros t' v d [<-|[]] D. exact (depth_le_max t WF v d D).
    - pose proof (depth_per_node_length t WF) as L. pose proof (wf_pos t WF) as P.
      destruct (In_nth (depth_per_node t) (max_depth_of t) O) as (v&Hv&E2).
      { apply list_maxn_in. intros X. rewrite X in L. cbn in L. lia. }
      exists t, v. split; [left; auto|]. rewrite <- E2. apply depth_per_node_correct; auto. rewrite <- L. auto. }
  intros d. split; [|intros ->; auto]. intros [H1 (t'&v&[<-|[]]&H2)].
  destruct M as [M1 (t'&u&[<-|[]]&M2)]. pose proof (M1 t v d (or_introl eq_refl) H2). pose proof (H1 t u _ (or_introl eq_refl) M2). lia.
Qed.
Lemma depth_pos : (1 < size t)%nat -> (0 < max_depth_of t)%nat.
Proof.
  intros H. destruct (parent_ex t WF 1) as [p P]; [lia|].
  destruct (depth_ex t WF 1) as [d D]; [lia|]. destruct (depth_child t WF _ _ _ P D) as (e&->&_).
  pose proof (depth_le_max t WF _ _ D). lia.
Qed.
Lemma depth_single : size t = 1%nat -> max_depth_of t = O.
Proof.
  intros H. destruct (proj2 (tree_depth_iff _) eq_refl) as [_ (t'&v&[<-|[]]&D)].
  pose proof (depth_lt t WF _ _ D). assert (v = O) by lia. subst. apply (depth_root0 t WF _ D).
Qed.

(** the node where an observation ends *)
Lemma last_leaf : forall x f v, (v < size t)%nat -> (size t <= v + f)%nat ->
  is_leafb t (last (path_nodes f t x v) O) = true /\ In (last (path_nodes f t x v) O) (path_nodes f t x v).
Proof.
  intros x. induction f as [|f IH]; intros v Hv Hf; [lia|]. rewrite path_eq. destruct (is_leafb t v) eqn:E.
  - cbn. auto.
  - destruct (nxt_child t WF x v Hv E) as (_&Rg&_). destruct (IH (nxt t x v)) as [A B]; [lia|lia|].
    destruct (path_nodes f t x (nxt t x v)) as [|u r] eqn:P; [destruct B|].
    change (last (v :: u :: r) O) with (last (u :: r) O). split; auto. right. auto.
Qed.
Lemma end_node_spec : forall x, is_leafb t (end_node t x) = true /\ reaches t x (end_node t x) /\ (end_node t x < size t)%nat.
Proof.
  intros x. destruct (last_leaf x (size t) O (wf_pos t WF) ltac:(lia)) as [A B]. unfold end_node.
  apply (path_reaches t WF x) in B. split; auto. split; auto. eapply (reaches_lt t WF); eauto.
Qed.
Lemma end_unique : forall x v, reaches t x v -> is_leafb t v = true -> v = end_node t x.
Proof.
  intros x v Hv Lv. destruct (end_node_spec x) as (A&B&C). destruct (one_leaf t WF x) as (i&_&_&U).
  assert (LI : forall u, (u < size t)%nat -> is_leafb t u = true -> exists j, (j < n_leaves t)%nat /\ leaf_id t j = u).
  { intros u Hu Lu. assert (I : In u (leaf_ids t)) by (apply leaf_ids_spec; auto). destruct (In_nth _ _ O I) as (j&Hj&Ej). eauto. }
  destruct (LI v (reaches_lt t WF x v Hv) Lv) as (j&Hj&<-). destruct (LI _ C A) as (j'&Hj'&E'). rewrite <- E' in *.
  rewrite (U j Hj Hv), (U j' Hj' B). auto.
Qed.
End Cut.

Lemma path_struct : forall {T} {NT : Num T} (t t' : tree T), t_left t' = t_left t -> t_right t' = t_right t ->
  t_feature t' = t_feature t -> t_thresh t' = t_thresh t -> forall x f v, path_nodes f t' x v = path_nodes f t x v.
Proof.
  intros T NT t t' E1 E2 E3 E4 x. induction f as [|f IH]; intros v; cbn [path_nodes]; unfold is_leafb, lc, rc; rewrite ?E1, ?E2, ?E3, ?E4; auto.
  destruct (Z.eqb _ _); auto. f_equal. apply IH.
Qed.
Lemma end_struct : forall {T} {NT : Num T} (t t' : tree T), t_left t' = t_left t -> t_right t' = t_right t ->
  t_feature t' = t_feature t -> t_thresh t' = t_thresh t -> forall x, end_node t' x = end_node t x.
Proof. intros. unfold end_node. rewrite (path_struct t t') by auto. unfold size. rewrite H. auto. Qed.

(** *** overwriting leaf values *)
Lemma mask_assign_twice : forall {A} m (l p q : list A), length m = length l -> length q = length (filter (fun b => b) m) ->
  mask_assign m (mask_assign m l p) q = mask_assign m l q.
Proof.
  induction m as [|b m IH]; intros [|x l] p q L1 L2; auto; try discriminate.
  destruct b; cbn [mask_assign filter] in *.
  - destruct q as [|y q]; [discriminate|]. cbn in L1, L2. destruct p as [|z p]; cbn; rewrite IH; auto; lia.
  - cbn in L1. rewrite IH; auto.
Qed.

Section Write.
Variable t : tree R.
Hypothesis WF : wf_tree t.

Lemma set_leaves_write : forall pred, length pred = n_leaves t -> write_leaves pred 0 t = Ok (set_leaves t pred).
Proof.
  intros pred L. unfold write_leaves. rewrite (num_leaf_eq t). cbn [skipn]. rewrite <- L, firstn_all, Nat.eqb_refl. reflexivity.
Qed.
Lemma set_leaves_ok : forall pred, length pred = n_leaves t ->
  same_but_leaf_values t (set_leaves t pred) /\
  forall i, (i < n_leaves t)%nat -> nth (leaf_id t i) (t_value (set_leaves t pred)) [] = nth i pred [].
Proof.
  intros pred L. destruct (write_leaves_ok t WF pred 0) as (t'&E&S1&S2); [lia|].
  rewrite set_leaves_write in E by auto. assert (t' = set_leaves t pred) by congruence. subst t'. auto.
Qed.
Lemma set_leaves_twice : forall p q, length q = n_leaves t -> set_leaves (set_leaves t p) q = set_leaves t q.
Proof.
  intros p q L. unfold set_leaves, set_values. cbn [t_left t_right t_feature t_thresh t_value t_weight t_imp]. f_equal.
  apply mask_assign_twice.
  - rewrite map_length, (wf_len_value t WF). reflexivity.
  - rewrite L, <- (num_leaf_eq t). unfold num_leaf. generalize (t_left t). induction l as [|c l IH]; auto. cbn.
    destruct (Z.eqb c (-1)); cbn; rewrite IH; auto.
Qed.
Definition cutk (k : nat) : tree R := set_leaves t (nth k (leaf_predicted_values t) []).
Lemma cutk_cut : forall k, (k < max_depth_of t)%nat -> cut_tree t k (cutk k).
Proof.
  intros k Hk. destruct (set_leaves_ok (nth k (leaf_predicted_values t) [])) as [A B]; [apply lpv_row_length; auto|].
  split; auto. intros v a Hv Lv C. assert (I : In v (leaf_ids t)) by (apply leaf_ids_spec; auto).
  destruct (In_nth _ _ O I) as (i&Hi&Ei). fold (leaf_id t i) in Ei. rewrite <- Ei in *. unfold cutk. rewrite B by exact Hi.
  apply lpv_entry; auto.
Qed.
End Write.

(** *** the loss of one tree *)
Lemma argmax_first : forall l : list R, l <> [] -> forall i, (i < argmax l)%nat -> nth i l 0 < nth (argmax l) l 0.
Proof.
  intros [|x r] NE; [congruence|]. unfold argmax. clear NE.
  assert (G : forall r pre s m b, s = length (x :: pre) -> (b < s)%nat -> m = nth b (x :: pre) 0 ->
    (forall i, (i < b)%nat -> nth i (x :: pre) 0 < m) -> (forall i, (i < s)%nat -> nth i (x :: pre) 0 <= m) ->
    forall i, (i < snd (fold_left (fun '(m, b) '(y, k) => if nltb m y then (y, k) else (m, b)) (combine r (seq s (length r))) (m, b)))%nat ->
    nth i (x :: pre ++ r) 0 < nth (snd (fold_left (fun '(m, b) '(y, k) => if nltb m y then (y, k) else (m, b)) (combine r (seq s (length r))) (m, b))) (x :: pre ++ r) 0).
  { induction r0 as [|y r0 IH]; intros pre s m b Es Hb Em H1 H2.
    - cbn [length seq combine fold_left snd]. intros i Hi. rewrite app_nil_r, <- Em. auto.
    - cbn [length seq combine fold_left].
      assert (EQ : pre ++ y :: r0 = (pre ++ [y]) ++ r0) by (rewrite <- app_assoc; auto). rewrite EQ.
      assert (LP : S s = length (x :: pre ++ [y])) by (cbn; rewrite app_length; cbn in *; lia).
      assert (N1 : forall i, (i < s)%nat -> nth i (x :: pre ++ [y]) 0 = nth i (x :: pre) 0).
      { intros i Hi. change (x :: pre ++ [y]) with ((x :: pre) ++ [y]). rewrite app_nth1 by (cbn in *; lia). auto. }
      assert (N2 : nth s (x :: pre ++ [y]) 0 = y) by (subst s; cbn; apply nth_middle).
      assert (N3 : forall i, (i < S s)%nat -> i = s \/ (i < s)%nat) by (intros; lia).
      change (@nltb R _ m y) with (Rltb m y). destruct (Rltb_spec m y) as [L|L].
      + apply IH; auto.
        * intros i Hi. rewrite N1 by lia. specialize (H2 i Hi). lra.
        * intros i Hi. destruct (N3 i Hi) as [->|Hi']; [rewrite N2; lra|]. rewrite N1 by auto. specialize (H2 i Hi'). lra.
      + apply IH; auto.
        * rewrite N1 by auto. auto.
        * intros i Hi. rewrite N1 by lia. auto.
        * intros i Hi. destruct (N3 i Hi) as [->|Hi']; [rewrite N2; lra|]. rewrite N1 by auto. auto. }
  intros i. apply (G r [] 1%nat x O); auto.
  - intros j Hj. lia.
  - intros j Hj. assert (j = O) by lia. subst. cbn. lra.
Qed.
Lemma argmax_majority : forall (t : tree R) a, nth a (t_value t) [] <> [] -> majority t a (argmax (nth a (t_value t) [])).
Proof.
  intros t a NE. destruct (argmax_spec _ NE) as [A B]. split; auto. split; [intros; apply B; auto|].
  intros. apply (argmax_first _ NE). auto.
Qed.
