(** L_Predict: proofs about predictions (C104 to C108). *)
From Verif Require Import Base TreeSpec Spec L_Base L_Tree L_TreeModel M_Tree M_Gamma M_Levels M_Grad M_Sgd M_Smooth M_Prune M_Depth M_Main M_Predict
  SpecSmooth SpecTune SpecPredict SpecRel L_Gamma L_Gamma2 L_Route L_Depth L_Smooth2 L_Smooth3 L_Tune L_Rel4.
From Coq Require Import Reals Lra Lia.
Local Open Scope R_scope.

Lemma leaf_of_end : forall (t : tree R) x i, wf_tree t -> leaf_of t x i -> leaf_id t i = end_node t x.
Proof. intros t x i WF (Hi&Ri). apply (end_unique t WF); auto. apply leaf_id_leaf; auto. Qed.
Lemma leaf_of_ex : forall (t : tree R) x, wf_tree t -> exists i, leaf_of t x i.
Proof. intros t x W. destruct (one_leaf t W x) as (i&Hi&Ri&_). exists i. split; auto. Qed.
Lemma leaf_of_unique : forall (t : tree R) x i j, wf_tree t -> leaf_of t x i -> leaf_of t x j -> i = j.
Proof. intros t x i j W (Hi&Ri) (Hj&Rj). destruct (one_leaf t W x) as (u&_&_&U). rewrite (U i Hi Ri), (U j Hj Rj). auto. Qed.
Lemma ends_ex : forall ts x, Forall (@wf_tree R) ts -> exists lf, ends ts x lf.
Proof.
  induction ts as [|t ts IH]; intros x W.
  - exists (fun _ => O). intros [|q] t N; discriminate.
  - inversion W; subst. destruct (IH x H2) as (lf&E). destruct (leaf_of_ex t x H1) as (i&L).
    exists (fun q => match q with O => i | S q' => lf q' end). intros [|q] t' N; [inversion N; subst; auto|]. apply (E q t' N).
Qed.
Lemma relabelled_refl : forall ts, relabelled ts ts.
Proof. intros ts. split; auto. intros q t N. exists t. split; auto. repeat split. Qed.
Lemma relabelled_nth : forall ts ts' q, relabelled ts ts' -> (q < length ts)%nat ->
  exists t t', nth_error ts q = Some t /\ nth_error ts' q = Some t' /\ same_but_leaf_values t t'.
Proof.
  intros ts ts' q (L&R) Hq. destruct (nth_error ts q) as [t|] eqn:N; [|apply nth_error_None in N; lia].
  destruct (R q t N) as (t'&N'&S). exists t, t'. auto.
Qed.
Lemma end_same : forall (t t' : tree R) x, same_but_leaf_values t t' -> end_node t' x = end_node t x.
Proof. intros t t' x (A&B&C&D&_). apply end_struct; auto. Qed.

(** *** regression *)
Lemma nsum_trees : forall (f : tree R -> R) ts, nsum (map f ts) = sumto (length ts) (fun q => f (nth q ts no_tree)).
Proof.
  intros f ts. rewrite nsum_sumto, map_length. apply sumto_ext. intros q Hq. rewrite nth_map_in with (d := no_tree) by auto. auto.
Qed.
Lemma p_mean : forall cls ts ts' x lf, Forall (@wf_tree R) ts -> relabelled ts ts' -> ends ts x lf ->
  forest_predict Reg cls ts' x = leaf_mean ts' lf.
Proof.
  intros cls ts ts' x lf W RL E. cbn [forest_predict]. unfold leaf_mean, tree_mean.
  change (@ndiv R _) with Rdiv. f_equal. rewrite nsum_trees. apply sumto_ext. intros q Hq.
  destruct RL as [L RL]. rewrite L in Hq. destruct (relabelled_nth ts ts' q (conj L RL) Hq) as (t&t'&N&N'&S).
  rewrite (nth_error_nth _ _ no_tree N'). assert (WT : wf_tree t) by (eapply Forall_forall; eauto; eapply nth_error_In; eauto).
  unfold predict, leaf_v, node_v. rewrite (end_same t t' x S). destruct (same_leaf_id t t' (lf q) S) as [-> _].
  rewrite (leaf_of_end t x (lf q) WT (E q t N)). reflexivity.
Qed.
Lemma tree_mean_le : forall m f g, (forall q, (q < m)%nat -> f q <= g q) -> tree_mean m f <= tree_mean m g.
Proof.
  intros m f g H. unfold tree_mean. destruct m as [|m]; [cbn; lra|]. apply Rmult_le_compat_r.
  - apply Rlt_le, Rinv_0_lt_compat, lt_0_INR. lia.
  - apply sumto_le. auto.
Qed.
Lemma p_range_gen : forall cls ts ts' x lo hi, Forall (@wf_tree R) ts -> relabelled ts ts' ->
  (forall q t t' i, nth_error ts q = Some t -> nth_error ts' q = Some t' -> (i < n_leaves t)%nat -> lo q <= leaf_v t' 0 i <= hi q) ->
  tree_mean (length ts) lo <= forest_predict Reg cls ts' x <= tree_mean (length ts) hi.
Proof.
  intros cls ts ts' x lo hi W RL B. destruct (ends_ex ts x W) as (lf&E). rewrite (p_mean cls ts ts' x lf W RL E).
  unfold leaf_mean. pose proof (proj1 RL) as L. rewrite L.
  assert (K : forall q, (q < length ts)%nat -> lo q <= leaf_v (nth q ts' no_tree) 0 (lf q) <= hi q).
  { intros q Hq. destruct (relabelled_nth ts ts' q RL Hq) as (t&t'&N&N'&S). rewrite (nth_error_nth _ _ no_tree N').
    apply (B q t t' (lf q) N N'). apply (E q t N). }
  split; apply tree_mean_le; intros q Hq; apply (K q Hq).
Qed.
Lemma smooth_relabels : forall lg kd ts (o : smooth_opts R) rd out, smooth lg (Forest kd ts) o rd = Ok out ->
  Forall (@wf_tree R) ts -> ts <> [] -> relabelled ts (s_forest out) /\ relabelled ts (s_forest2 out).
Proof.
  intros lg kd ts o rd out H W NE. destruct (p_C16 lg kd ts o rd out H W NE) as (L1&L2&S).
  split; (split; [auto|]; intros q t N; destruct (S q t N) as (t1&t2&N1&N2&S1&S2&_); eauto).
Qed.
Lemma p_C104_mean : forall cls ts x, Forall (@wf_tree R) ts -> (exists lf, ends ts x lf) /\ forall lf, ends ts x lf -> forest_predict Reg cls ts x = leaf_mean ts lf.
Proof.
  intros cls ts x W. split; [apply ends_ex; auto|]. intros lf E. apply (p_mean cls ts ts x lf W); auto. apply relabelled_refl.
Qed.
Lemma p_C104_range : forall lg cls ts (o : smooth_opts R) rd out x lo hi, smooth lg (Forest Reg ts) o rd = Ok out ->
  Forall (@wf_tree R) ts -> Forall pos_leaves ts -> ts <> [] -> o_no_constraint o = false -> draws_nonneg o -> leaf_bounds ts lo hi ->
  (mass_left o ts (s_lamb out) \/ forall q, lo q <= 0 <= hi q) ->
  tree_mean (length ts) lo <= forest_predict Reg cls (s_forest out) x <= tree_mean (length ts) hi.
Proof.
  intros lg cls ts o rd out x lo hi H W PL NE NC DN B ML. apply p_range_gen; auto. { eapply smooth_relabels; eauto. }
  intros q t t' i N N' Hi. destruct (p_C13 lg ts o rd out H W PL NE NC DN q t N) as (t1&N1&V).
  assert (t1 = t') by congruence. subst t1.
  destruct (V i (lo q) (hi q) Hi (fun j => B q t j N)) as [A|(A&kap&KK&Z)]; auto.
  destruct ML as [ML|ML]; [|rewrite A; auto]. exfalso. apply (ML q t i kap N Hi KK). unfold kmass. apply sumto_zero.
  intros j Hj. rewrite Z by auto. ring.
Qed.
Lemma mass_plain : forall lg kd ts (o : smooth_opts R) rd out, smooth lg (Forest kd ts) o rd = Ok out -> Forall (@wf_tree R) ts -> Forall pos_leaves ts -> ts <> [] -> plain_l2 kd o ->
  o_no_constraint o = false -> draws_nonneg o -> (kd = Reg \/ 0 <= o_class_eps o) -> o_dist o = DDepth true -> mass_left o ts (s_lamb out).
Proof.
  intros lg kd ts o rd out H W PL NE PP NC DN CE OD q t i kap N Hi HK Z.
  destruct (p_C84_weights _ _ _ _ _ _ H W PL NE PP NC) as [S1 _].
  destruct (smooth_lamb_nonneg _ _ _ _ _ _ H W NE NC DN CE) as [NN _].
  rewrite Forall_forall in W, PL. pose proof (nth_error_In _ _ N) as IN.
  pose proof (kmass_zero t kap (PL t IN) (kernel_nonneg _ _ _ _ _ _ NN HK) Z i Hi) as K0.
  unfold smooth_kernel in HK. rewrite OD in HK. rewrite (own_weight t _ _ i kap (W t IN) Hi HK) in K0. lra.
Qed.
Lemma p_same_leaves : forall kd cls ts ts' x x', Forall (@wf_tree R) ts -> relabelled ts ts' -> same_leaves ts x x' ->
  forest_predict kd cls ts' x = forest_predict kd cls ts' x'.
Proof.
  intros kd cls ts ts' x x' W RL SL.
  assert (EE : forall t', In t' ts' -> end_node t' x = end_node t' x').
  { intros t' It. destruct (In_nth_error _ _ It) as (q&N'). assert (Hq : (q < length ts)%nat).
    { rewrite <- (proj1 RL). apply nth_error_Some. congruence. }
    destruct (relabelled_nth ts ts' q RL Hq) as (t&t1&N&N1&S). assert (t1 = t') by congruence. subst t1.
    assert (WT : wf_tree t) by (eapply Forall_forall; eauto; eapply nth_error_In; eauto).
    rewrite !(end_same t t') by auto. destruct (ends_ex ts x W) as (lf&E). pose proof (proj1 (SL lf) E) as E'.
    rewrite <- (leaf_of_end t x (lf q) WT (E q t N)), <- (leaf_of_end t x' (lf q) WT (E' q t N)). auto. }
  assert (PP : forall c, map (fun t => nth c (tree_proba t x) 0) ts' = map (fun t => nth c (tree_proba t x') 0) ts').
  { intros c. apply map_ext_in. intros t' It. unfold tree_proba. rewrite (EE t' It). auto. }
  destruct kd as [|nc]; cbn [forest_predict].
  - assert (MM : map (fun t => predict Reg t x) ts' = map (fun t => predict Reg t x') ts').
    { apply map_ext_in. intros t' It. unfold predict. rewrite (EE t' It). auto. }
    rewrite MM. auto.
  - assert (FP : forest_proba nc ts' x = forest_proba nc ts' x').
    { unfold forest_proba. apply map_ext. intros c. change (@n0 R _) with 0. rewrite (PP c). auto. }
    rewrite FP. auto.
Qed.
