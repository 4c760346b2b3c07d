(** L_Rel13: predictions of two forests that correspond to each other. *)
From Verif Require Import Base TreeSpec Spec M_Tree M_Gamma M_Levels M_Prox M_Grad M_Sgd M_Smooth M_Prune M_Depth M_Main M_Predict SpecSmooth SpecTune SpecRel SpecRel2 SpecPredict.
From Verif Require Import L_Base L_Tree L_TreeModel L_Depth L_Smooth L_Smooth2 L_Smooth3 L_Rel7 L_Rel9 L_Rel10 L_Rel11 L_Rel12 L_Predict L_Predict2 L_Predict4.
From Coq Require Import Reals Lra Permutation.
Local Open Scope R_scope.

(** *** nodes numbered in another order *)
Lemma end_renumbered : forall sg (t t' : tree R) x, wf_tree t -> wf_tree t' -> renumbered sg t t' -> end_node t x = sg (end_node t' x).
Proof.
  intros sg t t' x W W' (A&B&C&D). destruct (end_node_spec t' W' x) as (E1&E2&E3). rewrite A in E3. symmetry. apply (end_unique t W).
  - apply (sg_reaches sg t t' W W' A B C) with (x' := x); auto.
    + intros v Hv. apply D; auto.
    + intros v Hv L. destruct (D v Hv) as (_&E&_). destruct (E L) as (F1&F2&_). auto.
    + intros v Hv L. destruct (D v Hv) as (_&E&_). destruct (E L) as (_&_&F1&F2). change (@n0 R _) with 0 in F2. rewrite F1, F2. reflexivity.
  - destruct (D _ E3) as (<-&_). exact E1.
Qed.
Lemma rows_renumbered : forall sg (t t' : tree R) x, wf_tree t -> wf_tree t' -> renumbered sg t t' ->
  nth (end_node t' x) (t_value t') [] = nth (end_node t x) (t_value t) [].
Proof.
  intros sg t t' x W W' RN. rewrite (end_renumbered sg t t' x W W' RN). destruct RN as (A&_&_&D). destruct (end_node_spec t' W' x) as (_&_&E3). rewrite A in E3.
  destruct (D _ E3) as (_&_&E&_). exact E.
Qed.
Lemma predict_rows_same : forall kd cls (ts ts' : list (tree R)) x x', length ts' = length ts ->
  (forall q t t', nth_error ts q = Some t -> nth_error ts' q = Some t' -> nth (end_node t' x') (t_value t') [] = nth (end_node t x) (t_value t) []) ->
  forest_predict kd cls ts' x' = forest_predict kd cls ts x /\ forall nc, forest_proba nc ts' x' = forest_proba nc ts x.
Proof.
  intros kd cls ts ts' x x' LEN H.
  assert (MM : forall f : list R -> R, map (fun t => f (nth (end_node t x') (t_value t) [])) ts' = map (fun t => f (nth (end_node t x) (t_value t) [])) ts).
  { intros f. revert ts' LEN H. induction ts as [|t ts IH]; intros [|t' ts'] L H; try discriminate; [reflexivity|]. cbn [map]. f_equal.
    - rewrite (H 0%nat t t' eq_refl eq_refl). reflexivity.
    - apply IH; [cbn in L; lia|]. intros q. apply (H (S q)). }
  assert (PP : forall nc, forest_proba nc ts' x' = forest_proba nc ts x).
  { intros nc. unfold forest_proba. apply map_ext. intros c. rewrite LEN. do 2 f_equal.
    exact (MM (fun v => nth c (map (fun a => ndiv a (if neqb (nsum v) n0 then n1 else nsum v)) v) n0)). }
  split; [|exact PP]. unfold forest_predict. destruct kd as [|nc]; [|rewrite PP; reflexivity]. rewrite LEN. do 2 f_equal. exact (MM (fun v => nth 0 v n0)).
Qed.
Lemma p_renumbered_predict : forall lg kd (o : smooth_opts R) pa sg ts ts' rd out cls x, Forall wf_tree ts -> Forall wf_tree ts' -> ts <> [] -> o_dist o = DDepth pa ->
  all_renumbered sg ts ts' -> smooth lg (Forest kd ts) o rd = Ok out ->
  forest_predict kd cls ts' x = forest_predict kd cls ts x /\
  exists out', smooth lg (Forest kd ts') o rd = Ok out' /\ forest_predict kd cls (s_forest out') x = forest_predict kd cls (s_forest out) x /\
    forall nc, forest_proba nc (s_forest out') x = forest_proba nc (s_forest out) x.
Proof.
  intros lg kd o pa sg ts ts' rd out cls x WF WF' NE DD RN H.
  assert (GEN : forall us us', Forall wf_tree us -> Forall wf_tree us' -> all_renumbered sg us us' ->
    forest_predict kd cls us' x = forest_predict kd cls us x /\ forall nc, forest_proba nc us' x = forest_proba nc us x).
  { intros us us' W W' (L&R1). apply predict_rows_same; auto. intros q t t' N N'. rewrite Forall_forall in W, W'.
    apply (rows_renumbered (sg q)); [apply W; eapply nth_error_In; eauto|apply W'; eapply nth_error_In; eauto|apply R1; auto]. }
  split; [apply GEN; auto|]. destruct (p_renumbered lg kd o pa sg ts ts' rd out WF WF' NE DD RN H) as (out'&P0&_&_&_&_&P5). exists out'. split; [exact P0|].
  assert (NE' : ts' <> []). { intros X. destruct RN as (L&_). rewrite X in L. destruct ts; [congruence|discriminate]. }
  assert (WK : forall us us', Forall wf_tree us -> relabelled us us' -> Forall wf_tree us').
  { intros us us' W (L&RL). apply Forall_forall. intros b Hb. destruct (In_nth_error _ _ Hb) as (q&Nq). assert (q < length us)%nat by (rewrite <- L; apply nth_error_Some; congruence).
    destruct (nth_error us q) as [a|] eqn:Na; [|apply nth_error_None in Na; lia]. destruct (RL q a Na) as (b'&Nb'&SB). assert (b' = b) by congruence. subst b'.
    eapply wf_keep; eauto. rewrite Forall_forall in W. apply W. eapply nth_error_In; eauto. }
  apply GEN; [apply (WK ts)|apply (WK ts')|exact P5]; auto; eapply smooth_relabels; eauto.
Qed.

(** *** order of the classes *)
Lemma end_class : forall nc tau (t : tree R) x, end_node (class_tree nc tau t) x = end_node t x.
Proof. intros. apply end_struct; reflexivity. Qed.
Lemma nsum_class : forall nc tau (v : list R), Permutation (map tau (seq 0 nc)) (seq 0 nc) -> length v = nc -> nsum (class_row nc tau v) = nsum v.
Proof.
  intros nc tau v TAU L. unfold class_row. rewrite <- (map_map tau (fun c => nth c v n0)). rewrite (nsum_perm _ (map (fun c => nth c v n0) (seq 0 nc))) by (apply Permutation_map, TAU).
  rewrite <- L. rewrite map_nth_seq. reflexivity.
Qed.
Lemma proba_class : forall nc tau (ts : list (tree R)) x, Permutation (map tau (seq 0 nc)) (seq 0 nc) -> Forall wf_tree ts ->
  (forall t i, In t ts -> (i < n_leaves t)%nat -> length (nth (leaf_id t i) (t_value t) []) = nc) ->
  forest_proba nc (map (class_tree nc tau) ts) x = class_row nc tau (forest_proba nc ts x).
Proof.
  intros nc tau ts x TAU WF LR. unfold forest_proba, class_row. apply map_ext_in. intros c Hc. apply in_seq in Hc.
  rewrite nth_map_seq by (apply (perm_bound _ _ TAU); lia). rewrite map_length, map_map. do 2 f_equal. apply map_ext_in. intros t Ht.
  rewrite Forall_forall in WF. specialize (WF t Ht). destruct (leaf_of_ex t x WF) as (i&LO). pose proof (leaf_of_end t x i WF LO) as EN. specialize (LR t i Ht (proj1 LO)). rewrite EN in LR.
  unfold tree_proba. rewrite end_class. cbn [class_tree t_value]. destruct (end_node_spec t WF x) as (_&_&E3).
  rewrite (nth_map_in _ _ _ [] []) by (rewrite (wf_len_value t WF); exact E3). set (v := nth (end_node t x) (t_value t) []) in *. rewrite nsum_class by auto.
  rewrite (nth_map_in _ _ _ 0 n0) by (rewrite class_row_length; lia). rewrite class_row_nth by lia.
  rewrite (nth_map_in _ _ _ 0 n0) by (rewrite LR; apply (perm_bound _ _ TAU); lia). reflexivity.
Qed.
Lemma p_classes_predict : forall nc tau lg (o : smooth_opts R) phi cs cs' ts rd out x, Permutation (map tau (seq 0 nc)) (seq 0 nc) -> Forall wf_tree ts -> ts <> [] ->
  relabels nc tau phi cs cs' -> (forall y, o_y_trained o = Some y -> incl y cs) ->
  smooth lg (Forest (Class nc) ts) o rd = Ok out ->
  exists out', smooth lg (Forest (Class nc) (map (class_tree nc tau) ts)) (class_opts nc tau phi o) rd = Ok out' /\
    forest_proba nc (s_forest out') x = class_row nc tau (forest_proba nc (s_forest out) x).
Proof.
  intros nc tau lg o phi cs cs' ts rd out x TAU WF NE RL IY H. exists (on_trees (class_tree nc tau) out).
  split; [apply (p_classes nc tau TAU lg o phi cs cs'); auto|]. cbn [on_trees s_forest].
  destruct (smooth_desc lg (Class nc) ts o rd out H WF NE) as (_&_&_&LF&_&VF&_). destruct (smooth_relabels lg (Class nc) ts o rd out H WF NE) as (_&_).
  assert (AT : forall b, In b (s_forest out) -> exists t, In t ts /\ leaves_as (Class nc) o ts (s_lamb out) t b).
  { intros b Hb. destruct (In_nth_error _ _ Hb) as (q&Nq). assert (q < length ts)%nat by (rewrite <- LF; apply nth_error_Some; congruence).
    destruct (nth_error ts q) as [a|] eqn:Na; [|apply nth_error_None in Na; lia]. destruct (VF q a Na) as (b'&Nb'&SB). assert (b' = b) by congruence. subst b'.
    exists a. split; [eapply nth_error_In; eauto|auto]. }
  rewrite Forall_forall in WF. apply proba_class; auto.
  - apply Forall_forall. intros b Hb. destruct (AT b Hb) as (t&Ht&(SB&_)). eapply wf_keep; eauto.
  - intros b i Hb Hi. destruct (AT b Hb) as (t&Ht&(SB&V)). destruct (same_leaf_id t b i SB) as (NL&NN).
    rewrite NL. destruct (V i ltac:(lia)) as (kap&_&_&V1&_). exact V1.
Qed.

(** *** numbering of the features *)
Lemma p_features_predict : forall p pi kd cls (ts : list (tree R)) x x', Forall wf_tree ts ->
  (forall t v, In t ts -> (v < size t)%nat -> is_leafb t v = false -> (nth v (t_feature t) 0 < p)%nat) ->
  (forall f, (f < p)%nat -> nth (pi f) x' 0 = nth f x 0) ->
  forest_predict kd cls (map (feature_tree pi) ts) x' = forest_predict kd cls ts x /\ forall nc, forest_proba nc (map (feature_tree pi) ts) x' = forest_proba nc ts x.
Proof.
  intros p pi kd cls ts x x' WF HV OR. apply predict_rows_same; [apply map_length|]. intros q t t' N N'. rewrite nth_error_map, N in N'. cbn in N'. inversion N'; subst t'.
  assert (Ht : In t ts) by (eapply nth_error_In; eauto). rewrite Forall_forall in WF. unfold end_node. change (size (feature_tree pi t)) with (size t).
  rewrite (path_renamed p pi t x x'); eauto. apply (wf_pos t); auto.
Qed.
