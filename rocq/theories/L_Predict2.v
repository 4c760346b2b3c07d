(** L_Predict2: class probabilities (C105, C106). *)
From Verif Require Import Base TreeSpec Spec L_Base L_Tree L_TreeModel M_Tree M_Gamma M_Levels M_Grad M_Sgd M_Smooth M_Prune M_Depth M_Main M_Predict
  SpecSmooth SpecTune SpecPredict SpecRel L_Gamma L_Gamma2 L_Route L_Prune4 L_Depth L_Smooth2 L_Smooth3 L_Tune L_Rel4 L_Predict.
From Coq Require Import Reals Lra Lia.
Local Open Scope R_scope.

Lemma guarded : forall a s : R, ndiv a (if neqb s n0 then n1 else s) = a / (if Req_EM_T s 0 then 1 else s).
Proof. intros a s. change (@neqb R _ s n0) with (Reqb s 0). unfold Reqb. destruct (Req_EM_T s 0); reflexivity. Qed.
(** probabilities of one tree, from the row of the leaf *)
Lemma proba_row : forall (t : tree R) x i, wf_tree t -> leaf_of t x i ->
  forall nc, length (nth (leaf_id t i) (t_value t) []) = nc -> forall c, (c < nc)%nat ->
  nth c (tree_proba t x) 0 = leaf_v t c i / (if Req_EM_T (sumto nc (fun c => leaf_v t c i)) 0 then 1 else sumto nc (fun c => leaf_v t c i)).
Proof.
  intros t x i W L nc LN c Hc. unfold tree_proba. rewrite <- (leaf_of_end t x i W L).
  assert (SS : nsum (nth (leaf_id t i) (t_value t) []) = sumto nc (fun c => leaf_v t c i)).
  { rewrite nsum_sumto, LN. reflexivity. }
  rewrite SS. rewrite nth_map_in with (d := 0) by lia. rewrite guarded. reflexivity.
Qed.
Lemma proba_nth : forall nc (ts : list (tree R)) x c, (c < nc)%nat ->
  nth c (forest_proba nc ts x) 0 = tree_mean (length ts) (fun q => nth c (tree_proba (nth q ts no_tree) x) 0).
Proof.
  intros nc ts x c Hc. unfold forest_proba. rewrite nth_map_seq by auto. unfold tree_mean. change (@ndiv R _) with Rdiv.
  f_equal. rewrite nsum_trees. reflexivity.
Qed.
Lemma tree_mean_ext : forall m f g, (forall q, (q < m)%nat -> f q = g q) -> tree_mean m f = tree_mean m g.
Proof. intros m f g H. unfold tree_mean. f_equal. apply sumto_ext. auto. Qed.
Lemma tree_mean_const : forall m c, (0 < m)%nat -> tree_mean m (fun _ => c) = c.
Proof. intros m c Hm. unfold tree_mean. rewrite sumto_const. field. apply not_0_INR. lia. Qed.
Lemma tree_mean_sum : forall m nc f, sumto nc (fun c => tree_mean m (f c)) = tree_mean m (fun q => sumto nc (fun c => f c q)).
Proof. intros m nc f. unfold tree_mean. unfold Rdiv. rewrite sumto_scal_r. f_equal. apply sumto_swap. Qed.

(** original forest: mean of the class proportions *)
Lemma p_C105_original : forall nc ts x lf, Forall (@wf_tree R) ts -> Forall (wf_values (Class nc)) ts -> Forall pos_leaves ts -> Forall (class_counts nc) ts ->
  ends ts x lf -> forall c, (c < nc)%nat ->
  nth c (forest_proba nc ts x) 0 = tree_mean (length ts) (fun q => leaf_v (nth q ts no_tree) c (lf q) / leaf_w (nth q ts no_tree) (lf q)).
Proof.
  intros nc ts x lf W WV PL CC E c Hc. rewrite proba_nth by auto. apply tree_mean_ext. intros q Hq.
  assert (N : nth_error ts q = Some (nth q ts no_tree)) by (apply nth_error_nth'; auto). pose proof (nth_error_In _ _ N) as IN.
  rewrite Forall_forall in W, WV, PL, CC. set (t := nth q ts no_tree) in *. destruct (E q t N) as [Hl Rl].
  rewrite (proba_row t x (lf q) (W t IN) (conj Hl Rl) nc); auto.
  - destruct (CC t IN (lf q) Hl) as [_ ->]. pose proof (PL t IN (lf q) Hl). destruct (Req_EM_T (leaf_w t (lf q)) 0); [lra|auto].
  - change (length (nth (leaf_id t (lf q)) (t_value t) []) = n_gamma (Class nc)). apply (WV t IN). apply leaf_id_lt; auto.
Qed.

(** a smoothed leaf: its row is a distribution or empty *)
Lemma smooth_leaf_class : forall lg nc ts (o : smooth_opts R) rd out,
  smooth lg (Forest (Class nc) ts) o rd = Ok out -> Forall (@wf_tree R) ts -> Forall pos_leaves ts -> Forall (class_counts nc) ts -> ts <> [] -> draws_nonneg o -> 0 <= o_class_eps o ->
  forall q t x i, nth_error ts q = Some t -> leaf_of t x i -> let t' := nth q (s_forest out) no_tree in
  (forall c, (c < nc)%nat -> nth c (tree_proba t' x) 0 = leaf_v t' c i /\ 0 <= leaf_v t' c i <= 1) /\ 0 <= sumto nc (fun c => leaf_v t' c i) <= 1 /\
  (mass_left o ts (s_lamb out) -> sumto nc (fun c => leaf_v t' c i) = 1).
Proof.
  intros lg nc ts o rd out H W PL CC NE DN EP q t x i N L.
  destruct (p_C15 lg nc ts o rd out H W PL CC NE DN EP q t N) as (t'&N'&V). rewrite (nth_error_nth _ _ no_tree N'). cbv zeta.
  destruct (smooth_desc lg _ ts o rd out H W NE) as (_&_&_&_&_&D1&_). destruct (D1 q t N) as (t1&N1&S&V1).
  assert (t1 = t') by congruence. subst t1. pose proof (nth_error_In _ _ N) as IN. rewrite Forall_forall in W.
  destruct (same_leaf_id t t' i S) as [EI EN]. destruct L as [Hi Ri]. destruct (V1 i Hi) as (_&_&_&LN&_).
  destruct (V i Hi) as [B D].
  assert (EE : forall c, (c < nc)%nat -> nth c (tree_proba t' x) 0 = leaf_v t' c i / (if Req_EM_T (sumto nc (fun c => leaf_v t' c i)) 0 then 1 else sumto nc (fun c => leaf_v t' c i))).
  { intros c Hc. unfold tree_proba. rewrite (end_same t t' x S), <- (leaf_of_end t x i (W t IN) (conj Hi Ri)).
    assert (SS : nsum (nth (leaf_id t i) (t_value t') []) = sumto nc (fun c => leaf_v t' c i)).
    { rewrite nsum_sumto, LN. cbn [n_gamma]. apply sumto_ext. intros k Hk. unfold leaf_v. rewrite EI. reflexivity. }
    rewrite SS. rewrite nth_map_in with (d := 0) by (rewrite LN; auto). rewrite guarded.
    change (nth c (nth (leaf_id t i) (t_value t') []) 0) with (node_v t' c (leaf_id t i)). rewrite <- EI. reflexivity. }
  split; [|split].
  - intros c Hc. split; [|apply B; auto]. rewrite EE by auto. destruct D as [D|[D _]].
    + rewrite D. destruct (Req_EM_T 1 0); lra.
    + rewrite (sumto_zero nc) by auto. destruct (Req_EM_T 0 0); lra.
  - destruct D as [D|[D _]]; [rewrite D; lra|]. rewrite (sumto_zero nc) by auto. lra.
  - intros ML. destruct D as [D|(_&kap&KK&Z)]; auto. exfalso. apply (ML q t i kap N Hi KK). unfold kmass. apply sumto_zero.
    intros j Hj. rewrite Z by auto. ring.
Qed.
Lemma p_C105_smoothed : forall lg nc ts (o : smooth_opts R) rd out x lf,
  smooth lg (Forest (Class nc) ts) o rd = Ok out -> Forall (@wf_tree R) ts -> Forall pos_leaves ts -> Forall (class_counts nc) ts -> ts <> [] -> draws_nonneg o -> 0 <= o_class_eps o ->
  ends ts x lf -> length (forest_proba nc (s_forest out) x) = nc /\
  (forall c, (c < nc)%nat -> nth c (forest_proba nc (s_forest out) x) 0 = tree_mean (length ts) (fun q => leaf_v (nth q (s_forest out) no_tree) c (lf q)) /\
     0 <= nth c (forest_proba nc (s_forest out) x) 0) /\
  sumto nc (fun c => nth c (forest_proba nc (s_forest out) x) 0) <= 1 /\
  (mass_left o ts (s_lamb out) -> sumto nc (fun c => nth c (forest_proba nc (s_forest out) x) 0) = 1).
Proof.
  intros lg nc ts o rd out x lf H W PL CC NE DN EP E.
  pose proof (proj1 (proj1 (smooth_relabels _ _ _ _ _ _ H W NE))) as LF.
  assert (LP : (0 < length ts)%nat) by (destruct ts; [congruence|cbn; lia]).
  assert (Q : forall q, (q < length ts)%nat -> nth_error ts q = Some (nth q ts no_tree)) by (intros; apply nth_error_nth'; auto).
  pose proof (fun q Hq => smooth_leaf_class lg nc ts o rd out H W PL CC NE DN EP q _ x (lf q) (Q q Hq) (E q _ (Q q Hq))) as V. cbv zeta in V.
  assert (EE : forall c, (c < nc)%nat -> nth c (forest_proba nc (s_forest out) x) 0 = tree_mean (length ts) (fun q => leaf_v (nth q (s_forest out) no_tree) c (lf q))).
  { intros c Hc. rewrite proba_nth by auto. rewrite LF. apply tree_mean_ext. intros q Hq. destruct (V q Hq) as [A _]. apply (A c Hc). }
  assert (SS : sumto nc (fun c => nth c (forest_proba nc (s_forest out) x) 0) = tree_mean (length ts) (fun q => sumto nc (fun c => leaf_v (nth q (s_forest out) no_tree) c (lf q)))).
  { rewrite <- tree_mean_sum. apply sumto_ext. auto. }
  split. { unfold forest_proba. rewrite map_length, seq_length. auto. }
  split; [|split].
  - intros c Hc. split; [auto|]. rewrite EE by auto. rewrite <- (tree_mean_const (length ts) 0 LP). apply tree_mean_le.
    intros q Hq. destruct (V q Hq) as [A _]. apply (A c Hc).
  - rewrite SS. rewrite <- (tree_mean_const (length ts) 1 LP). apply tree_mean_le. intros q Hq. destruct (V q Hq) as (_&A&_). apply A.
  - intros ML. rewrite SS. rewrite <- (tree_mean_const (length ts) 1 LP). apply tree_mean_ext. intros q Hq. destruct (V q Hq) as (_&_&A). auto.
Qed.
Lemma p_C105_label : forall nc cls (ts : list (tree R)) x, (0 < nc)%nat ->
  exists k, first_largest (forest_proba nc ts x) k /\ forest_predict (Class nc) cls ts x = nth k cls 0.
Proof.
  intros nc cls ts x Hn. assert (NE : forest_proba nc ts x <> []).
  { intros Z. apply (f_equal (@length R)) in Z. unfold forest_proba in Z. rewrite map_length, seq_length in Z. cbn in Z. lia. }
  exists (argmax (forest_proba nc ts x)). destruct (argmax_spec _ NE) as [A B]. split; [|reflexivity].
  split; auto. split; auto. apply (argmax_first _ NE).
Qed.
Lemma p_C106_zero : forall lg nc ts (o : smooth_opts R) rd out, smooth lg (Forest (Class nc) ts) o rd = Ok out ->
  Forall (@wf_tree R) ts -> Forall (wf_values (Class nc)) ts -> Forall pos_leaves ts -> Forall (class_counts nc) ts -> ts <> [] ->
  o_sanity o = true -> o_lamb_draws o = None -> o_class_eps o = 0 -> separated o ts ->
  forall x, forest_proba nc (s_forest out) x = forest_proba nc ts x /\ forall cls, forest_predict (Class nc) cls (s_forest out) x = forest_predict (Class nc) cls ts x.
Proof.
  intros lg nc ts o rd out H W WV PL CC NE SA SD EZ SEP x.
  assert (EE : forest_proba nc (s_forest out) x = forest_proba nc ts x).
  { destruct (ends_ex ts x W) as (lf&E). assert (DN : draws_nonneg o) by (unfold draws_nonneg; rewrite SD; auto).
    destruct (p_C105_smoothed lg nc ts o rd out x lf H W PL CC NE DN ltac:(lra) E) as (L1&A&_).
    apply nth_ext with (d := 0) (d' := 0). { unfold forest_proba. rewrite !map_length. auto. }
    intros c Hc. rewrite L1 in Hc. rewrite (proj1 (A c Hc)), (p_C105_original nc ts x lf W WV PL CC E c Hc). apply tree_mean_ext. intros q Hq.
    assert (N : nth_error ts q = Some (nth q ts no_tree)) by (apply nth_error_nth'; auto).
    destruct (p_C12_zero lg nc ts o rd out H W PL NE SA SD EZ SEP q _ N) as (t'&N'&V). rewrite (nth_error_nth _ _ no_tree N').
    apply V; auto. apply (E q _ N). }
  split; auto. intros cls. cbn [forest_predict]. rewrite EE. auto.
Qed.
