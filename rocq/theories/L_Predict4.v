(** L_Predict4: predictions of two runs (C108). *)
From Verif Require Import Base TreeSpec Spec L_Base L_Tree L_TreeModel M_Tree M_Gamma M_Levels M_Grad M_Sgd M_Smooth M_Prune M_Depth M_Main M_Predict
  SpecSmooth SpecTune SpecPredict SpecRel SpecProg SpecCopy M_Clean SpecClean L_Gamma L_Gamma2 L_Route L_Depth L_Smooth2 L_Smooth3 L_Tune L_Rel L_Rel2 L_Rel3 L_Rel6 L_Rel7 L_Rel8 L_Predict L_Predict2 L_Predict3 L_Clean3.
From Coq Require Import Reals Lra Lia Permutation.
Local Open Scope R_scope.

(** *** units *)
Lemma predict_scaled : forall c cls (ts : list (tree R)) x, forest_predict Reg cls (map (scale_tree c) ts) x = c * forest_predict Reg cls ts x.
Proof.
  intros c cls ts x. cbn [forest_predict]. rewrite map_length, map_map. change (@ndiv R _) with Rdiv. unfold Rdiv. rewrite <- Rmult_assoc. f_equal.
  rewrite !nsum_trees, <- sumto_scal. apply sumto_ext. intros q Hq. set (t := nth q ts no_tree). unfold predict.
  rewrite (end_struct t (scale_tree c t)) by reflexivity. cbn [scale_tree t_value].
  destruct (le_lt_dec (length (t_value t)) (end_node t x)) as [L|L].
  - rewrite !nth_overflow with (d := @nil R) by (try rewrite map_length; auto). cbn. ring.
  - rewrite nth_map_in with (d := []) by auto. set (r := nth (end_node t x) (t_value t) []). destruct r as [|a r]; [cbn; ring|reflexivity].
Qed.
(** equal errors up to a factor *)
Lemma score_moved : forall cls ts ts' X (y : list R) (g : R -> R) k m, (forall a b, (g a - g b) * (g a - g b) = k * ((a - b) * (a - b))) ->
  (forall x, forest_predict Reg cls ts' x = g (forest_predict Reg cls ts x)) ->
  assess_rf (Forest Reg ts) cls X y = Ok m -> assess_rf (Forest Reg ts') cls X (map g y) = Ok (k * m).
Proof.
  intros cls ts ts' X y g k m HG HP H. destruct (proj1 (p_score_ok Reg cls ts X y) (ex_intro _ m H)) as [NE L].
  destruct (proj2 (p_score_ok Reg cls ts' X (map g y))) as (m'&H'). { rewrite map_length. auto. }
  rewrite H'. f_equal. rewrite (p_score_reg cls ts' X _ m' H'), (p_score_reg cls ts X y m H). unfold mse_of, Rdiv.
  rewrite <- Rmult_assoc. f_equal. rewrite <- sumto_scal. apply sumto_ext. intros o Ho. rewrite HP.
  rewrite nth_map_in with (d := 0) by lia. apply HG.
Qed.
Lemma p_C108_units : forall lg c ts (o : smooth_opts R) rd pa out, c <> 0 -> o_dist o = DDepth pa -> smooth lg (Forest Reg ts) o rd = Ok out ->
  exists out', smooth lg (Forest Reg (map (scale_tree c) ts)) (scale_opts c o) rd = Ok out' /\
  forall cls, (forall x, forest_predict Reg cls (s_forest out') x = c * forest_predict Reg cls (s_forest out) x) /\
  forall X y m, assess_rf (Forest Reg (s_forest out)) cls X y = Ok m -> assess_rf (Forest Reg (s_forest out')) cls X (map (Rmult c) y) = Ok (c * c * m).
Proof.
  intros lg c ts o rd pa out C0 OD H. exists (scale_out c out). split. { rewrite (p_C83 c C0 lg ts o rd pa OD), H. reflexivity. }
  intros cls. assert (PP : forall x, forest_predict Reg cls (s_forest (scale_out c out)) x = c * forest_predict Reg cls (s_forest out) x) by (intros x; apply predict_scaled).
  split; auto. intros X y m HM. apply (score_moved cls (s_forest out) _ X y (Rmult c)); auto. intros; ring.
Qed.

(** *** origin *)
Lemma wf_keep : forall t t' : tree R, same_but_leaf_values t t' -> wf_tree t -> wf_tree t'.
Proof.
  intros t t' (A1&A2&A3&A4&A5&A6&A7&_) W. unfold wf_tree, wf_treeb in *. unfold size in *. rewrite A1, A2, A3, A4, A5, A6, A7.
  replace (node_okb t') with (node_okb t) by (unfold node_okb, lc, rc, size; rewrite A1, A2; reflexivity).
  replace (one_parentb t') with (one_parentb t) by (unfold one_parentb; rewrite A1, A2; reflexivity). exact W.
Qed.
Lemma predict_moved : forall f cls ts ts' x, Forall (@wf_tree R) ts -> Forall (wf_values Reg) ts -> Forall2 (moved_tree f) ts ts' ->
  forest_predict Reg cls ts' x = tree_mean (length ts) (fun q => f (predict Reg (nth q ts no_tree) x)).
Proof.
  intros f cls ts ts' x W WV F. cbn [forest_predict]. unfold tree_mean. change (@ndiv R _) with Rdiv.
  replace (length ts') with (length ts) by (clear - F; induction F; cbn; congruence). f_equal. clear - W WV F.
  rewrite nsum_trees. replace (length ts') with (length ts) by (clear - F; induction F; cbn; congruence). apply sumto_ext. intros q Hq.
  assert (N : nth_error ts q = Some (nth q ts no_tree)) by (apply nth_error_nth'; auto).
  set (t := nth q ts no_tree) in *. clearbody t. assert (exists t', nth_error ts' q = Some t' /\ moved_tree f t t') as (t'&N'&(A1&A2&A3&A4&V)).
  { clear - F N. revert q N. induction F; intros q N; [destruct q; discriminate|]. destruct q; [inversion N; subst; eexists; split; [reflexivity|auto]|]. apply (IHF q). auto. }
  rewrite (nth_error_nth _ _ no_tree N'). pose proof (nth_error_In _ _ N) as IN. rewrite Forall_forall in W, WV.
  destruct (end_node_spec t (W t IN) x) as (EL&_&ES). unfold predict. rewrite (end_struct t t') by auto. rewrite V by auto.
  pose proof (WV t IN _ ES) as LV. destruct (nth (end_node t x) (t_value t) []) as [|a r]; [discriminate|reflexivity].
Qed.
Lemma tree_mean_shift : forall m b f, (0 < m)%nat -> tree_mean m (fun q => b + f q) = b + tree_mean m f.
Proof. intros m b f Hm. unfold tree_mean. rewrite sumto_plus, sumto_const. field. apply not_0_INR. lia. Qed.
Lemma p_C108_origin : forall lg b ts (o : smooth_opts R) rd out, Forall (@wf_tree R) ts -> Forall (wf_values Reg) ts -> ts <> [] -> keeps_mass lg Reg ts o rd ->
  smooth lg (Forest Reg ts) o rd = Ok out ->
  exists out', smooth lg (Forest Reg (map (shifted b) ts)) (shifted_opts b o) rd = Ok out' /\
  forall cls, (forall x, forest_predict Reg cls (s_forest out') x = b + forest_predict Reg cls (s_forest out) x) /\
  forall X y m, assess_rf (Forest Reg (s_forest out)) cls X y = Ok m -> assess_rf (Forest Reg (s_forest out')) cls X (map (Rplus b) y) = Ok m.
Proof.
  intros lg b ts o rd out W WV NE KM H. pose proof (p_C89 lg b ts o rd W WV NE KM) as RR. rewrite H in RR.
  destruct (smooth lg (Forest Reg (map (shifted b) ts)) (shifted_opts b o) rd) as [out'|] eqn:H'; [|destruct RR].
  exists out'. split; auto. destruct RR as (F&_). destruct (p_C16 lg Reg ts o rd out H W NE) as (LF&_&SS).
  assert (W1 : Forall (@wf_tree R) (s_forest out) /\ Forall (wf_values Reg) (s_forest out)).
  { rewrite !Forall_forall in *. split; intros t' It; destruct (In_nth_error _ _ It) as (q&N');
      (assert (Hq : (q < length ts)%nat) by (rewrite <- LF; apply nth_error_Some; congruence));
      (destruct (nth_error ts q) as [t|] eqn:N; [|apply nth_error_None in N; lia]); destruct (SS q t N) as (t1&t2&N1&_&S1&_&V1);
      assert (t1 = t') by congruence; subst t1.
    - apply (wf_keep t t'); auto. apply W. eapply nth_error_In; eauto.
    - apply V1. apply WV. eapply nth_error_In; eauto. }
  destruct W1 as [W1 WV1]. intros cls.
  assert (PP : forall x, forest_predict Reg cls (s_forest out') x = b + forest_predict Reg cls (s_forest out) x).
  { intros x. rewrite (predict_moved (Rplus b) cls (s_forest out) (s_forest out') x W1 WV1 F), tree_mean_shift; [|rewrite LF; destruct ts; [congruence|cbn; lia]].
    f_equal. cbn [forest_predict]. unfold tree_mean. change (@ndiv R _) with Rdiv. f_equal. rewrite nsum_trees. auto. }
  split; auto. intros X y m HM. replace m with (1 * m) by ring. apply (score_moved cls (s_forest out) _ X y (Rplus b)); auto. intros; ring.
Qed.

(** *** features *)
Lemma predict_rescaled : forall phi : nat -> R -> R, (forall f a b, a < b -> phi f a < phi f b) -> forall kd cls (ts : list (tree R)) x, Forall (@wf_tree R) ts ->
  (forall t v, In t ts -> (v < size t)%nat -> is_leafb t v = false -> (nth v (t_feature t) 0 < length x)%nat) ->
  forest_predict kd cls (map (rescaled_tree phi) ts) (rescaled_obs phi x) = forest_predict kd cls ts x.
Proof.
  intros phi MONO kd cls ts x W HF.
  assert (EN : forall t, In t ts -> end_node (rescaled_tree phi t) (rescaled_obs phi x) = end_node t x).
  { intros t It. unfold end_node. change (size (rescaled_tree phi t)) with (size t). rewrite Forall_forall in W. rewrite path_rescaled; auto. apply (wf_pos t (W t It)). }
  destruct kd as [|nc]; cbn [forest_predict]; rewrite ?map_length.
  - rewrite map_map. do 2 f_equal. apply map_ext_in. intros t It. unfold predict. rewrite EN by auto. reflexivity.
  - f_equal. f_equal. unfold forest_proba. rewrite map_length. apply map_ext. intros c. rewrite map_map. do 2 f_equal. apply map_ext_in. intros t It.
    unfold tree_proba. rewrite EN by auto. reflexivity.
Qed.
Lemma p_C108_features : forall phi : nat -> R -> R, (forall f a b, a < b -> phi f a < phi f b) -> forall lg kd ts (o : smooth_opts R) rd p out,
  Forall (@wf_tree R) ts -> ts <> [] -> has_features p o ts -> smooth lg (Forest kd ts) o rd = Ok out ->
  exists out', smooth lg (Forest kd (map (rescaled_tree phi) ts)) (rescaled_opts phi o) rd = Ok out' /\
  forall cls, (forall x, length x = p -> forest_predict kd cls (s_forest out') (rescaled_obs phi x) = forest_predict kd cls (s_forest out) x) /\
  forall X y, Forall (fun x => length x = p) X -> assess_rf (Forest kd (s_forest out')) cls (map (rescaled_obs phi) X) y = assess_rf (Forest kd (s_forest out)) cls X y.
Proof.
  intros phi MONO lg kd ts o rd p out W NE HF H. exists (on_trees (rescaled_tree phi) out). split. { rewrite (p_C86 phi MONO lg kd ts o rd p W HF), H. reflexivity. }
  destruct (p_C16 lg kd ts o rd out H W NE) as (LF&_&SS).
  assert (W1 : forall t', In t' (s_forest out) -> exists t, In t ts /\ same_but_leaf_values t t').
  { intros t' It; destruct (In_nth_error _ _ It) as (q&N').
    assert (Hq : (q < length ts)%nat) by (rewrite <- LF; apply nth_error_Some; congruence).
    destruct (nth_error ts q) as [t|] eqn:N; [|apply nth_error_None in N; lia]. destruct (SS q t N) as (t1&t2&N1&_&S1&_&V1).
    assert (t1 = t') by congruence. subst t1. exists t. split; auto. eapply nth_error_In; eauto. }
  rewrite Forall_forall in W. intros cls.
  assert (PP : forall x, length x = p -> forest_predict kd cls (map (rescaled_tree phi) (s_forest out)) (rescaled_obs phi x) = forest_predict kd cls (s_forest out) x).
  { intros x Lx. apply predict_rescaled; auto.
    - apply Forall_forall. intros t' It. destruct (W1 t' It) as (t&It0&S1). apply (wf_keep t t'); auto.
    - intros t' v It Hv EL. destruct (W1 t' It) as (t&It0&S1). destruct HF as [_ HF]. rewrite Lx. destruct S1 as (A1&A2&A3&A4&_).
      rewrite A3. apply (HF t v It0); unfold size, is_leafb, lc, rc in *; rewrite <- ?A1, <- ?A2; auto. }
  split; auto. intros X y FX. cbn [assess_rf s_forest on_trees]. unfold predict_rows. destruct X as [|x X]; [reflexivity|].
  cbn [map]. rewrite map_map.
  inversion FX as [|? ? Lx FX1]; subst. rewrite PP by auto.
  rewrite (map_ext_in (fun z => forest_predict kd cls (map (rescaled_tree phi) (s_forest out)) (rescaled_obs phi z)) (forest_predict kd cls (s_forest out)) X); [reflexivity|].
  rewrite Forall_forall in FX1. intros z Iz. apply PP; auto.
Qed.

(** *** the same trees in another order, or several times *)
Definition same_mix (ts ts' : list (tree R)) : Prop :=
  forall f : tree R -> R, nsum (map f ts') / INR (length ts') = nsum (map f ts) / INR (length ts).
Lemma predict_mix : forall kd cls ts ts' x, same_mix ts ts' -> forest_predict kd cls ts' x = forest_predict kd cls ts x.
Proof.
  intros kd cls ts ts' x M. destruct kd as [|nc]; cbn [forest_predict]; [apply M|]. f_equal. f_equal. unfold forest_proba. apply map_ext. intros c. apply M.
Qed.
Lemma score_mix : forall kd cls ts ts' X y, same_mix ts ts' -> assess_rf (Forest kd ts') cls X y = assess_rf (Forest kd ts) cls X y.
Proof.
  intros kd cls ts ts' X y M. cbn [assess_rf]. unfold predict_rows. destruct X as [|x X]; [reflexivity|].
  rewrite (map_ext (forest_predict kd cls ts') (forest_predict kd cls ts)); [reflexivity|]. intros z. apply predict_mix; auto.
Qed.
Lemma mix_order : forall pi (ts ts' : list (tree R)), length ts' = length ts -> Permutation (map pi (seq 0 (length ts))) (seq 0 (length ts)) ->
  (forall q, (q < length ts)%nat -> nth_error ts' q = nth_error ts (pi q)) -> same_mix ts ts'.
Proof.
  intros pi ts ts' L P N f. rewrite L. f_equal.
  assert (E : map f ts' = map (fun q => f (nth q ts no_tree)) (map pi (seq 0 (length ts)))).
  { rewrite map_map. apply nth_ext with (d := 0) (d' := 0); rewrite !map_length; [rewrite seq_length; auto|]. intros q Hq. rewrite L in Hq.
    rewrite nth_map_seq by auto. rewrite nth_map_in with (d := no_tree) by lia. f_equal. specialize (N q Hq).
    assert (PB : (pi q < length ts)%nat) by (apply (perm_bound pi (length ts) P q Hq)).
    rewrite (nth_error_nth' ts no_tree PB) in N. apply nth_error_nth; auto. }
  rewrite E, (nsum_perm _ _ (Permutation_map _ P)), nsum_trees. rewrite nsum_sumto, map_length, seq_length. apply sumto_ext. intros q Hq.
  rewrite nth_map_seq by auto. reflexivity.
Qed.
Lemma nth_first : forall {A} (l : list A) n q d, (q < n)%nat -> nth q (firstn n l) d = nth q l d.
Proof. intros A l. induction l as [|a l IH]; intros [|n] [|q] d H; try reflexivity; try lia. cbn. apply IH. lia. Qed.
Lemma skip_error : forall {A} (l : list A) n q, nth_error (skipn n l) q = nth_error l (n + q).
Proof. intros A l n. revert l. induction n as [|n IH]; intros l q; [reflexivity|]. destruct l as [|a l]; [destruct q; reflexivity|]. apply IH. Qed.
Lemma mix_copies : forall m (ts ts' : list (tree R)), (0 < m)%nat -> ts <> [] -> length ts' = (m * length ts)%nat ->
  (forall q, (q < length ts')%nat -> nth_error ts' q = nth_error ts (q mod length ts)) -> same_mix ts ts'.
Proof.
  intros m ts ts' Hm NE L N f. assert (LP : (0 < length ts)%nat) by (destruct ts; [congruence|cbn; lia]).
  assert (E : ts' = rep m ts).
  { clear f. revert ts' L N. induction m as [|m IH]; [lia|]. intros ts' L N. rewrite rep_S.
    rewrite <- (firstn_skipn (length ts) ts'). f_equal.
    - apply nth_ext with (d := no_tree) (d' := no_tree); [rewrite firstn_length; nia|]. intros q Hq. rewrite firstn_length in Hq.
      rewrite nth_first by lia. specialize (N q ltac:(nia)). rewrite Nat.mod_small in N by lia.
      rewrite (nth_error_nth' ts no_tree) in N by lia. apply nth_error_nth; auto.
    - destruct m as [|m]; [cbn; apply skipn_all2; nia|]. apply IH; [lia|rewrite skipn_length; nia|]. intros q Hq. rewrite skipn_length in Hq.
      rewrite skip_error, N by lia. f_equal. replace (length ts + q)%nat with (q + 1 * length ts)%nat by lia. apply Nat.mod_add. lia. }
  rewrite L, E, rep_map, nsum_rep, mult_INR. field. split; apply not_0_INR; lia.
Qed.
Lemma p_C108_order : forall lg kd (o : smooth_opts R) pa pi ts ts' rd rd' out, Forall (@wf_tree R) ts -> ts <> [] -> o_dist o = DDepth pa ->
  reordered pi ts ts' rd rd' -> smooth lg (Forest kd ts) o rd = Ok out -> exists out', smooth lg (Forest kd ts') o rd' = Ok out' /\
  forall cls, (forall x, forest_predict kd cls (s_forest out') x = forest_predict kd cls (s_forest out) x) /\
  forall X y, assess_rf (Forest kd (s_forest out')) cls X y = assess_rf (Forest kd (s_forest out)) cls X y.
Proof.
  intros lg kd o pa pi ts ts' rd rd' out W NE OD RO H. destruct (p_C90 lg kd o pa pi ts ts' rd rd' W NE OD RO out H) as (out'&H'&_&_&_&_&L&N).
  exists out'. split; auto. destruct (p_C16 lg kd ts o rd out H W NE) as (LF&_). destruct RO as (_&P&_).
  assert (M : same_mix (s_forest out) (s_forest out')) by (apply (mix_order pi); rewrite ?LF; auto).
  intros cls. split; intros; [apply predict_mix; auto|apply score_mix; auto].
Qed.
Lemma stepped_self : forall o : smooth_opts R, stepped (o_t_fix o) o = o.
Proof. intros []. reflexivity. Qed.
Lemma p_C108_copies : forall lg kd (o : smooth_opts R) pa m ts ts' rd rd' out, Forall (@wf_tree R) ts -> ts <> [] -> o_dist o = DDepth pa -> o_all_trees o = false ->
  copied m ts ts' rd rd' -> smooth lg (Forest kd ts) o rd = Ok out -> exists out', smooth lg (Forest kd ts') o rd' = Ok out' /\
  forall cls, (forall x, forest_predict kd cls (s_forest out') x = forest_predict kd cls (s_forest out) x) /\
  forall X y, assess_rf (Forest kd (s_forest out')) cls X y = assess_rf (Forest kd (s_forest out)) cls X y.
Proof.
  intros lg kd o pa m ts ts' rd rd' out W NE OD AT C H.
  destruct (p_C92 lg kd o (o_t_fix o) pa m ts ts' rd rd' W NE OD C (or_introl (conj AT eq_refl)) out H) as (out'&H'&_&_&_&_&L&N). rewrite stepped_self in H'.
  exists out'. split; auto. destruct (p_C16 lg kd ts o rd out H W NE) as (LF&_). destruct C as (M0&LT&_).
  assert (M : same_mix (s_forest out) (s_forest out')).
  { apply (mix_copies m); auto; rewrite ?LF, ?L; auto. intros Z. rewrite Z in LF. destruct ts; [congruence|discriminate]. }
  intros cls. split; intros; [apply predict_mix; auto|apply score_mix; auto].
Qed.

(** *** main/pytorch_example.py *)
Lemma p_example : forall lg fit (data : mat R * list R) rd, torch_example_sim lg fit data rd = match fit with Ok _ => Err ValueError | Err e => Err e end.
Proof. intros lg fit data rd. unfold torch_example_sim. destruct fit as [rf|e]; reflexivity. Qed.

(** *** smooth_clean *)
Lemma p_C104_clean : forall cls ts (o : clean_opts R) oob draws f lamb c x lo hi, smooth_clean (Forest Reg ts) o oob draws = Ok (f, lamb, c) ->
  Forall (@wf_tree R) ts -> Forall pos_leaves ts -> ts <> [] -> k_no_constraint o = false -> leaf_bounds ts lo hi ->
  (mass_left (as_smooth o) ts lamb \/ forall q, lo q <= 0 <= hi q) ->
  tree_mean (length ts) lo <= forest_predict Reg cls f x <= tree_mean (length ts) hi.
Proof.
  intros cls ts o oob draws f lamb c x lo hi H W PL NE NC B ML. destruct (p_C68 ts o oob draws f lamb c H W NE) as [LF V].
  pose proof (p_C68_weights ts o oob draws f lamb c H W NE NC) as NN.
  apply p_range_gen; auto. { split; auto. intros q t N. destruct (V q t N) as (t'&N'&S&_). eauto. }
  intros q t t' i N N' Hi. destruct (V q t N) as (t1&N1&S&KK&RR). assert (t1 = t') by congruence. subst t1.
  rewrite Forall_forall in PL. pose proof (nth_error_In _ _ N) as IN.
  destruct (RR (lo q) (hi q) (PL t IN) NN (fun j => B q t j N) i Hi) as [A|A]; auto.
  destruct ML as [ML|ML]; [|rewrite A; auto]. destruct (KK i Hi) as (kap&K1&E). specialize (ML q t i kap N Hi K1). rewrite E.
  destruct (kmean_range t kap (lo q) (hi q) (PL t IN) (kernel_nonneg _ _ _ _ _ _ NN K1) (fun j => B q t j N)) as [A1|[_ A1]]; auto.
  exfalso. apply ML. unfold kmass. apply sumto_zero. intros j Hj. rewrite A1 by auto. ring.
Qed.
(** *** more steps *)
Lemma p_longer_mean : forall lg cls ts (o : smooth_opts R) rd n out out' X y, smooth lg (Forest Reg ts) o rd = Ok out -> smooth lg (Forest Reg ts) o (first_draws n rd) = Ok out' ->
  Forall (@wf_tree R) ts -> ts <> [] -> o_sanity o = false -> tunes_on o X y -> X <> [] -> s_costs out' = firstn (S n) (s_costs out) /\
  tree_mean (length ts) (alone (forest_predict Reg cls) (s_forest out) X y) <= tree_mean (length ts) (alone (forest_predict Reg cls) (s_forest out') X y).
Proof.
  intros lg cls ts o rd n out out' X y H H' W NE SA TO NX. destruct (p_longer lg Reg ts o rd n out out' H H' W NE SA (or_introl eq_refl)) as [CS SS]. split; auto.
  destruct (smooth_loss lg Reg ts o rd out H W NE SA (or_introl eq_refl)) as (data&lf&_&_&_&_&T0&_).
  specialize (SS data lf T0). cbn [n_gamma] in SS.
  rewrite (sse_mean o rd ts (s_forest out) X y data lf cls), (sse_mean o rd ts (s_forest out') X y data lf cls) in SS; auto;
    try (apply (smooth_relabels _ _ _ _ _ _ H W NE)); try (apply (smooth_relabels _ _ _ _ _ _ H' W NE)).
  eapply mean_from_sse; [| |exact SS]; apply lt_0_INR; [destruct X|destruct ts]; try congruence; cbn; lia.
Qed.
