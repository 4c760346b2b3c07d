(** L_Predict3: scores (C107). *)
From Verif Require Import Base TreeSpec Spec L_Base L_Tree L_TreeModel M_Tree M_Gamma M_Levels M_Grad M_Sgd M_Smooth M_Prune M_Depth M_Main M_Predict
  SpecSmooth SpecTune SpecPredict SpecRel SpecClean L_Gamma L_Gamma2 L_Route L_Prune4 L_Depth L_Sgd L_Sgd2 L_Smooth L_Smooth2 L_Smooth3 L_Tune L_Clean L_Rel4 L_Rel6 L_Predict L_Predict2.
From Coq Require Import Reals Lra Lia.
Local Open Scope R_scope.

Lemma nsum_map2 : forall (f : R -> R -> R) a b, length a = length b -> nsum (map2 f a b) = sumto (length a) (fun i => f (nth i a 0) (nth i b 0)).
Proof.
  intros f a b L. rewrite nsum_sumto, map2_length, <- L, Nat.min_id. apply sumto_ext. intros i Hi. rewrite nth_map2 with (da := 0) (db := 0) by lia. auto.
Qed.
Lemma p_score_ok : forall kd cls ts X (y : list R), (exists m, assess_rf (Forest kd ts) cls X y = Ok m) <-> X <> [] /\ length y = length X.
Proof.
  intros kd cls ts X y. cbn [assess_rf]. destruct X as [|x X]; cbn [predict_rows bind].
  - split; [intros (m&H); discriminate|intros [H _]; congruence].
  - unfold mean_squared_error, accuracy_score. rewrite map_length. destruct (Nat.eqb_spec (length y) (length (x :: X))) as [E|E].
    + split; [intros _; split; [discriminate|auto]|intros _; destruct kd; eauto].
    + split; [intros (m&H); destruct kd; discriminate|intros [_ H]; congruence].
Qed.
Lemma p_score_reg : forall cls ts X (y : list R) m, assess_rf (Forest Reg ts) cls X y = Ok m ->
  m = mse_of (length X) (fun o => nth o y 0) (fun o => forest_predict Reg cls ts (nth o X [])).
Proof.
  intros cls ts X y m H. destruct (proj1 (p_score_ok Reg cls ts X y) (ex_intro _ m H)) as [NE L].
  cbn [assess_rf] in H. unfold predict_rows in H. destruct X as [|x X]; [congruence|]. cbn [bind] in H. unfold mean_squared_error in H.
  rewrite map_length, L, Nat.eqb_refl in H. assert (EM : m = nsum (map2 (fun a b => (a - b) * (a - b)) y (map (forest_predict Reg cls ts) (x :: X))) / INR (length (x :: X))) by (symmetry; exact (f_equal (fun r => match r with Ok v => v | Err _ => 0 end) H)).
  rewrite EM. unfold mse_of. rewrite nsum_map2 by (rewrite map_length; auto). rewrite L. f_equal. apply sumto_ext. intros o Ho.
  rewrite nth_map_in with (d := []) by auto. auto.
Qed.
Lemma count_sum : forall (g : nat -> bool) n, sumto n (fun o => if g o then 1 else 0) = INR (length (filter g (seq 0 n))).
Proof.
  intros g. induction n as [|n IH]; [reflexivity|]. rewrite seq_S, filter_app, app_length, plus_INR, <- IH. cbn [sumto Nat.add filter].
  destruct (g n); cbn [length]; [change (INR 1) with 1|change (INR 0) with 0]; ring.
Qed.
Lemma p_score_class : forall nc cls ts X (y : list R) m, assess_rf (Forest (Class nc) ts) cls X y = Ok m ->
  m = INR (length (filter (fun o => if Req_EM_T (nth o y 0) (forest_predict (Class nc) cls ts (nth o X [])) then true else false) (seq 0 (length X)))) / INR (length X).
Proof.
  intros nc cls ts X y m H. destruct (proj1 (p_score_ok (Class nc) cls ts X y) (ex_intro _ m H)) as [NE L].
  cbn [assess_rf] in H. unfold predict_rows in H. destruct X as [|x X]; [congruence|]. cbn [bind] in H. unfold accuracy_score in H.
  rewrite map_length, L, Nat.eqb_refl in H.
  assert (EM : m = nsum (map2 (fun a b => if neqb a b then n1 else n0) y (map (forest_predict (Class nc) cls ts) (x :: X))) / INR (length (x :: X))) by (symmetry; exact (f_equal (fun r => match r with Ok v => v | Err _ => 0 end) H)).
  rewrite EM. f_equal. rewrite nsum_map2 by (rewrite map_length; auto). rewrite L.
  transitivity (sumto (length (x :: X)) (fun o => if (if Req_EM_T (nth o y 0) (forest_predict (Class nc) cls ts (nth o (x :: X) [])) then true else false) then 1 else 0)).
  - apply sumto_ext. intros o Ho. rewrite nth_map_in with (d := []) by auto.
    change (@neqb R _ (nth o y 0) (forest_predict (Class nc) cls ts (nth o (x :: X) []))) with (Reqb (nth o y 0) (forest_predict (Class nc) cls ts (nth o (x :: X) []))).
    unfold Reqb. destruct (Req_EM_T _ _); reflexivity.
  - apply (count_sum (fun o => if Req_EM_T (nth o y 0) (forest_predict (Class nc) cls ts (nth o (x :: X) [])) then true else false)).
Qed.

(** *** one tree and the tuning error *)
Lemma leaf_mean_one : forall t lf, leaf_mean [t] lf = leaf_v t 0 (lf O).
Proof. intros t lf. unfold leaf_mean, tree_mean. cbn. field. Qed.
Lemma tunes_data : forall (o : smooth_opts R) rd X y q, tunes_on o X y -> tuning_data Reg o rd q = Ok (X, map (fun v => [v]) y).
Proof.
  intros o rd X y q (A&B&C&_). unfold tuning_data, oob_logic. rewrite A, B, C. reflexivity.
Qed.
(** the forest error is the mean of the tree errors, times n and the number of trees *)
Lemma forest_sse_trees : forall (o : smooth_opts R) rd ts ts' X y data lf, Forall (@wf_tree R) ts -> relabelled ts ts' -> tunes_on o X y -> X <> [] -> tuning_of Reg o rd ts data lf ->
  forest_sse 1 data lf ts' = INR (length X) * sumto (length ts) (alone (forest_predict Reg []) ts' X y).
Proof.
  intros o rd ts ts' X y data lf W RL TO NE T0. unfold forest_sse. rewrite (proj1 RL), <- sumto_scal. apply sumto_ext. intros q Hq.
  destruct (relabelled_nth ts ts' q RL Hq) as (t&t'&N&N'&S). rewrite (nth_error_nth _ _ no_tree N'). destruct (T0 q t N) as [TD RT].
  rewrite (tunes_data o rd X y q TO) in TD. inversion TD as [ED]. rewrite <- ED in RT. cbn [fst snd] in *.
  assert (WT : wf_tree t) by (eapply Forall_forall; eauto; eapply nth_error_In; eauto).
  assert (NZ : INR (length X) <> 0) by (apply not_0_INR; destruct X; [congruence|discriminate]).
  unfold sse, alone, mse_of. rewrite (nth_error_nth _ _ no_tree N').
  replace (INR (length X) * (sumto (length X) (fun o0 => (nth o0 y 0 - forest_predict Reg [] [t'] (nth o0 X [])) * (nth o0 y 0 - forest_predict Reg [] [t'] (nth o0 X []))) / INR (length X)))
    with (sumto (length X) (fun o0 => (nth o0 y 0 - forest_predict Reg [] [t'] (nth o0 X [])) * (nth o0 y 0 - forest_predict Reg [] [t'] (nth o0 X [])))) by (field; auto).
  apply sumto_ext. intros ob Hob. cbn [sumto].
  rewrite (p_mean [] [t] [t'] (nth ob X []) (fun _ => lf q ob)).
  - rewrite leaf_mean_one. unfold resp. destruct TO as (_&_&_&L). rewrite nth_map_in with (d := 0) by lia. cbn [nth]. ring.
  - repeat constructor; auto.
  - split; auto. intros [|q'] t1 N1; cbn in N1; [|destruct q'; discriminate]. inversion N1; subst. exists t'. auto.
  - intros [|q'] t1 N1; cbn in N1; [|destruct q'; discriminate]. inversion N1; subst. apply (RT ob Hob).
Qed.

(** *** the error of the mean *)
Lemma predict_trees : forall cls cls' (ts : list (tree R)) x, forest_predict Reg cls ts x = tree_mean (length ts) (fun q => forest_predict Reg cls' [nth q ts no_tree] x).
Proof.
  intros cls cls' ts x. cbn [forest_predict]. unfold tree_mean. change (@ndiv R _) with Rdiv. f_equal. rewrite nsum_trees. apply sumto_ext. intros q Hq.
  cbn [map length]. rewrite nsum_cons, nsum_nil. change (nof 1) with 1. field.
Qed.
Lemma split_error : forall m (a : nat -> R) (y p : R), (0 < m)%nat -> p = tree_mean m a ->
  tree_mean m (fun q => (y - a q) * (y - a q)) = (y - p) * (y - p) + tree_mean m (fun q => (p - a q) * (p - a q)).
Proof.
  intros m a y p Hm EP. assert (NZ : INR m <> 0) by (apply not_0_INR; lia).
  assert (SA : sumto m a = INR m * p). { rewrite EP. unfold tree_mean. field. auto. }
  assert (SQ : forall z, sumto m (fun q => (z - a q) * (z - a q)) = INR m * (z * z) - 2 * z * (INR m * p) + sumto m (fun q => a q * a q)).
  { intros z. rewrite <- SA. rewrite (sumto_ext m _ (fun q => (z * z + (- 2 * z) * a q) + a q * a q)) by (intros; ring).
    rewrite !sumto_plus, sumto_const, sumto_scal. ring. }
  unfold tree_mean. rewrite !SQ. field. auto.
Qed.
Lemma p_ambiguity : forall cls (ts : list (tree R)) X y, ts <> [] ->
  tree_mean (length ts) (alone (forest_predict Reg cls) ts X y) =
  mse_of (length X) (fun o => nth o y 0) (fun o => forest_predict Reg cls ts (nth o X [])) + tree_mean (length ts) (apart (forest_predict Reg cls) ts X).
Proof.
  intros cls ts X y NE. assert (LP : (0 < length ts)%nat) by (destruct ts; [congruence|cbn; lia]).
  assert (EX : forall u : nat -> R, tree_mean (length ts) (fun q => mse_of (length X) u (fun o => forest_predict Reg cls [nth q ts no_tree] (nth o X []))) =
     sumto (length X) (fun o => tree_mean (length ts) (fun q => (u o - forest_predict Reg cls [nth q ts no_tree] (nth o X [])) * (u o - forest_predict Reg cls [nth q ts no_tree] (nth o X [])))) / INR (length X)).
  { intros u. rewrite tree_mean_sum. unfold tree_mean, mse_of, Rdiv. rewrite !sumto_scal_r. ring. }
  unfold alone, apart. rewrite (EX (fun o => nth o y 0)), (EX (fun o => forest_predict Reg cls ts (nth o X []))). unfold mse_of, Rdiv. rewrite <- Rmult_plus_distr_r. f_equal.
  rewrite <- sumto_plus. apply sumto_ext. intros o Ho. apply split_error; auto. apply predict_trees.
Qed.
Lemma mse_nonneg : forall n y p, 0 <= mse_of n y p.
Proof.
  intros n y p. unfold mse_of. destruct n as [|n]; [cbn; lra|]. apply Rmult_le_pos; [apply sumto_nonneg; intros i _; apply Rle_0_sqr|].
  apply Rlt_le, Rinv_0_lt_compat, lt_0_INR. lia.
Qed.
Lemma apart_nonneg : forall cls ts X, 0 <= tree_mean (length ts) (apart (forest_predict Reg cls) ts X).
Proof.
  intros cls ts X. replace 0 with (tree_mean (length ts) (fun _ => 0)).
  - apply tree_mean_le. intros. apply mse_nonneg.
  - unfold tree_mean. rewrite sumto_zero by auto. unfold Rdiv. ring.
Qed.
Lemma alone_cls : forall cls cls' ts X y q, alone (forest_predict Reg cls) ts X y q = alone (forest_predict Reg cls') ts X y q.
Proof. reflexivity. Qed.
Lemma sse_mean : forall (o : smooth_opts R) rd ts ts' X y data lf cls, Forall (@wf_tree R) ts -> ts <> [] -> relabelled ts ts' -> tunes_on o X y -> X <> [] -> tuning_of Reg o rd ts data lf ->
  forest_sse 1 data lf ts' = INR (length X) * INR (length ts) * tree_mean (length ts) (alone (forest_predict Reg cls) ts' X y).
Proof.
  intros o rd ts ts' X y data lf cls W NE RL TO NX T0. rewrite (forest_sse_trees o rd ts ts' X y data lf W RL TO NX T0).
  assert (NZ : INR (length ts) <> 0) by (apply not_0_INR; destruct ts; [congruence|discriminate]).
  unfold tree_mean. rewrite (sumto_ext (length ts) (alone (forest_predict Reg []) ts' X y) (alone (forest_predict Reg cls) ts' X y)) by reflexivity. field. auto.
Qed.
Lemma mean_from_sse : forall n m a b : R, 0 < n -> 0 < m -> n * m * a <= n * m * b -> a <= b.
Proof. intros n m a b Hn Hm H. assert (K : 0 < n * m) by (apply Rmult_lt_0_compat; auto). apply Rmult_le_reg_l with (n * m); auto. Qed.
Lemma p_C107_average : forall lg cls ts (o : smooth_opts R) rd out X y, smooth lg (Forest Reg ts) o rd = Ok out ->
  Forall (@wf_tree R) ts -> Forall pos_leaves ts -> ts <> [] -> o_sanity o = false -> o_lamb_draws o = None -> separated o ts -> tunes_on o X y -> X <> [] ->
  tree_mean (length ts) (alone (forest_predict Reg cls) (s_forest out) X y) <= tree_mean (length ts) (alone (forest_predict Reg cls) ts X y).
Proof.
  intros lg cls ts o rd out X y H W PL NE SA SD SEP TO NX.
  destruct (p_C66 lg ts o rd out H W PL NE SA SD SEP) as ((data&lf&T0)&B). specialize (B data lf T0).
  destruct (smooth_relabels _ _ _ _ _ _ H W NE) as [RL _].
  rewrite (sse_mean o rd ts (s_forest out) X y data lf cls W NE RL TO NX T0), (sse_mean o rd ts ts X y data lf cls W NE (relabelled_refl ts) TO NX T0) in B.
  apply (mean_from_sse (INR (length X)) (INR (length ts))); auto; apply lt_0_INR; [destruct X|destruct ts]; try congruence; cbn; lia.
Qed.
Lemma p_C107_forest : forall lg cls ts (o : smooth_opts R) rd out X y m, smooth lg (Forest Reg ts) o rd = Ok out ->
  Forall (@wf_tree R) ts -> Forall pos_leaves ts -> ts <> [] -> o_sanity o = false -> o_lamb_draws o = None -> separated o ts -> tunes_on o X y ->
  assess_rf (Forest Reg (s_forest out)) cls X y = Ok m -> m <= tree_mean (length ts) (alone (forest_predict Reg cls) ts X y).
Proof.
  intros lg cls ts o rd out X y m H W PL NE SA SD SEP TO HM.
  destruct (proj1 (p_score_ok Reg cls (s_forest out) X y) (ex_intro _ m HM)) as [NX _].
  pose proof (p_C107_average lg cls ts o rd out X y H W PL NE SA SD SEP TO NX) as A.
  pose proof (proj1 (proj1 (smooth_relabels _ _ _ _ _ _ H W NE))) as LF.
  assert (NE' : s_forest out <> []) by (destruct (s_forest out), ts; cbn in LF; congruence).
  pose proof (p_ambiguity cls (s_forest out) X y NE') as B. pose proof (apart_nonneg cls (s_forest out) X) as C. rewrite LF in B, C.
  rewrite (p_score_reg cls _ X y m HM). lra.
Qed.
Lemma p_C107_one : forall lg cls t (o : smooth_opts R) rd out X y m m0, smooth lg (Forest Reg [t]) o rd = Ok out ->
  wf_tree t -> pos_leaves t -> o_sanity o = false -> o_lamb_draws o = None -> separated o [t] -> tunes_on o X y ->
  assess_rf (Forest Reg (s_forest out)) cls X y = Ok m -> assess_rf (Forest Reg [t]) cls X y = Ok m0 -> m <= m0.
Proof.
  intros lg cls t o rd out X y m m0 H W PL SA SD SEP TO HM HM0.
  pose proof (p_C107_forest lg cls [t] o rd out X y m H ltac:(constructor; auto) ltac:(constructor; auto) ltac:(discriminate) SA SD SEP TO HM) as A.
  rewrite (p_score_reg cls _ X y m0 HM0). replace (mse_of _ _ _) with (tree_mean (length [t]) (alone (forest_predict Reg cls) [t] X y)); auto.
  unfold tree_mean. cbn [length sumto]. unfold alone. cbn [nth]. change (INR 1) with 1. field.
Qed.

(** *** more steps *)
Lemma l2_run : forall lg kd (o : smooth_opts R) rd P l r, o_sanity o = false -> (kd = Reg \/ o_class_loss o = L2) -> optimise lg kd o rd P l = Ok r ->
  stocastic_grad_descent P l (o_t_fix o) (negb (o_no_constraint o)) (o_adam o) (r_draws rd) = Ok r.
Proof. intros lg kd o rd P l r SA LS OP. unfold optimise in OP. rewrite SA in OP. destruct kd; auto. destruct LS as [?|LS]; [discriminate|]. rewrite LS in OP. auto. Qed.
Lemma p_longer : forall lg kd ts (o : smooth_opts R) rd n out out', smooth lg (Forest kd ts) o rd = Ok out -> smooth lg (Forest kd ts) o (first_draws n rd) = Ok out' ->
  Forall (@wf_tree R) ts -> ts <> [] -> o_sanity o = false -> (kd = Reg \/ o_class_loss o = L2) ->
  s_costs out' = firstn (S n) (s_costs out) /\
  forall data lf, tuning_of kd o rd ts data lf -> forest_sse (n_gamma kd) data lf (s_forest out) <= forest_sse (n_gamma kd) data lf (s_forest out').
Proof.
  intros lg kd ts o rd n out out' H H' WF NE SA LS.
  destruct (smooth_desc lg kd ts o rd out H WF NE) as (_&(G&E&Ti&Y0&W0&K0&FM&_)&_).
  destruct (forest_matrices_mats kd o ts G E Ti WF NE FM) as (K&sel&KP&M&KS).
  destruct (smooth_inv lg kd ts o rd out K sel G E Ti H WF NE FM M) as (_&(Y&W&HT&OP)&_&LK&_&LF&_&D1&_).
  destruct (smooth_inv lg kd ts o _ out' K sel G E Ti H' WF NE FM M) as (_&(Y'&W'&HT'&OP')&_&LK'&_&LF'&_&D1'&_).
  rewrite targets_draws, HT in HT'. inversion HT'; subst Y' W'. clear HT'.
  apply l2_run in OP; auto. apply l2_run in OP'; auto. cbn [first_draws r_draws] in OP'.
  set (P := flatten kd o G E Ti Y W) in *.
  destruct (loss_split kd ts o rd K sel G E Ti Y W WF M HT) as (data&lf&wss&T0&HC). cbv zeta in HC. fold P in HC.
  assert (CS : s_costs out' = firstn (S n) (s_costs out)).
  { unfold stocastic_grad_descent in OP, OP'. destruct (negb _); [discriminate|]. destruct (_ && _)%bool; [discriminate|].
    destruct (sgd_run_spec _ _ _ _ _ _ _ _ _ _ _ OP) as (its&_&LC&_&_&Pre&_).
    destruct (le_lt_dec n (length (r_draws rd))) as [Hn|Hn].
    - destruct (Pre n Hn) as (_&bs&RN). rewrite RN in OP'. inversion OP'. auto.
    - rewrite firstn_all2 in OP' by lia. rewrite OP in OP'. inversion OP'. rewrite firstn_all2; auto. lia. }
  split; auto. intros d l T1. rewrite !(forest_sse_unique kd o rd ts d l data lf) by auto.
  assert (V : forall out0 cb, length (s_lamb out0) = K -> calc_cost (p_y P) (p_Gamma P) (p_eta P) (p_w P) (s_lamb out0) = Ok cb -> length (s_forest out0) = length ts ->
    (forall q t, nth_error ts q = Some t -> exists t', nth_error (s_forest out0) q = Some t' /\ same_but_leaf_values t t' /\
     forall i, (i < n_leaves t)%nat -> length (nth (leaf_id t i) (t_value t') []) = n_gamma kd /\
       forall c, (c < n_gamma kd)%nat -> node_v t' c (leaf_id t i) = kmean t kd (kap_sel sel (s_lamb out0) q i) c) ->
    cb + wss = forest_sse (n_gamma kd) data lf (s_forest out0)).
  { intros out0 cb LK0 B1 LF0 D0. rewrite (HC _ _ LK0 B1). unfold forest_sse. rewrite LF0. apply sumto_ext. intros q Hq.
    assert (N : nth_error ts q = Some (nth q ts no_tree)) by (apply nth_error_nth'; auto).
    destruct (D0 q _ N) as (t'&N'&S'&V'). destruct (T0 q _ N) as [_ RT].
    apply sse_ext. intros x Hx. split; auto. intros c Hc. destruct (RT x Hx) as [[Hl _] _].
    rewrite (nth_error_nth _ q no_tree N'). destruct (V' _ Hl) as [_ V2]. rewrite <- V2 by auto.
    unfold leaf_v. rewrite (proj1 (same_leaf_id _ t' (lf q x) S')). auto. }
  destruct (sgd_best _ _ _ _ _ _ _ _ _ OP) as (cb&c0&B1&_&_&_&_&B5).
  destruct (sgd_best _ _ _ _ _ _ _ _ _ OP') as (cb'&c0'&B1'&_&_&_&B4'&_).
  rewrite <- (V out cb LK B1 LF D1), <- (V out' cb' LK' B1' LF' D1').
  assert (cb <= cb'). { apply B5. rewrite CS in B4'. rewrite <- (firstn_skipn (S n) (s_costs out)). apply in_or_app. auto. }
  lra.
Qed.
