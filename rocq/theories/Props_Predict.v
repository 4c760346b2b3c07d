(** Props_Predict: predictions and scores of smoothed forests (C104 to C108). *)
From Verif Require Import Base TreeSpec Spec L_Base L_Tree L_TreeModel M_Tree M_Gamma M_Levels M_Grad M_Sgd M_Smooth M_Prune M_Depth M_Main M_Clean M_Predict
  SpecSmooth SpecTune SpecPredict SpecRel SpecProg SpecCopy SpecClean L_Gamma2 L_Predict L_Predict2 L_Predict3 L_Predict4 L_Route Props_Smooth Props_Sgd Props_Rel Props_Rel2 Props_Rel4.
From Coq Require Import Reals Lra Lia QArith Permutation.
Local Open Scope R_scope.

(** ** C104: what a smoothed regression forest predicts *)

(** C104: the prediction is the mean over the trees of the value of the leaf the observation ends in; every observation ends in one leaf of each tree ... *)
Theorem C104_mean : forall cls ts x, Forall (@wf_tree R) ts -> (exists lf, ends ts x lf) /\ forall lf, ends ts x lf -> forest_predict Reg cls ts x = leaf_mean ts lf.
Proof. exact p_C104_mean. Qed.
Print Assumptions C104_mean.

(** ... after smoothing without negative weights it lies between the means of the trees' smallest and largest leaf values, unless some leaf has lost its mass ... *)
Theorem C104_range : forall lg cls ts (o : smooth_opts R) rd out x lo hi, smooth lg (Forest Reg ts) o rd = Ok out ->
  Forall (@wf_tree R) ts -> Forall pos_leaves ts -> ts <> [] -> o_no_constraint o = false -> draws_nonneg o -> leaf_bounds ts lo hi ->
  (mass_left o ts (s_lamb out) \/ forall q, lo q <= 0 <= hi q) ->
  tree_mean (length ts) lo <= forest_predict Reg cls (s_forest out) x <= tree_mean (length ts) hi.
Proof. exact p_C104_range. Qed.
Print Assumptions C104_range.

(** ... which cannot happen in plain descent with parents_all ... *)
Theorem C104_parents_all : forall lg cls ts (o : smooth_opts R) rd out x lo hi, smooth lg (Forest Reg ts) o rd = Ok out ->
  Forall (@wf_tree R) ts -> Forall pos_leaves ts -> ts <> [] -> plain_l2 Reg o -> o_no_constraint o = false -> draws_nonneg o -> o_dist o = DDepth true -> leaf_bounds ts lo hi ->
  tree_mean (length ts) lo <= forest_predict Reg cls (s_forest out) x <= tree_mean (length ts) hi.
Proof. intros. eapply p_C104_range; eauto. left. eapply mass_plain; eauto. Qed.
Print Assumptions C104_parents_all.

(** ... but can with children only: leaf values 1, 5, 9, and the smoothed tree predicts 0. *)
Theorem C104_children_only_refuted : exists (ts : list (tree Q)) (o : smooth_opts Q) rd out x,
  Forall (@wf_tree Q) ts /\ o_dist o = DDepth false /\ o_adam o = None /\ o_no_constraint o = false /\ o_sanity o = false /\
  smooth (fun x => x) (Forest Reg ts) o rd = Ok out /\ map (fun t => leaf_select t (t_value t)) ts = [[[1]; [5]; [9]]]%Q /\ forest_predict Reg [] (s_forest out) x = 0%Q.
Proof.
  exists [ex5_reg], (ex_tune [[5#1];[2#1];[2#1]]%Q (DDepth false) (1#20)%Q None), (ex_rand [0]%nat). eexists. exists [0;0]%Q.
  split; [repeat constructor|]. do 4 (split; [reflexivity|]). split; [vm_compute; reflexivity|]. split; vm_compute; reflexivity.
Qed.
Print Assumptions C104_children_only_refuted.

(** ... two observations that share all leaves of the original forest get the same prediction, also of classes and also from the forest smoothed with the last weights ... *)
Theorem C104_same_leaves : forall lg kd cls ts (o : smooth_opts R) rd out x x', smooth lg (Forest kd ts) o rd = Ok out -> Forall (@wf_tree R) ts -> ts <> [] -> same_leaves ts x x' ->
  forest_predict kd cls (s_forest out) x = forest_predict kd cls (s_forest out) x' /\ forest_predict kd cls (s_forest2 out) x = forest_predict kd cls (s_forest2 out) x'.
Proof. intros lg kd cls ts o rd out x x' H W NE SL. destruct (smooth_relabels _ _ _ _ _ _ H W NE). split; eapply p_same_leaves; eauto. Qed.
Print Assumptions C104_same_leaves.

(** ... and smooth_clean keeps its predictions in the same range. *)
Theorem C104_clean : forall cls ts (o : clean_opts R) oob draws f lamb c x lo hi, smooth_clean (Forest Reg ts) o oob draws = Ok (f, lamb, c) ->
  Forall (@wf_tree R) ts -> Forall pos_leaves ts -> ts <> [] -> k_no_constraint o = false -> leaf_bounds ts lo hi ->
  (mass_left (as_smooth o) ts lamb \/ forall q, lo q <= 0 <= hi q) ->
  tree_mean (length ts) lo <= forest_predict Reg cls f x <= tree_mean (length ts) hi.
Proof. exact p_C104_clean. Qed.
Print Assumptions C104_clean.

(** leaf values 1, 5, 9 and 20, 30: predictions between 10.5 and 19.5 for any data to tune on, any number of steps and any step size *)
Example C104_ex : forall lg Y t draws out x, smooth lg (Forest Reg [ex5_reg; ex3_reg]) (ex_tune Y (DDepth true) t None) (ex_rand draws) = Ok out ->
  21/2 <= forest_predict Reg [] (s_forest out) x <= 39/2.
Proof.
  intros lg Y t draws out x H. destruct ex_trees_ok as (A&_&B).
  pose proof (C104_parents_all lg [] _ _ _ _ x (fun q => match q with O => 1 | _ => 20 end) (fun q => match q with O => 9 | _ => 30 end) H A B ltac:(discriminate) (ex_plain Reg Y true t) eq_refl Logic.I eq_refl) as X.
  assert (LB : leaf_bounds [ex5_reg; ex3_reg] (fun q => match q with O => 1 | _ => 20 end) (fun q => match q with O => 9 | _ => 30 end)).
  { intros [|[|q]] tt j N Hj; [| |destruct q; discriminate]; inversion N; subst tt; cbn in Hj.
    - do 3 (destruct j as [|j]; [exnum|]). lia.
    - do 2 (destruct j as [|j]; [exnum|]). lia. }
  specialize (X LB). unfold tree_mean in X. cbn [length sumto INR] in X. lra.
Qed.
(** two observations in the same leaves *)
Lemma ex_first_leaf : forall a b i, a <= 1 -> (leaf_of (@ex5_reg R _) [a; b] i <-> i = 0%nat).
Proof.
  intros a b i Ha. assert (W : wf_tree (@ex5_reg R _)) by reflexivity.
  assert (L0 : leaf_of (@ex5_reg R _) [a; b] 0).
  { split; [cbn; lia|]. change (leaf_id (@ex5_reg R _) 0) with 1%nat. apply (reach_left _ _ 0%nat); [constructor|reflexivity|].
    change (negb (Rltb 1 a) = true). rewrite (Rltb_false 1 a Ha). reflexivity. }
  split; [intros [Hi Ri]|intros ->; auto]. destruct (one_leaf _ W [a; b]) as (k&_&_&U). destruct L0 as [H0 R0]. rewrite (U i Hi Ri), (U 0%nat H0 R0). auto.
Qed.
Example C104_ex_same : forall lg Y t draws out, smooth lg (Forest Reg [ex5_reg]) (ex_tune Y (DDepth true) t None) (ex_rand draws) = Ok out ->
  forest_predict Reg [] (s_forest out) [0; 7] = forest_predict Reg [] (s_forest out) [1; -2].
Proof.
  intros lg Y t draws out H. destruct ex_trees_ok as (A&_&_). inversion A; subst.
  refine (proj1 (C104_same_leaves lg Reg [] _ _ _ _ [0; 7] [1; -2] H ltac:(auto) ltac:(discriminate) _)).
  assert (K : forall a b lf, a <= 1 -> (ends [@ex5_reg R _] [a; b] lf <-> lf 0%nat = 0%nat)).
  { intros a b lf Ha. split; [intros E; apply (ex_first_leaf a b (lf 0%nat) Ha), (E 0%nat _ eq_refl)|].
    intros E [|q] t0 N; [|destruct q; discriminate]. inversion N; subst t0. apply (ex_first_leaf a b (lf 0%nat) Ha); auto. }
  intros lf. rewrite !K by lra. tauto.
Qed.

(** ** C105: class probabilities *)

(** C105: the class probabilities of an original forest are the means over the trees of the class proportions of the leaves ... *)
Theorem C105_original : forall nc ts x lf, Forall (@wf_tree R) ts -> Forall (wf_values (Class nc)) ts -> Forall pos_leaves ts -> Forall (class_counts nc) ts ->
  ends ts x lf -> forall c, (c < nc)%nat ->
  nth c (forest_proba nc ts x) 0 = tree_mean (length ts) (fun q => leaf_v (nth q ts no_tree) c (lf q) / leaf_w (nth q ts no_tree) (lf q)).
Proof. exact p_C105_original. Qed.
Print Assumptions C105_original.

(** ... after smoothing they are the means of the smoothed leaf values themselves, not negative, of sum at most 1, and of sum 1 if every leaf has mass left ... *)
Theorem C105_smoothed : forall lg nc ts (o : smooth_opts R) rd out x lf,
  smooth lg (Forest (Class nc) ts) o rd = Ok out -> Forall (@wf_tree R) ts -> Forall pos_leaves ts -> Forall (class_counts nc) ts -> ts <> [] -> draws_nonneg o -> 0 <= o_class_eps o ->
  ends ts x lf -> length (forest_proba nc (s_forest out) x) = nc /\
  (forall c, (c < nc)%nat -> nth c (forest_proba nc (s_forest out) x) 0 = tree_mean (length ts) (fun q => leaf_v (nth q (s_forest out) no_tree) c (lf q)) /\
     0 <= nth c (forest_proba nc (s_forest out) x) 0) /\
  sumto nc (fun c => nth c (forest_proba nc (s_forest out) x) 0) <= 1 /\
  (mass_left o ts (s_lamb out) -> sumto nc (fun c => nth c (forest_proba nc (s_forest out) x) 0) = 1).
Proof. exact p_C105_smoothed. Qed.
Print Assumptions C105_smoothed.

(** ... as it has in plain descent with parents_all ... *)
Theorem C105_parents_all : forall lg nc ts (o : smooth_opts R) rd out x, smooth lg (Forest (Class nc) ts) o rd = Ok out ->
  Forall (@wf_tree R) ts -> Forall pos_leaves ts -> Forall (class_counts nc) ts -> ts <> [] -> plain_l2 (Class nc) o -> o_no_constraint o = false -> draws_nonneg o -> 0 <= o_class_eps o ->
  o_dist o = DDepth true -> sumto nc (fun c => nth c (forest_proba nc (s_forest out) x) 0) = 1.
Proof.
  intros lg nc ts o rd out x H W PL CC NE PP NC DN EP OD. destruct (ends_ex ts x W) as (lf&E).
  destruct (p_C105_smoothed lg nc ts o rd out x lf H W PL CC NE DN EP E) as (_&_&_&X). apply X. eapply mass_plain; eauto.
Qed.
Print Assumptions C105_parents_all.

(** ... but not always with children only: here all probabilities of an observation become 0, and the first class is predicted although the leaf held the second only. *)
Definition ex5_late {T} {NT : Num T} : tree T := ex5 (map exrow [[2;2];[0;2];[2;0];[1;0];[1;0]]%Z) (exrow [4;2;2;1;1]%Z) (exrow [10;0;4;0;0]%Z).
Theorem C105_children_only_refuted : exists (ts : list (tree Q)) (o : smooth_opts Q) rd out x,
  Forall (@wf_tree Q) ts /\ o_dist o = DDepth false /\ o_adam o = None /\ o_no_constraint o = false /\ o_sanity o = false /\ o_class_loss o = L2 /\
  smooth (fun x => x) (Forest (Class 2) ts) o rd = Ok out /\ forest_proba 2 ts x = [0; 1]%Q /\ forest_predict (Class 2) [7; 8]%Q ts x = 8%Q /\
  forest_proba 2 (s_forest out) x = [0; 0]%Q /\ forest_predict (Class 2) [7; 8]%Q (s_forest out) x = 7%Q.
Proof.
  exists [ex5_late], (ex_tune (map exrow [[0;1];[0;1];[0;1]]%Z) (DDepth false) (1#2)%Q None), (ex_rand [0]%nat). eexists. exists [0;0]%Q.
  split; [repeat constructor|]. do 5 (split; [reflexivity|]). split; [vm_compute; reflexivity|]. repeat split; vm_compute; reflexivity.
Qed.
Print Assumptions C105_children_only_refuted.

(** ... and the predicted label is the first one with the largest probability. *)
Theorem C105_label : forall nc cls (ts : list (tree R)) x, (0 < nc)%nat ->
  exists k, first_largest (forest_proba nc ts x) k /\ forest_predict (Class nc) cls ts x = nth k cls 0.
Proof. exact p_C105_label. Qed.
Print Assumptions C105_label.

Example C105_ex : forall lg Y t draws out x, smooth lg (Forest (Class 2) [ex5_class]) (ex_tune Y (DDepth true) t None) (ex_rand draws) = Ok out ->
  nth 0 (forest_proba 2 (s_forest out) x) 0 + nth 1 (forest_proba 2 (s_forest out) x) 0 = 1.
Proof.
  intros lg Y t draws out x H. destruct ex_class_ok as (A&B&C).
  pose proof (C105_parents_all lg 2 _ _ _ _ x H A B C ltac:(discriminate) (ex_plain _ Y true t) eq_refl Logic.I ltac:(cbn; lra) eq_refl) as X.
  cbn [sumto] in X. lra.
Qed.
Example C105_ex_values : forest_proba 2 [@ex5_class Q _; @ex5_late Q _] [0; 0]%Q = [1#2; 1#2]%Q /\ forest_proba 2 [@ex5_class Q _; @ex5_late Q _] [3; 5]%Q = [1; 0]%Q /\
  forest_predict (Class 2) [7; 8]%Q [@ex5_class Q _; @ex5_late Q _] [0; 0]%Q = 7%Q /\ forest_predict (Class 2) [7; 8]%Q [@ex5_class Q _] [3; 1]%Q = 8%Q.
Proof. repeat split; vm_compute; reflexivity. Qed.

(** ** C106: the sanity check and predicted classes *)

(** C106: with class_eps = 0 the sanity check keeps all class probabilities and predicted labels ... *)
Theorem C106_sanity : forall lg nc ts (o : smooth_opts R) rd out, smooth lg (Forest (Class nc) ts) o rd = Ok out ->
  Forall (@wf_tree R) ts -> Forall (wf_values (Class nc)) ts -> Forall pos_leaves ts -> Forall (class_counts nc) ts -> ts <> [] ->
  o_sanity o = true -> o_lamb_draws o = None -> o_class_eps o = 0 -> separated o ts ->
  forall x, forest_proba nc (s_forest out) x = forest_proba nc ts x /\ forall cls, forest_predict (Class nc) cls (s_forest out) x = forest_predict (Class nc) cls ts x.
Proof. exact p_C106_zero. Qed.
Print Assumptions C106_sanity.

(** ... with the default class_eps = 1/10000 it does not: a leaf with one observation of each class is predicted the first class before and the second one after. *)
Definition ex5_tie {T} {NT : Num T} : tree T := ex5 (map exrow [[2;3];[1;1];[1;2];[0;1];[1;1]]%Z) (exrow [5;2;3;1;2]%Z) (exrow [10;0;4;0;0]%Z).
Theorem C106_default_refuted : exists (ts : list (tree Q)) (o : smooth_opts Q) rd out x,
  Forall (@wf_tree Q) ts /\ o_sanity o = true /\ o_lamb_draws o = None /\ o_class_eps o = (1#10000)%Q /\ o_dist o = DDepth true /\
  smooth (fun x => x) (Forest (Class 2) ts) o rd = Ok out /\ forest_proba 2 ts x = [1#2; 1#2]%Q /\ map Qred (forest_proba 2 (s_forest out) x) = [30005#60012; 30007#60012]%Q /\
  forest_predict (Class 2) [7; 8]%Q ts x = 7%Q /\ forest_predict (Class 2) [7; 8]%Q (s_forest out) x = 8%Q.
Proof.
  exists [ex5_tie], (ex_opts exYc true (DDepth true) (1#10000)%Q L2), (ex_rand []). eexists. exists [0;0]%Q.
  split; [repeat constructor|]. do 4 (split; [reflexivity|]). split; [vm_compute; reflexivity|]. repeat split; vm_compute; reflexivity.
Qed.
Print Assumptions C106_default_refuted.

Example C106_ex : forall lg rd x, exists out, smooth lg (Forest (Class 2) [ex5_class]) (ex_opts exYc true (DDepth true) 0 CE) rd = Ok out /\
  forest_predict (Class 2) [7; 8] (s_forest out) x = forest_predict (Class 2) [7; 8] [ex5_class] x.
Proof.
  intros lg rd x. destruct ex_class_ok as (A&B&C).
  assert (H : exists out, smooth lg (Forest (Class 2) [ex5_class]) (ex_opts exYc true (DDepth true) 0 CE) rd = Ok out).
  { apply C65_smooth_returns; auto; try discriminate; try exact Logic.I; [cbn; lia| |right; cbn; lra].
    left. split; [reflexivity|]. exists exX, exYc. split; [reflexivity|]. split; [reflexivity|]. split; [discriminate|]. split; [reflexivity|].
    intros r [<-|[<-|[<-|[]]]]; reflexivity. }
  destruct H as (out&H). exists out. split; auto.
  refine (proj2 (C106_sanity lg 2 _ _ _ _ H A _ B C ltac:(discriminate) eq_refl eq_refl eq_refl Logic.I x) _).
  constructor; [|constructor]. intros v Hv. cbn in Hv. do 5 (destruct v as [|v]; [reflexivity|]). lia.
Qed.

(** ** C107: scores *)

(** C107: assess_rf returns if and only if there are rows to predict, one response for each; for a regression it is the mean squared error of the predictions ... *)
Theorem C107_returns : forall kd cls ts X (y : list R), (exists m, assess_rf (Forest kd ts) cls X y = Ok m) <-> X <> [] /\ length y = length X.
Proof. exact p_score_ok. Qed.
Print Assumptions C107_returns.
Theorem C107_regression : forall cls ts X (y : list R) m, assess_rf (Forest Reg ts) cls X y = Ok m ->
  m = mse_of (length X) (fun o => nth o y 0) (fun o => forest_predict Reg cls ts (nth o X [])).
Proof. exact p_score_reg. Qed.
Print Assumptions C107_regression.
(** ... for a classification the share of the rows with the right label ... *)
Theorem C107_classification : forall nc cls ts X (y : list R) m, assess_rf (Forest (Class nc) ts) cls X y = Ok m ->
  m = INR (length (filter (fun o => if Req_EM_T (nth o y 0) (forest_predict (Class nc) cls ts (nth o X [])) then true else false) (seq 0 (length X)))) / INR (length X).
Proof. exact p_score_class. Qed.
Print Assumptions C107_classification.
(** ... and other objects, and other kinds of forests asked of generate_rf, fail, but with an unbound name and not with the ValueError written for them ... *)
Theorem C107_other : forall cls (X : mat R) y fit, (X <> [] -> assess_rf OtherObject cls X y = Err UnboundLocalError) /\ assess_rf OtherObject cls [] y = Err ValueError /\
  generate_rf fit TOther = @Err (rf_object R) UnboundLocalError /\ (forall r, r <> TOther -> generate_rf fit r = fit r).
Proof. intros cls X y fit. split; [destruct X; [congruence|reflexivity]|]. split; [reflexivity|]. split; [reflexivity|]. intros r H. destruct r; try reflexivity. destruct H. reflexivity. Qed.
Print Assumptions C107_other.

(** ... the mean of the trees' squared errors is the squared error of the forest plus the mean squared distance of the trees from the forest ... *)
Theorem C107_trees_and_forest : forall cls (ts : list (tree R)) X y, ts <> [] ->
  tree_mean (length ts) (alone (forest_predict Reg cls) ts X y) =
  mse_of (length X) (fun o => nth o y 0) (fun o => forest_predict Reg cls ts (nth o X [])) + tree_mean (length ts) (apart (forest_predict Reg cls) ts X) /\
  0 <= tree_mean (length ts) (apart (forest_predict Reg cls) ts X).
Proof. intros. split; [apply p_ambiguity; auto|apply apart_nonneg]. Qed.
Print Assumptions C107_trees_and_forest.

(** ... smoothing never raises the mean of the trees' squared errors on the data it is tuned on ... *)
Theorem C107_tree_errors : forall lg cls ts (o : smooth_opts R) rd out X y, smooth lg (Forest Reg ts) o rd = Ok out ->
  Forall (@wf_tree R) ts -> Forall pos_leaves ts -> ts <> [] -> o_sanity o = false -> o_lamb_draws o = None -> separated o ts -> tunes_on o X y -> X <> [] ->
  tree_mean (length ts) (alone (forest_predict Reg cls) (s_forest out) X y) <= tree_mean (length ts) (alone (forest_predict Reg cls) ts X y).
Proof. exact p_C107_average. Qed.
Print Assumptions C107_tree_errors.

(** ... hence the score of the smoothed forest on these data is at most the mean score of the original trees, and a single tree never scores worse ... *)
Theorem C107_forest_error : forall lg cls ts (o : smooth_opts R) rd out X y m, smooth lg (Forest Reg ts) o rd = Ok out ->
  Forall (@wf_tree R) ts -> Forall pos_leaves ts -> ts <> [] -> o_sanity o = false -> o_lamb_draws o = None -> separated o ts -> tunes_on o X y ->
  assess_rf (Forest Reg (s_forest out)) cls X y = Ok m -> m <= tree_mean (length ts) (alone (forest_predict Reg cls) ts X y).
Proof. exact p_C107_forest. Qed.
Print Assumptions C107_forest_error.
Theorem C107_one_tree : forall lg cls t (o : smooth_opts R) rd out X y m m0, smooth lg (Forest Reg [t]) o rd = Ok out ->
  wf_tree t -> pos_leaves t -> o_sanity o = false -> o_lamb_draws o = None -> separated o [t] -> tunes_on o X y ->
  assess_rf (Forest Reg (s_forest out)) cls X y = Ok m -> assess_rf (Forest Reg [t]) cls X y = Ok m0 -> m <= m0.
Proof. exact p_C107_one. Qed.
Print Assumptions C107_one_tree.

(** ... but a forest of two trees can: each tree comes closer to the responses, the mean of the two moves away from them (0 before, 1/4 after). *)
Definition ex_two {T} {NT : Num T} (vs ws : list Z) : tree T :=
  mkTree [1;-1;-1]%Z [2;-1;-1]%Z [0;0;0]%nat [n1;n0;n0] (map (fun z => [exz z]) vs) (exrow ws) (exrow [3;0;0]%Z).
Definition ex_worse : smooth_opts Q :=
  {| o_X_trained := None; o_y_trained := None; o_X_tune := Some (map exrow [[0];[3]]%Z); o_y_tune := Some (map exrow [[0];[0]]%Z);
     o_no_constraint := false; o_sanity := false; o_resample := false; o_t_fix := (1#10)%Q; o_all_trees := true;
     o_lamb_draws := None; o_style := Standard; o_dist := DDepth true; o_class_eps := n0; o_class_loss := L2; o_adam := None |}.
Theorem C107_forest_worse_refuted : exists (ts : list (tree Q)) (o : smooth_opts Q) rd out X y,
  Forall (@wf_tree Q) ts /\ o_sanity o = false /\ o_lamb_draws o = None /\ o_adam o = None /\ o_dist o = DDepth true /\
  o_X_tune o = Some X /\ o_y_tune o = Some (map (fun v => [v]) y) /\
  smooth (fun x => x) (Forest Reg ts) o rd = Ok out /\ s_costs out = [32; 10]%Q /\
  assess_rf (Forest Reg ts) [] X y = Ok 0%Q /\ assess_rf (Forest Reg (s_forest out)) [] X y = Ok (1#4)%Q.
Proof.
  exists [ex_two [2;0;4]%Z [4;2;2]%Z; ex_two [-1;0;-4]%Z [4;3;1]%Z], ex_worse, (ex_rand [0]%nat). eexists. exists (map exrow [[0];[3]]%Z), [0;0]%Q.
  split; [repeat constructor|]. do 6 (split; [reflexivity|]). split; [vm_compute; reflexivity|]. repeat split; vm_compute; reflexivity.
Qed.
Print Assumptions C107_forest_worse_refuted.

(** ... and more steps never make the trees worse on average. *)
Theorem C107_more_steps : forall lg cls ts (o : smooth_opts R) rd n out out' X y, smooth lg (Forest Reg ts) o rd = Ok out -> smooth lg (Forest Reg ts) o (first_draws n rd) = Ok out' ->
  Forall (@wf_tree R) ts -> ts <> [] -> o_sanity o = false -> tunes_on o X y -> X <> [] -> s_costs out' = firstn (S n) (s_costs out) /\
  tree_mean (length ts) (alone (forest_predict Reg cls) (s_forest out) X y) <= tree_mean (length ts) (alone (forest_predict Reg cls) (s_forest out') X y).
Proof. exact p_longer_mean. Qed.
Print Assumptions C107_more_steps.

Example C107_ex : forall lg t ad draws, exists out m, smooth lg (Forest Reg [ex5_reg; ex3_reg]) (ex_tune exYr (DDepth true) t ad) (ex_rand draws) = Ok out /\
  assess_rf (Forest Reg (s_forest out)) [] exX [2; 4; 8] = Ok m /\ m <= tree_mean 2 (alone (forest_predict Reg []) [ex5_reg; ex3_reg] exX [2; 4; 8]).
Proof.
  intros lg t ad draws. destruct ex_trees_ok as (A&_&B).
  assert (H : exists out, smooth lg (Forest Reg [ex5_reg; ex3_reg]) (ex_tune exYr (DDepth true) t ad) (ex_rand draws) = Ok out).
  { apply C65_smooth_returns; auto; try discriminate; try exact Logic.I.
    left. split; [reflexivity|]. exists exX, exYr. split; [reflexivity|]. split; [reflexivity|]. split; [discriminate|]. split; [reflexivity|].
    intros r [<-|[<-|[<-|[]]]]; reflexivity. }
  destruct H as (out&H). destruct (proj2 (C107_returns Reg [] (s_forest out) exX [2; 4; 8])) as (m&HM). { split; [discriminate|reflexivity]. }
  exists out, m. split; auto. split; auto.
  apply (C107_forest_error lg [] _ _ _ _ exX [2; 4; 8] m H A B ltac:(discriminate) eq_refl eq_refl Logic.I); auto.
  split; [reflexivity|]. split; [reflexivity|]. split; [|reflexivity]. cbn [ex_tune o_y_tune]. f_equal. unfold exYr. cbn [map].
  assert (E2 : @exz R _ 2 = 2) by (change (INR 2 = 2); cbn; lra). assert (E4 : @exz R _ 4 = 4) by (change (INR 4 = 4); cbn; lra). assert (E8 : @exz R _ 8 = 8) by (change (INR 8 = 8); cbn; lra).
  rewrite E2, E4, E8. reflexivity.
Qed.
Example C107_ex_values : assess_rf (Forest Reg [@ex5_reg Q _]) [] exX [2; 4; 8]%Q = Ok 1%Q /\ assess_rf (Forest (Class 2) [@ex5_class Q _]) [7; 8]%Q exX [7; 8; 8]%Q = Ok (2#3)%Q /\
  assess_rf (Forest Reg [@ex5_reg Q _]) [] exX [2; 4]%Q = Err ValueError.
Proof. repeat split; vm_compute; reflexivity. Qed.

(** ** C108: predictions and scores when the data are represented differently *)

(** C108: in other units of the response, with depth distances, predictions are multiplied by c and scores by its square ... *)
Theorem C108_units : forall lg c ts (o : smooth_opts R) rd pa out, c <> 0 -> o_dist o = DDepth pa -> smooth lg (Forest Reg ts) o rd = Ok out ->
  exists out', smooth lg (Forest Reg (map (scale_tree c) ts)) (scale_opts c o) rd = Ok out' /\
  forall cls, (forall x, forest_predict Reg cls (s_forest out') x = c * forest_predict Reg cls (s_forest out) x) /\
  forall X y m, assess_rf (Forest Reg (s_forest out)) cls X y = Ok m -> assess_rf (Forest Reg (s_forest out')) cls X (map (Rmult c) y) = Ok (c * c * m).
Proof. exact p_C108_units. Qed.
Print Assumptions C108_units.
(** ... from another origin, as long as no leaf loses its mass, predictions move along and scores are the same ... *)
Theorem C108_origin : forall lg b ts (o : smooth_opts R) rd out, Forall (@wf_tree R) ts -> Forall (wf_values Reg) ts -> ts <> [] -> keeps_mass lg Reg ts o rd ->
  smooth lg (Forest Reg ts) o rd = Ok out ->
  exists out', smooth lg (Forest Reg (map (shifted b) ts)) (shifted_opts b o) rd = Ok out' /\
  forall cls, (forall x, forest_predict Reg cls (s_forest out') x = b + forest_predict Reg cls (s_forest out) x) /\
  forall X y m, assess_rf (Forest Reg (s_forest out)) cls X y = Ok m -> assess_rf (Forest Reg (s_forest out')) cls X (map (Rplus b) y) = Ok m.
Proof. exact p_C108_origin. Qed.
Print Assumptions C108_origin.
(** ... with features on other increasing scales predictions and scores are the same ... *)
Theorem C108_features : forall phi : nat -> R -> R, (forall f a b, a < b -> phi f a < phi f b) -> forall lg kd ts (o : smooth_opts R) rd p out,
  Forall (@wf_tree R) ts -> ts <> [] -> has_features p o ts -> smooth lg (Forest kd ts) o rd = Ok out ->
  exists out', smooth lg (Forest kd (map (rescaled_tree phi) ts)) (rescaled_opts phi o) rd = Ok out' /\
  forall cls, (forall x, length x = p -> forest_predict kd cls (s_forest out') (rescaled_obs phi x) = forest_predict kd cls (s_forest out) x) /\
  forall X y, Forall (fun x => length x = p) X -> assess_rf (Forest kd (s_forest out')) cls (map (rescaled_obs phi) X) y = assess_rf (Forest kd (s_forest out)) cls X y.
Proof. exact p_C108_features. Qed.
Print Assumptions C108_features.
(** ... with the trees in another order, too (depth distances, the same trees drawn) ... *)
Theorem C108_order : forall lg kd (o : smooth_opts R) pa pi ts ts' rd rd' out, Forall (@wf_tree R) ts -> ts <> [] -> o_dist o = DDepth pa ->
  reordered pi ts ts' rd rd' -> smooth lg (Forest kd ts) o rd = Ok out -> exists out', smooth lg (Forest kd ts') o rd' = Ok out' /\
  forall cls, (forall x, forest_predict kd cls (s_forest out') x = forest_predict kd cls (s_forest out) x) /\
  forall X y, assess_rf (Forest kd (s_forest out')) cls X y = assess_rf (Forest kd (s_forest out)) cls X y.
Proof. exact p_C108_order. Qed.
Print Assumptions C108_order.
(** ... and with several copies of every tree. *)
Theorem C108_copies : forall lg kd (o : smooth_opts R) pa m ts ts' rd rd' out, Forall (@wf_tree R) ts -> ts <> [] -> o_dist o = DDepth pa -> o_all_trees o = false ->
  copied m ts ts' rd rd' -> smooth lg (Forest kd ts) o rd = Ok out -> exists out', smooth lg (Forest kd ts') o rd' = Ok out' /\
  forall cls, (forall x, forest_predict kd cls (s_forest out') x = forest_predict kd cls (s_forest out) x) /\
  forall X y, assess_rf (Forest kd (s_forest out')) cls X y = assess_rf (Forest kd (s_forest out)) cls X y.
Proof. exact p_C108_copies. Qed.
Print Assumptions C108_copies.

Example C108_ex : forall lg (t : R) out, smooth lg (Forest Reg [ex5_reg; ex3_reg]) (ex_small (DDepth true) t None) (ex_rand [0;1;0]%nat) = Ok out ->
  exists out', smooth lg (Forest Reg [ex3_reg; ex5_reg]) (ex_small (DDepth true) t None) (ex_rand [1;0;1]%nat) = Ok out' /\
  forall x, forest_predict Reg [] (s_forest out') x = forest_predict Reg [] (s_forest out) x.
Proof.
  intros lg t out H. destruct ex_trees_ok as (A&_&_).
  destruct (C108_order lg Reg (ex_small (DDepth true) t None) true swap2 [ex5_reg; ex3_reg] [ex3_reg; ex5_reg] (ex_rand [0;1;0]%nat) (ex_rand [1;0;1]%nat) out A ltac:(discriminate) eq_refl) as (out'&H'&X); auto.
  - apply swap2_ok. repeat constructor.
  - exists out'. split; auto. intros x. apply X.
Qed.
Example C108_ex_units : forall lg (t : R) draws out, smooth lg (Forest Reg [ex5_reg; ex3_reg]) (ex_small (DDepth false) t None) (ex_rand draws) = Ok out ->
  exists out', smooth lg (Forest Reg (map (scale_tree 1000) [ex5_reg; ex3_reg])) (scale_opts 1000 (ex_small (DDepth false) t None)) (ex_rand draws) = Ok out' /\
  forall x, forest_predict Reg [] (s_forest out') x = 1000 * forest_predict Reg [] (s_forest out) x.
Proof.
  intros lg t draws out H. destruct (C108_units lg 1000 _ (ex_small (DDepth false) t None) _ false out ltac:(lra) eq_refl H) as (out'&H'&X). exists out'. split; auto. apply X.
Qed.

(** ** C109: main/pytorch_example.py *)

(** C109: the example script never smooths: once its forest is fitted, its first call of smooth is refused, since "standard" is no distance style. *)
Theorem C109_example_stops : forall lg fit (data : mat R * list R) rd, torch_example_sim lg fit data rd = match fit with Ok _ => Err ValueError | Err e => Err e end.
Proof. exact p_example. Qed.
Print Assumptions C109_example_stops.

(** with its call corrected to the depth distances it would smooth *)
Example C109_ex : torch_example_sim (fun x => x) (Ok (Forest Reg [@ex5_reg Q _])) (exX, [2; 4; 8]%Q) (ex_rand []) = Err ValueError /\
  dist_arg (T := Q) SDepth true = Ok (DDepth true) /\
  exists out, smooth (fun x => x) (Forest Reg [@ex5_reg Q _]) (ex_tune exYr (DDepth true) 1%Q None) (ex_rand []) = Ok out.
Proof. split; [reflexivity|]. split; [reflexivity|]. eexists. vm_compute. reflexivity. Qed.
