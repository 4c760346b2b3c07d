(** Props_Main: properties of the experiment scripts. *)
From Verif Require Import Base TreeSpec Spec M_Tree M_Gamma M_Levels M_Prox M_Grad M_Sgd M_Smooth M_Clean M_Depth M_Level M_Main SpecSmooth SpecLevel SpecMain.
From Verif Require Import L_Base L_Main L_Main2 Props_Smooth Props_Clean Props_Depth Props_Level.
From Coq Require Import Reals Lra Lia QArith Sorted.
Local Open Scope R_scope.

(** ** C93: the searches over depth and node size *)

(** C93: both searches return the costs 1 - oob_score of all candidates and the first candidate with the smallest cost (none for an empty range). *)
Theorem C93_search : forall (score : rf_type -> nat -> R) type range, type <> TOther ->
  exists bd bs, depth_search score type range = Ok (bd, bs, map (fun d => 1 - score type d) range, range) /\
    node_size_search score type range = Ok (bd, bs, map (fun d => 1 - score type d) range, range) /\
    match range with
    | [] => bd = None /\ bs = None
    | _ => exists d, bd = Some d /\ bs = Some (1 - score type d) /\ first_best (fun d => 1 - score type d) range d
    end.
Proof. exact p_C93. Qed.
Print Assumptions C93_search.

(** ... so over an increasing range it is the smallest one among the best. *)
Theorem C93_smallest : forall (score : rf_type -> nat -> R) type range d bs costs, StronglySorted lt range ->
  depth_search score type range = Ok (Some d, bs, costs, range) ->
  In d range /\ (forall x, In x range -> score type x <= score type d) /\
  forall x, In x range -> (forall y, In y range -> score type y <= score type x) -> (d <= x)%nat.
Proof.
  intros score type range d bs costs SS H. destruct type; [| |destruct range; discriminate].
  - destruct (p_C93 score TReg range ltac:(discriminate)) as (bd&bs'&E&_&C). rewrite E in H. injection H as -> _ _.
    destruct range as [|x0 r0]; [destruct C; discriminate|]. destruct C as (d'&E1&_&F). injection E1 as <-.
    destruct (first_best_least _ _ _ F SS) as (A&B&D). split; auto. split; [intros x Ix; specialize (B x Ix); lra|].
    intros x Ix Mx. apply D; auto. intros y Iy. specialize (Mx y Iy). lra.
  - destruct (p_C93 score TClass range ltac:(discriminate)) as (bd&bs'&E&_&C). rewrite E in H. injection H as -> _ _.
    destruct range as [|x0 r0]; [destruct C; discriminate|]. destruct C as (d'&E1&_&F). injection E1 as <-.
    destruct (first_best_least _ _ _ F SS) as (A&B&D). split; auto. split; [intros x Ix; specialize (B x Ix); lra|].
    intros x Ix Mx. apply D; auto. intros y Iy. specialize (Mx y Iy). lra.
Qed.
Print Assumptions C93_smallest.

(** ... any other model type fails as soon as there is a candidate. *)
Theorem C93_unknown : forall (score : rf_type -> nat -> R) range, range <> [] ->
  depth_search score TOther range = Err UnboundLocalError /\ node_size_search score TOther range = Err UnboundLocalError.
Proof. intros score [|x l] H; [congruence|auto]. Qed.
Print Assumptions C93_unknown.

Example C93_ex : exists costs, depth_search (fun _ d => nth d [0; 1#2; 4#5; 4#5; 3#5] 0)%Q TReg [1;2;3;4]%nat = Ok (Some 2%nat, Some (1#5)%Q, costs, [1;2;3;4]%nat) /\
  length costs = 4%nat /\ StronglySorted lt [1;2;3;4]%nat.
Proof. eexists. split; [vm_compute; reflexivity|]. split; [reflexivity|]. repeat (constructor; auto). Qed.

(** ** C94: the table of depth_error_vis *)

(** C94: one row per model and depth with the average over the draws; the band reaches s / sqrt(number of depths) to both sides, s being the standard deviation over the draws. *)
Theorem C94_table : forall (cv : arr3 R) idx_range, match idx_range with None => True | Some l => length l = d_1 cv end ->
  exists tab, depth_error_vis cv idx_range = Ok tab /\ length tab = (d_0 cv * d_1 cv)%nat /\
    forall m i, (m < d_0 cv)%nat -> (i < d_1 cv)%nat -> exists r s, nth_error tab (m * d_1 cv + i) = Some r /\
      e_model r = m /\ e_idx r = match idx_range with None => i | Some l => nth i l O end /\
      e_mu r = average (d_2 cv) (at3 cv m i) /\ spread (d_2 cv) (at3 cv m i) s /\
      e_lower r = e_mu r + s / sqrt (INR (d_1 cv)) /\ e_upper r = e_mu r - s / sqrt (INR (d_1 cv)).
Proof. exact p_C94. Qed.
Print Assumptions C94_table.

(** ... an index range of another length is rejected; *)
Theorem C94_range : forall (cv : arr3 R) l, length l <> d_1 cv -> (0 < d_0 cv)%nat -> depth_error_vis cv (Some l) = Err ValueError.
Proof. exact p_C94_bad. Qed.
Print Assumptions C94_range.

(** ... the column "lower" lies above "upper" wherever the scores of the draws differ at all, and ... *)
Theorem C94_band_reversed : forall (cv : arr3 R) tab m i r s, depth_error_vis cv None = Ok tab -> (m < d_0 cv)%nat -> (i < d_1 cv)%nat ->
  nth_error tab (m * d_1 cv + i) = Some r -> spread (d_2 cv) (at3 cv m i) s -> 0 < s -> e_upper r < e_mu r < e_lower r.
Proof.
  intros cv tab m i r s H Hm Hi Hr (S0&S1) HS. destruct (p_C94 cv None Logic.I) as (tab'&E&_&F).
  rewrite E in H. injection H as ->. destruct (F m i Hm Hi) as (r'&s'&Hr'&_&_&_&(T0&T1)&EL&EU). rewrite Hr in Hr'. injection Hr' as <-.
  assert (s' = s) by (apply Rsqr_inj; auto; unfold Rsqr; congruence). subst s'. rewrite EL, EU.
  assert (0 < s / sqrt (INR (d_1 cv))); [|lra]. apply Rdiv_lt_0_compat; auto. apply sqrt_lt_R0, lt_0_INR. lia.
Qed.
Print Assumptions C94_band_reversed.

(** ... its half-width is not the standard error of the average, s / sqrt(number of draws), unless there are as many draws as depths. *)
Theorem C94_standard_error : forall (cv : arr3 R) tab m i r s, depth_error_vis cv None = Ok tab -> (m < d_0 cv)%nat -> (i < d_1 cv)%nat -> (0 < d_2 cv)%nat ->
  nth_error tab (m * d_1 cv + i) = Some r -> spread (d_2 cv) (at3 cv m i) s -> 0 < s ->
  (e_lower r - e_mu r = s / sqrt (INR (d_2 cv)) <-> d_1 cv = d_2 cv).
Proof.
  intros cv tab m i r s H Hm Hi Hn Hr (S0&S1) HS. destruct (p_C94 cv None Logic.I) as (tab'&E&_&F).
  rewrite E in H. injection H as ->. destruct (F m i Hm Hi) as (r'&s'&Hr'&_&_&_&(T0&T1)&EL&EU). rewrite Hr in Hr'. injection Hr' as <-.
  assert (s' = s) by (apply Rsqr_inj; auto; unfold Rsqr; congruence). subst s'. rewrite EL.
  replace (e_mu r + s / sqrt (INR (d_1 cv)) - e_mu r) with (s / sqrt (INR (d_1 cv))) by ring. split; [|intros ->; auto].
  intros EQ. destruct (Nat.eq_dec (d_1 cv) (d_2 cv)) as [|N]; auto. exfalso. apply (band_width (d_1 cv) (d_2 cv) s); auto; lia.
Qed.
Print Assumptions C94_standard_error.

(** one model, four depths, two draws with the scores 0 and 2 *)
Example C94_ex : exists tab, depth_error_vis {| d_0 := 1; d_1 := 4; d_2 := 2; at3 := fun _ _ k => nth k [0; 2]%Q 0%Q |} None = Ok tab /\
  nth_error tab 3 = Some {| e_mu := 1; e_lower := 3#2; e_upper := 1#2; e_idx := 3; e_model := 0 |}%Q.
Proof. eexists. split; vm_compute; reflexivity. Qed.
Example C94_ex_spread : spread 2 (fun k => 2 * INR k) 1.
Proof. split; [lra|]. unfold average. cbn [sumto INR]. field. Qed.

(** ** C95: the table of cost_vis *)

(** C95: with a range of at most as many depths as the array has, there is one row per depth, draw and step with its cost ... *)
Theorem C95_table : forall (c : arr3 R) range, (length range <= d_0 c)%nat ->
  exists tab, cost_vis c (Some range) = Ok tab /\ length tab = (length range * (d_1 c * d_2 c))%nat /\
    forall i s k dep, nth_error range i = Some dep -> (s < d_1 c)%nat -> (k < d_2 c)%nat ->
      exists r, nth_error tab (i * (d_1 c * d_2 c) + (s * d_2 c + k)) = Some r /\
        k_depth r = dep /\ k_sim r = s /\ k_step r = k /\ k_c r = at3 c i s k.
Proof. exact p_C95_range. Qed.
Print Assumptions C95_table.

(** ... without a range the number of draws stands for the number of depths: with fewer draws than depths the further depths are left out, ... *)
Theorem C95_default : forall c : arr3 R, (d_1 c <= d_0 c)%nat -> exists tab, cost_vis c None = Ok tab /\
  length tab = (d_1 c * (d_1 c * d_2 c))%nat /\
  (forall i s k, (i < d_1 c)%nat -> (s < d_1 c)%nat -> (k < d_2 c)%nat -> exists r, In r tab /\ k_depth r = i /\ k_sim r = s /\ k_step r = k /\ k_c r = at3 c i s k) /\
  forall r, In r tab -> (k_depth r < d_1 c)%nat.
Proof. exact p_C95_default. Qed.
Print Assumptions C95_default.

(** ... with more draws than depths the call fails. *)
Theorem C95_default_fails : forall c : arr3 R, (d_0 c < d_1 c)%nat -> cost_vis c None = Err IndexError.
Proof. exact p_C95_fails. Qed.
Print Assumptions C95_default_fails.

Example C95_ex : exists tab, cost_vis {| d_0 := 3; d_1 := 2; d_2 := 2; at3 := fun i s k => inject_Z (Z.of_nat (100 * i + 10 * s + k)) |} (Some [2;4;6]%nat) = Ok tab /\
  length tab = 12%nat /\ nth_error tab 11 = Some {| k_depth := 6; k_sim := 1; k_step := 1; k_c := inject_Z 211 |}.
Proof. eexists. split; [vm_compute; reflexivity|]. split; reflexivity. Qed.
Example C95_ex_default : exists tab, cost_vis {| d_0 := 3; d_1 := 2; d_2 := 2; at3 := fun i s k => inject_Z (Z.of_nat (100 * i + 10 * s + k)) |} None = Ok tab /\
  map k_depth tab = [0;0;0;0;1;1;1;1]%nat.
Proof. eexists. split; vm_compute; reflexivity. Qed.

(** ** C96: average_depth *)

(** C96: average_depth is the average over the trees of 1 plus the depth of the leaf the observation falls into (of the number of nodes it visits), ... *)
Theorem C96_average_depth : forall (ts : list (tree R)) X, Forall wf_tree ts -> X <> [] ->
  exists ds, average_depth ts X = Ok ds /\ length ds = length X /\
    forall i (depth : nat -> nat), (i < length X)%nat ->
      (forall q t, nth_error ts q = Some t -> falls t (nth i X []) (depth q)) ->
      nth i ds 0 = average (length ts) (fun q => INR (1 + depth q)).
Proof. exact p_C96. Qed.
Print Assumptions C96_average_depth.

(** ... without rows there is nothing to average and scikit-learn refuses, ... *)
Theorem C96_no_data : forall ts : list (tree R), ts <> [] -> average_depth ts [] = Err ValueError.
Proof. intros [|t ts] H; [congruence|reflexivity]. Qed.
Print Assumptions C96_no_data.

(** ... there is exactly one such depth per tree, ... *)
Theorem C96_falls : forall (t : tree R) x, wf_tree t -> exists d, falls t x d /\ forall d', falls t x d' -> d' = d.
Proof.
  intros t x W. destruct (falls_ex t W x) as (d&H). exists d. split; auto. intros d' H'. eapply falls_unique; eauto.
Qed.
Print Assumptions C96_falls.

(** ... and both forests returned by smooth have the average depths of the given one, ... *)
Theorem C96_smooth : forall (lg : R -> R) kd ts (o : smooth_opts R) rd out, smooth lg (Forest kd ts) o rd = Ok out ->
  Forall (@wf_tree R) ts -> ts <> [] -> forall X,
  average_depth (s_forest out) X = average_depth ts X /\ average_depth (s_forest2 out) X = average_depth ts X.
Proof.
  intros lg kd ts o rd out H W NE X. destruct (C16_structure _ _ _ _ _ _ H W NE) as (L1&L2&F).
  split; (apply average_depth_same; auto; intros q t E; destruct (F q t E) as (t1&t2&E1&E2&S1&S2&_); eauto).
Qed.
Print Assumptions C96_smooth.

(** ... as have those of smooth_clean, depth_tune and smooth_all. *)
Theorem C96_other_smoothers : forall ts X, Forall (@wf_tree R) ts -> ts <> [] ->
  (forall (o : clean_opts R) oob draws f lamb c, smooth_clean (Forest Reg ts) o oob draws = Ok (f, lamb, c) -> average_depth f X = average_depth ts X) /\
  (forall kd (o : depth_opts R) rd f fl, depth_tune (Forest kd ts) o rd = Ok (f, fl) -> average_depth f X = average_depth ts X) /\
  (forall fuel feps solve in_null (o : all_opts R) oob boot D f lamb, deepest ts D -> (forall nc G a l, solve nc G a = Some l -> length l = length a) ->
     smooth_all fuel feps solve in_null o oob boot ts = Ok (f, lamb) -> average_depth f X = average_depth ts X).
Proof.
  intros ts X W NE. split; [|split].
  - intros o oob draws f lamb c H. destruct (C68_forest _ _ _ _ _ _ _ H W NE) as (L&F). apply average_depth_same; auto.
    intros q t E. destruct (F q t E) as (t'&E'&S'&_). eauto.
  - intros kd o rd f fl H. destruct (C39_leaf_values_only _ _ _ _ _ _ W H) as (L&F). apply average_depth_same; auto.
    intros q t E. destruct (F q t E) as (t'&E'&S'&_). eauto.
  - intros fuel feps solve in_null o oob boot D f lamb DP SO H. destruct (C56_values _ _ _ _ _ _ _ _ _ _ _ W DP SO H) as (_&L&F). apply average_depth_same; auto.
    intros q t E. destruct (F q t E) as (t'&E'&S'&_). eauto.
Qed.
Print Assumptions C96_other_smoothers.

Example C96_ex : average_depth [@ex5_reg Q _; ex3_reg] exX = Ok [2; 5#2; 5#2]%Q.
Proof. vm_compute. reflexivity. Qed.

(** ** C97: the simulation check_rf_grow *)

(** C97: whenever the simulation returns for element-based smoothing, entry (0, i, j) of score_mat is the test score of the forest fitted with depth i in draw j, entries (1, i, j) and (2, i, j) those of the two forests smooth returns for it, and c_mat[i,j,:] holds all max_iter + 1 costs of that call; *)
Theorem C97_element_based : forall (lg : R -> R) score level (w : grow_args R) cells Sm C,
  check_rf_grow lg score level w cells = Ok (Sm, C) -> w_style w = ElementBased ->
  d_0 Sm = 3%nat /\ d_1 Sm = length (w_depths w) /\ d_2 Sm = w_draws w /\
  exists Cm, C = Some Cm /\ d_0 Cm = length (w_depths w) /\ d_1 Cm = w_draws w /\ d_2 Cm = (w_max_iter w + 1)%nat /\
  forall i j dep, nth_error (w_depths w) i = Some dep -> (j < w_draws w)%nat ->
    exists train tune test o rd out, pass_data w (cells i j) train tune test /\ pass_call w (cells i j) train tune o rd /\
      let kd := grow_kind w (cells i j) in let ts := x_fit (cells i j) dep train in
      smooth lg (Forest kd ts) o rd = Ok out /\
      at3 Sm 0 i j = score kd ts test /\ at3 Sm 1 i j = score kd (s_forest out) test /\ at3 Sm 2 i j = score kd (s_forest2 out) test /\
      length (s_costs out) = (w_max_iter w + 1)%nat /\ forall k, (k <= w_max_iter w)%nat -> at3 Cm i j k = nth k (s_costs out) 0.
Proof. exact p_C97. Qed.
Print Assumptions C97_element_based.

(** ... it returns whenever all calls of smooth do (the costs always fit their row of c_mat); *)
Theorem C97_returns : forall (lg : R -> R) score level (w : grow_args R) cells,
  w_type w <> TOther -> w_style w = ElementBased -> w_data w <> OtherData -> w_batch w <> OtherBatch -> w_init w <> OtherInit ->
  (forall i j dep train tune test o rd, nth_error (w_depths w) i = Some dep -> (j < w_draws w)%nat ->
     pass_data w (cells i j) train tune test -> pass_call w (cells i j) train tune o rd ->
     exists out, smooth lg (Forest (grow_kind w (cells i j)) (x_fit (cells i j) dep train)) o rd = Ok out) ->
  exists Sm C, check_rf_grow lg score level w cells = Ok (Sm, C).
Proof. exact p_C97_returns. Qed.
Print Assumptions C97_returns.

(** ... for level-based smoothing the two slices hold the scores of the fitted and of the smoothed forest; *)
Theorem C97_level_base : forall (lg : R -> R) score level (w : grow_args R) cells Sm C,
  check_rf_grow lg score level w cells = Ok (Sm, C) -> w_style w = LevelBase ->
  C = None /\ d_0 Sm = 2%nat /\ d_1 Sm = length (w_depths w) /\ d_2 Sm = w_draws w /\
  forall i j dep, nth_error (w_depths w) i = Some dep -> (j < w_draws w)%nat ->
    exists train tune test resample nc f, pass_data w (cells i j) train tune test /\
      (resample = true <-> w_tuning w = TuneResample) /\ (nc = true <-> w_constrained w = false) /\
      let kd := grow_kind w (cells i j) in let ts := x_fit (cells i j) dep train in
      level train tune resample nc (w_parents w) ts = Ok f /\ at3 Sm 0 i j = score kd ts test /\ at3 Sm 1 i j = score kd f test.
Proof. exact p_C97_level. Qed.
Print Assumptions C97_level_base.

(** ... unknown strings are not reported as such (the NameErrors are never raised): they end in ValueError for the model type and in UnboundLocalError otherwise; *)
Theorem C97_unknown_options : forall (lg : R -> R) score level (w : grow_args R) cells,
  (w_type w = TOther -> check_rf_grow lg score level w cells = Err ValueError) /\
  (w_type w <> TOther -> w_depths w <> [] -> (0 < w_draws w)%nat ->
     w_data w = OtherData \/ w_style w = ElementBased /\ (w_batch w = OtherBatch \/ w_init w = OtherInit) ->
     check_rf_grow lg score level w cells = Err UnboundLocalError) /\
  forall Sm C, check_rf_grow lg score level w cells = Ok (Sm, C) -> w_style w <> OtherStyle.
Proof. exact p_C97_unknown. Qed.
Print Assumptions C97_unknown_options.

(** ... classification with "oracle" tuning fails, as labels are handed over where smooth wants one-hot rows; *)
Theorem C97_oracle_class_fails : forall (lg : R -> R) score level (w : grow_args R) cells,
  w_type w = TClass -> w_style w = ElementBased -> w_data w = Generated -> w_tuning w = TuneOracle ->
  w_depths w <> [] -> (0 < w_draws w)%nat ->
  (forall dep d, x_classes (cells 0%nat 0%nat) <> 1%nat /\ exists t, In t (x_fit (cells 0%nat 0%nat) dep d) /\ n_leaves t <> x_classes (cells 0%nat 0%nat)) ->
  exists e, check_rf_grow lg score level w cells = Err e.
Proof. exact p_C97_oracle. Qed.
Print Assumptions C97_oracle_class_fails.

(** ... and the option loss_class has no effect at all, ... *)
Theorem C97_loss_ignored : forall (lg : R -> R) score level (w : grow_args R) cells l,
  check_rf_grow lg score level {| w_type := w_type w; w_depths := w_depths w; w_draws := w_draws w; w_data := w_data w; w_tuning := w_tuning w;
    w_constrained := w_constrained w; w_style := w_style w; w_parents := w_parents w; w_batch := w_batch w; w_init := w_init w;
    w_max_iter := w_max_iter w; w_t := w_t w; w_loss := l |} cells = check_rf_grow lg score level w cells.
Proof. exact p_C97_loss. Qed.
Print Assumptions C97_loss_ignored.

(** Example: one forest of two trees, two depths, one draw, out-of-bag tuning, one step *)
Definition ex_cell {T} {NT : Num T} (ts : list (tree T)) (y : list T) : cell T :=
  {| x_gen := ([], []); x_gen_tune := ([], []); x_gen_test := ([], []); x_split := ((exX, y), (exX, y));
     x_fit := fun _ _ => ts; x_classes := 2; x_oob := fun _ => [0;1;2]%nat; x_boot := fun _ => [0;1;2]%nat;
     x_draws := fun k => k; x_lamb := fun _ => n1 |}.
Definition ex_grow {T} {NT : Num T} (ty : rf_type) (n : nat) (l : loss_choice) : grow_args T :=
  {| w_type := ty; w_depths := [2;4]%nat; w_draws := 1; w_data := SplitData; w_tuning := TuneOob; w_constrained := true; w_style := ElementBased;
     w_parents := true; w_batch := SingleTree; w_init := RfInit; w_max_iter := n; w_t := n1; w_loss := l |}.
Definition ex_score {T} {NT : Num T} (kd : kind) (ts : list (tree T)) (d : mat T * list T) : T :=
  match ts with t :: _ => nth 0 (nth 1 (t_value t) []) n0 | [] => n0 end.
Example C97_ex : exists Sm Cm, check_rf_grow (fun x => x) ex_score (fun _ _ _ _ _ ts => Ok ts) (ex_grow TReg 1 CE) (fun _ _ => ex_cell [ex5_reg; ex3_reg] [2;4;8]%Q) = Ok (Sm, Some Cm) /\
  at3 Sm 0 1 0 = 1%Q /\ negb (Qeq_bool (at3 Sm 2 1 0) 1) = true /\ d_2 Cm = 2%nat /\ negb (Qeq_bool (at3 Cm 1 0 1) (at3 Cm 1 0 0)) = true.
Proof. eexists. eexists. split; [vm_compute; reflexivity|]. vm_compute. auto. Qed.

(** ... although it matters: asked for "l2", the script stores the costs of "ce". *)
Theorem C97_loss_refuted : exists (w : grow_args Q) cells Sm Cm out o rd, w_loss w = L2 /\
  check_rf_grow (fun x => x) ex_score (fun _ _ _ _ _ ts => Ok ts) w cells = Ok (Sm, Some Cm) /\
  o_class_loss o = w_loss w /\
  smooth (fun x => x) (Forest (grow_kind w (cells 0%nat 0%nat)) (x_fit (cells 0%nat 0%nat) 2 ([], []))) o rd = Ok out /\
  o_X_trained o = Some (fst (fst (x_split (cells 0%nat 0%nat)))) /\ o_y_trained o = Some (snd (fst (x_split (cells 0%nat 0%nat)))) /\
  ~ (at3 Cm 0 0 0 == nth 0 (s_costs out) 0)%Q.
Proof.
  exists (ex_grow TClass 0 L2), (fun _ _ => ex_cell [ex5_class] [0;1;0]%Q).
  pose (o := grow_opts (ex_grow TClass 0 L2) (ex_cell [ex5_class] [0;1;0]%Q) (exX, [0;1;0]%Q) None false false).
  pose (o2 := {| o_X_trained := o_X_trained o; o_y_trained := o_y_trained o; o_X_tune := None; o_y_tune := None;
     o_no_constraint := o_no_constraint o; o_sanity := o_sanity o; o_resample := o_resample o; o_t_fix := o_t_fix o; o_all_trees := o_all_trees o;
     o_lamb_draws := o_lamb_draws o; o_style := o_style o; o_dist := o_dist o; o_class_eps := o_class_eps o; o_class_loss := L2; o_adam := o_adam o |}).
  eexists. eexists. eexists. exists o2, {| r_oob := fun _ => [0;1;2]%nat; r_boot := fun _ => [0;1;2]%nat; r_draws := [] |}.
  split; [reflexivity|]. split; [vm_compute; reflexivity|]. split; [reflexivity|]. split; [vm_compute; reflexivity|].
  split; [reflexivity|]. split; [reflexivity|]. vm_compute. discriminate.
Qed.
Print Assumptions C97_loss_refuted.

(** ** C98: the comparison script *)

(** C98: no simulation of main/1.2-compare_depth_vs_smooth.py ever gets past smoothing, ... *)
Theorem C98_never_finishes : forall (lg : R -> R) oob fit train rd range type, exists e, compare_sim lg oob fit train rd range type = Err e.
Proof. exact p_C98_never. Qed.
Print Assumptions C98_never_finishes.

(** ... with a known model type and fits that succeed it ends in the ValueError for the unknown distance_style "standard"; *)
Theorem C98_value_error : forall (lg : R -> R) oob fit train rd range type, type <> TOther ->
  (forall kd p, exists rf, fit kd p = Ok rf) -> compare_sim lg oob fit train rd range type = Err ValueError.
Proof. exact p_C98_error. Qed.
Print Assumptions C98_value_error.

(** ... moreover it fits the other kind of forest: regressors for "class", classifiers for "reg" (so that an error of that kind of fit ends it). *)
Theorem C98_other_kind : forall (lg : R -> R) oob fit train rd range type other e, type <> TOther ->
  (type = TReg /\ other = TClass \/ type = TClass /\ other = TReg) -> (forall p, fit other p = Err e) ->
  compare_sim lg oob fit train rd range type = Err e.
Proof. exact p_C98_kind. Qed.
Print Assumptions C98_other_kind.

Example C98_ex : compare_sim (fun x => x) (fun _ _ => n0) (fun _ _ => Ok (Forest Reg [@ex5_reg Q _])) (exX, [2;4;8]%Q) (ex_rand []) [1;2]%nat TClass = Err ValueError /\
  compare_sim (fun x => x) (fun _ _ => n0) (fun k _ => match k with TClass => Err TypeError | _ => Ok (Forest Reg [@ex5_reg Q _]) end) (exX, [2;4;8]%Q) (ex_rand []) [1;2]%nat TReg = Err TypeError.
Proof. split; vm_compute; reflexivity. Qed.
