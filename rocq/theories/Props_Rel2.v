(** Props_Rel2: descents without Adam. *)
From Verif Require Import Base TreeSpec Spec M_Tree M_Gamma M_Levels M_Prox M_Grad M_Sgd M_Smooth SpecSmooth SpecRel.
From Verif Require Import L_Base L_Rel4 Props_Smooth Props_Rel.
From Coq Require Import Reals Lra QArith.
Local Open Scope R_scope.

(** ** C84: plain descent never loses all its weights *)

(** C84: the gradient of the squared error is orthogonal to the weights at which it is taken (predictions do not change when all weights are multiplied by one number), even where eta lambda = 0 was replaced by 1 ... *)
Theorem C84_gradient_orthogonal : forall (P : problem R) l g, rows_len (length l) P -> take_gradient (p_y P) (p_Gamma P) (p_eta P) (p_w P) l = Ok g -> dot l g = 0.
Proof. exact grad_orth. Qed.
Print Assumptions C84_gradient_orthogonal.

(** ... so with the constraint and without Adam neither the best nor the last weights are all zero, whatever the step size and the draws ... *)
Theorem C84_descent_keeps_weights : forall (P : problem R) init t draws best lst costs, rows_len (length init) P ->
  stocastic_grad_descent P init t true None draws = Ok (best, lst, costs) -> 0 < nsum best /\ 0 < nsum lst.
Proof. exact sgd_pos. Qed.
Print Assumptions C84_descent_keeps_weights.

(** ... and without the constraint the length of the weight vector never shrinks. *)
Theorem C84_descent_norm : forall (P : problem R) init t draws best lst costs, rows_len (length init) P ->
  stocastic_grad_descent P init t false None draws = Ok (best, lst, costs) -> dot init init <= dot lst lst.
Proof. exact sgd_norm. Qed.
Print Assumptions C84_descent_norm.

(** The same for smooth: weights are never all zero ... *)
Theorem C84_smooth_keeps_weights : forall lg kd ts (o : smooth_opts R) rd out,
  smooth lg (Forest kd ts) o rd = Ok out -> Forall (@wf_tree R) ts -> Forall pos_leaves ts -> ts <> [] -> plain_l2 kd o ->
  o_no_constraint o = false -> 0 < nsum (s_lamb out) /\ 0 < nsum (s_lamb_last out).
Proof. exact p_C84_weights. Qed.
Print Assumptions C84_smooth_keeps_weights.

(** ... without the constraint the last weights are at least as long as the default start ... *)
Theorem C84_smooth_norm : forall lg ts (o : smooth_opts R) rd out,
  smooth lg (Forest Reg ts) o rd = Ok out -> Forall (@wf_tree R) ts -> Forall pos_leaves ts -> ts <> [] -> plain_l2 Reg o ->
  o_no_constraint o = true -> o_lamb_draws o = None -> 1 <= dot (s_lamb_last out) (s_lamb_last out).
Proof. exact p_C84_norm. Qed.
Print Assumptions C84_smooth_norm.

(** ... and with parents_all, where the own leaf counts at every distance, no leaf loses its mass: C13 holds without its exception ... *)
Theorem C84_range : forall lg ts (o : smooth_opts R) rd out,
  smooth lg (Forest Reg ts) o rd = Ok out -> Forall (@wf_tree R) ts -> Forall pos_leaves ts -> ts <> [] -> plain_l2 Reg o ->
  o_no_constraint o = false -> draws_nonneg o -> o_dist o = DDepth true ->
  forall q t, nth_error ts q = Some t -> exists t', nth_error (s_forest out) q = Some t' /\
  forall i lo hi, (i < n_leaves t)%nat -> (forall j, (j < n_leaves t)%nat -> lo <= leaf_v t 0 j <= hi) -> lo <= leaf_v t' 0 i <= hi.
Proof. exact p_C84_range. Qed.
Print Assumptions C84_range.

(** ... and so does C15. *)
Theorem C84_class_distribution : forall lg nc ts (o : smooth_opts R) rd out,
  smooth lg (Forest (Class nc) ts) o rd = Ok out -> Forall (@wf_tree R) ts -> Forall pos_leaves ts ->
  Forall (class_counts nc) ts -> ts <> [] -> plain_l2 (Class nc) o -> draws_nonneg o -> 0 <= o_class_eps o -> o_dist o = DDepth true ->
  forall q t, nth_error ts q = Some t -> exists t', nth_error (s_forest out) q = Some t' /\
  forall i, (i < n_leaves t)%nat -> (forall c, (c < nc)%nat -> 0 <= leaf_v t' c i <= 1) /\ sumto nc (fun c => leaf_v t' c i) = 1.
Proof. exact p_C84_class. Qed.
Print Assumptions C84_class_distribution.

(** Without parents_all (the default) a single plain step can move the whole weight away from distance 0, and a leaf with no leaf at the remaining distances is given the value 0, here in the forest with the smallest cost: leaf values 1, 5, 9, responses 5, 2, 2. *)
Definition ex_tune {T} {NT : Num T} (Y : mat T) (d : dist_choice T) (t : T) (ad : option (adam_par T)) : smooth_opts T :=
  {| o_X_trained := None; o_y_trained := None; o_X_tune := Some exX; o_y_tune := Some Y;
     o_no_constraint := false; o_sanity := false; o_resample := false; o_t_fix := t; o_all_trees := false;
     o_lamb_draws := None; o_style := Standard; o_dist := d; o_class_eps := n0; o_class_loss := L2; o_adam := ad |}.
Theorem C84_children_only_refuted : exists (ts : list (tree Q)) (o : smooth_opts Q) rd out,
  Forall (@wf_tree Q) ts /\ o_dist o = DDepth false /\ o_adam o = None /\ o_no_constraint o = false /\ o_sanity o = false /\
  smooth (fun x => x) (Forest Reg ts) o rd = Ok out /\ s_lamb out = [0; 0; 116#15]%Q /\ s_costs out = [74; 27]%Q /\
  map (fun t => leaf_select t (t_value t)) ts = [[[1]; [5]; [9]]]%Q /\
  map (fun t => leaf_select t (t_value t)) (s_forest out) = [[[0]; [1]; [1]]]%Q.
Proof.
  exists [ex5_reg], (ex_tune [[5#1];[2#1];[2#1]]%Q (DDepth false) (1#20)%Q None), (ex_rand [0]%nat). eexists.
  split; [repeat constructor|]. do 4 (split; [reflexivity|]). split; [vm_compute; reflexivity|].
  repeat split; vm_compute; reflexivity.
Qed.
Print Assumptions C84_children_only_refuted.

Lemma ex_plain : forall kd Y pa t, plain_l2 kd (ex_tune Y (DDepth pa) t None).
Proof. intros. split; [reflexivity|]. split; [reflexivity|right; reflexivity]. Qed.
Example C84_ex : forall lg t out draws, smooth lg (Forest Reg [ex5_reg; ex3_reg]) (ex_tune exYr (DDepth true) t None) (ex_rand draws) = Ok out ->
  exists t', nth_error (s_forest out) 0 = Some t' /\ forall i, (i < 3)%nat -> 1 <= leaf_v t' 0 i <= 9.
Proof.
  intros lg t out draws H. destruct ex_trees_ok as (A&_&B).
  destruct (C84_range lg _ _ _ _ H A B ltac:(discriminate) (ex_plain Reg exYr true t) eq_refl Logic.I eq_refl 0%nat ex5_reg eq_refl) as (t'&N&V).
  exists t'. split; auto. intros i Hi. apply V; auto. intros j Hj. do 3 (destruct j as [|j]; [exnum|]). cbn in Hj. lia.
Qed.
Example C84_ex_class : forall lg t out draws, smooth lg (Forest (Class 2) [ex5_class]) (ex_tune exYc (DDepth true) t None) (ex_rand draws) = Ok out ->
  exists t', nth_error (s_forest out) 0 = Some t' /\ forall i, (i < 3)%nat -> leaf_v t' 0 i + leaf_v t' 1 i = 1.
Proof.
  intros lg t out draws H. destruct ex_class_ok as (A&B&C).
  destruct (C84_class_distribution lg _ _ _ _ _ H A B C ltac:(discriminate) (ex_plain _ exYc true t) Logic.I ltac:(cbn; lra) eq_refl 0%nat ex5_class eq_refl) as (t'&N&V).
  exists t'. split; auto. intros i Hi. destruct (V i Hi) as [_ X]. cbn in X. lra.
Qed.
Example C84_ex_runs : exists out, smooth (fun x => x) (Forest Reg [ex5_reg]) (ex_tune exYr (DDepth true) (1#1)%Q None) (ex_rand [0]%nat) = Ok out /\
  s_lamb_last out = [0; 0; 36]%Q /\ s_costs out = [3; 20]%Q.
Proof. eexists. split; [vm_compute; reflexivity|]. split; vm_compute; reflexivity. Qed.
(** a gradient with a row without mass (eta lambda = 0), and one step of each descent *)
Definition ex_prob : problem Q :=
  {| p_y := [3#1; 1#1; 2#1]%Q; p_w := [1#1; 2#1; 1#1]%Q; p_Gamma := [[1#1; 4#1]; [2#1; 3#1]; [5#1; -5#1]]%Q;
     p_eta := [[1#1; 1#1]; [1#1; 2#1]; [1#1; -1#1]]%Q; p_tidx := [0; 0; 0]%nat |}.
Example C84_ex_gradient : exists g, take_gradient (p_y ex_prob) (p_Gamma ex_prob) (p_eta ex_prob) (p_w ex_prob) [1#2; 1#2]%Q = Ok g /\
  g <> [0; 0]%Q /\ dot [1#2; 1#2]%Q g = 0%Q /\ mv (p_eta ex_prob) [1#2; 1#2]%Q = [1; 3#2; 0]%Q.
Proof. eexists. split; [vm_compute; reflexivity|]. split; [vm_compute; discriminate|]. split; vm_compute; reflexivity. Qed.
Example C84_ex_descent : exists best lst costs, stocastic_grad_descent ex_prob [1#2; 1#2]%Q (1#1)%Q true None [0]%nat = Ok (best, lst, costs) /\
  lst = [1; 0]%Q.
Proof. eexists. eexists. eexists. split; vm_compute; reflexivity. Qed.
Example C84_ex_norm : exists best lst costs, stocastic_grad_descent ex_prob [1#2; 1#2]%Q (1#1)%Q false None [0]%nat = Ok (best, lst, costs) /\
  Qle_bool (1#2) (dot lst lst) = true.
Proof. eexists. eexists. eexists. split; vm_compute; reflexivity. Qed.
