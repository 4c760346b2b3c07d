(** Props_Smooth: property theorems about smooth as a whole. *)
From Verif Require Import Base TreeSpec Spec M_Tree M_Gamma M_Levels M_Prox M_Grad M_Sgd M_Smooth SpecSmooth.
From Verif Require Import L_Base L_Levels L_Smooth L_Smooth2 L_Smooth3 L_Smooth4.
From Coq Require Import Reals Lra QArith.
Local Open Scope R_scope.

(** ** Running examples *)

Ltac exnum := unfold leaf_w, node_w, leaf_v, node_v; cbn; rewrite ?INR_IPR; unfold IPR, IPR_2; cbn; lra.

Lemma ex_trees_ok : Forall (@wf_tree R) [ex5_reg; ex3_reg] /\ Forall (wf_values Reg) [@ex5_reg R _; ex3_reg] /\
  Forall pos_leaves [ex5_reg; ex3_reg].
Proof.
  split; [repeat constructor|]. split; repeat constructor.
  - intros v Hv. do 5 (destruct v as [|v]; [reflexivity|]). cbn in Hv. lia.
  - intros v Hv. do 3 (destruct v as [|v]; [reflexivity|]). cbn in Hv. lia.
  - intros j Hj. do 3 (destruct j as [|j]; [exnum|]). cbn in Hj. lia.
  - intros j Hj. do 2 (destruct j as [|j]; [exnum|]). cbn in Hj. lia.
Qed.
Lemma ex_class_ok : Forall (@wf_tree R) [ex5_class] /\ Forall pos_leaves [ex5_class] /\ Forall (class_counts 2) [ex5_class].
Proof.
  split; [repeat constructor|]. split; (constructor; [|constructor]).
  - intros j Hj. do 3 (destruct j as [|j]; [exnum|]). cbn in Hj. lia.
  - intros j Hj. do 3 (destruct j as [|j]; [split; [intros c Hc; do 2 (destruct c as [|c]; [exnum|]); lia|exnum]|]). cbn in Hj. lia.
Qed.
Lemma ex_data_reg : forall san d eps l ts rd, good_data Reg (ex_opts exYr san d eps l) rd ts.
Proof.
  intros. left. split; [reflexivity|]. exists exX, exYr. split; [reflexivity|]. split; [reflexivity|].
  split; [discriminate|]. split; [reflexivity|]. intros r [<-|[<-|[<-|[]]]]; reflexivity.
Qed.
Lemma ex_data_class : forall san d eps l ts rd, good_data (Class 2) (ex_opts exYc san d eps l) rd ts.
Proof.
  intros. left. split; [reflexivity|]. exists exX, exYc. split; [reflexivity|]. split; [reflexivity|].
  split; [discriminate|]. split; [reflexivity|]. intros r [<-|[<-|[<-|[]]]]; reflexivity.
Qed.

(** ** C65: when smooth returns *)

(** C65: with positive leaf weights, usable tuning data, starting weights that can be normalised and (for impurity distances) levels that can be formed, a constrained call of smooth returns, for regression and for classification with the l2 loss, for any step size, schedule and Adam setting. *)
Theorem C65_smooth_returns : forall (lg : R -> R) kd (ts : list (tree R)) (o : smooth_opts R) rd, (0 < n_gamma kd)%nat ->
  Forall (@wf_tree R) ts -> Forall pos_leaves ts -> ts <> [] ->
  good_data kd o rd ts -> draws_ok o -> (kd = Reg \/ 0 <= o_class_eps o) -> o_no_constraint o = false ->
  (kd = Reg \/ o_class_loss o = L2 \/ o_sanity o = true) -> matrices_exist o ts ->
  exists out, smooth lg (Forest kd ts) o rd = Ok out.
Proof. exact p_C65. Qed.
Print Assumptions C65_smooth_returns.

Example C65_ex_reg : forall lg san pa draws, exists out,
  smooth lg (Forest Reg [ex5_reg; ex3_reg]) (ex_opts exYr san (DDepth pa) 0 L2) (ex_rand draws) = Ok out.
Proof.
  intros. destruct ex_trees_ok as (A&_&B). apply C65_smooth_returns; auto; try discriminate; [apply ex_data_reg|exact I|exact I].
Qed.
Example C65_ex_class : forall lg san pa eps draws, 0 <= eps -> exists out,
  smooth lg (Forest (Class 2) [ex5_class]) (ex_opts exYc san (DDepth pa) eps L2) (ex_rand draws) = Ok out.
Proof.
  intros. destruct ex_class_ok as (A&B&_). apply C65_smooth_returns; auto; try discriminate; [cbn; lia|apply ex_data_class|exact I|exact I].
Qed.

(** ** C11, C12: sanity_check *)

(** C11: for regression, sanity_check with the default start returns the original trees exactly and no costs. *)
Theorem C11_sanity_identity : forall (lg : R -> R) ts (o : smooth_opts R) rd out, smooth lg (Forest Reg ts) o rd = Ok out ->
  Forall (@wf_tree R) ts -> Forall (wf_values Reg) ts -> Forall pos_leaves ts -> ts <> [] ->
  o_sanity o = true -> o_lamb_draws o = None -> separated o ts ->
  s_forest out = ts /\ s_costs out = [].
Proof. exact p_C11. Qed.
Print Assumptions C11_sanity_identity.

Example C11_ex : forall lg pa, exists out,
  smooth lg (Forest Reg [ex5_reg; ex3_reg]) (ex_opts exYr true (DDepth pa) 0 L2) (ex_rand [0;1]%nat) = Ok out /\
  s_forest out = [ex5_reg; ex3_reg].
Proof.
  intros. destruct (C65_ex_reg lg true pa [0;1]%nat) as (out&E). exists out. split; auto.
  destruct ex_trees_ok as (A&B&C). apply (C11_sanity_identity _ _ _ _ _ E); auto; try discriminate. exact I.
Qed.

(** ... for impurity distances [separated] cannot be dropped: two sibling leaves as impure as their parent are merged. *)
Definition ex5_flat : tree Q := ex5 (map (fun z => [exz z]) [4;1;7;5;9]%Z) (exrow [4;2;2;1;1]%Z) (exrow [10;0;4;4;4]%Z).
Theorem C11_impurity_ties_refuted : exists (ts : list (tree Q)) (o : smooth_opts Q) rd out,
  Forall (@wf_tree Q) ts /\ o_sanity o = true /\ o_lamb_draws o = None /\
  smooth (fun x => x) (Forest Reg ts) o rd = Ok out /\
  map (@t_value Q) ts = [[[4];[1];[7];[5];[9]]]%Q /\ map (@t_value Q) (s_forest out) = [[[4];[1];[7];[7];[7]]]%Q.
Proof.
  exists [ex5_flat], (ex_opts exYr true (DImp (LArr [0;5;20]%Q)) 0%Q L2), (ex_rand []).
  eexists. split; [repeat constructor|]. split; [reflexivity|]. split; [reflexivity|].
  split; [vm_compute; reflexivity|]. split; vm_compute; reflexivity.
Qed.
Print Assumptions C11_impurity_ties_refuted.

(** C12: for classification the starting weights are shifted by class_eps (here K is the number of distance columns) ... *)
Theorem C12_class_start : forall (lg : R -> R) nc ts (o : smooth_opts R) rd out, smooth lg (Forest (Class nc) ts) o rd = Ok out ->
  Forall (@wf_tree R) ts -> ts <> [] -> o_sanity o = true -> o_lamb_draws o = None -> 1 + o_class_eps o <> 0 ->
  exists K, (0 < K)%nat /\ length (s_lamb out) = K /\ s_lamb_last out = s_lamb out /\
  forall k, (k < K)%nat -> nth k (s_lamb out) 0 = ((if Nat.eqb k 0 then 1 else 0) + o_class_eps o / INR K) / (1 + o_class_eps o).
Proof. exact p_C12_start. Qed.
Print Assumptions C12_class_start.

(** ... so with class_eps > 0 every class found anywhere in the tree gets positive mass in every leaf: the result differs from the original proportions as soon as some leaf lacks a class ... *)
Theorem C12_class_not_identity : forall (lg : R -> R) nc ts (o : smooth_opts R) rd out, smooth lg (Forest (Class nc) ts) o rd = Ok out ->
  Forall (@wf_tree R) ts -> Forall pos_leaves ts -> Forall (class_counts nc) ts -> ts <> [] ->
  o_sanity o = true -> o_lamb_draws o = None -> 0 < o_class_eps o ->
  forall q t, nth_error ts q = Some t -> exists t', nth_error (s_forest out) q = Some t' /\
  forall i j c, (i < n_leaves t)%nat -> (j < n_leaves t)%nat -> (c < nc)%nat -> leaf_v t c i = 0 -> 0 < leaf_v t c j ->
    0 < leaf_v t' c i.
Proof. exact p_C12_pos. Qed.
Print Assumptions C12_class_not_identity.

(** ... and with class_eps = 0 the returned leaf values are the class proportions. *)
Theorem C12_class_eps_zero : forall (lg : R -> R) nc ts (o : smooth_opts R) rd out, smooth lg (Forest (Class nc) ts) o rd = Ok out ->
  Forall (@wf_tree R) ts -> Forall pos_leaves ts -> ts <> [] ->
  o_sanity o = true -> o_lamb_draws o = None -> o_class_eps o = 0 -> separated o ts ->
  forall q t, nth_error ts q = Some t -> exists t', nth_error (s_forest out) q = Some t' /\
  forall i c, (i < n_leaves t)%nat -> (c < nc)%nat -> leaf_v t' c i = leaf_v t c i / leaf_w t i.
Proof. exact p_C12_zero. Qed.
Print Assumptions C12_class_eps_zero.

Definition tvals {T} (r : result (smooth_out T)) : list (mat T) := match r with Ok o => map (@t_value T) (s_forest o) | Err _ => [] end.
Example C12_ex : tvals (smooth (fun x => x) (Forest (Class 2) [ex5_class]) (ex_opts exYc true (DDepth false) 1%Q L2) (ex_rand []))
    = [[[3;1];[9#10;1#10];[1;1];[3#7;4#7];[6#7;1#7]]]%Q /\
  tvals (smooth (fun x => x) (Forest (Class 2) [ex5_class]) (ex_opts exYc true (DDepth false) 0%Q L2) (ex_rand []))
    = [[[3;1];[1;0];[1;1];[0;1];[1;0]]]%Q.
Proof. split; vm_compute; reflexivity. Qed.
Example C12_ex_hyp : forall lg, exists out, smooth lg (Forest (Class 2) [ex5_class]) (ex_opts exYc true (DDepth false) (1/10) L2) (ex_rand []) = Ok out /\
  exists t', nth_error (s_forest out) 0 = Some t' /\ 0 < leaf_v t' 1 0.
Proof.
  intros. destruct (C65_ex_class lg true false (1/10) []) as (out&E); [lra|]. exists out. split; auto.
  destruct ex_class_ok as (A&B&C).
  destruct (C12_class_not_identity _ _ _ _ _ _ E A B C ltac:(discriminate) eq_refl eq_refl ltac:(cbn; lra) 0%nat ex5_class eq_refl) as (t'&N&V).
  exists t'. split; auto. apply (V 0%nat 1%nat 1%nat); try (cbn; lia); exnum.
Qed.

(** ** C13, C15: ranges *)

(** C13: every smoothed regression value lies between the tree's smallest and largest leaf value, unless the weights put no mass on the leaf at all (then it is 0). *)
Theorem C13_range : forall (lg : R -> R) ts (o : smooth_opts R) rd out,
  smooth lg (Forest Reg ts) o rd = Ok out -> Forall (@wf_tree R) ts -> Forall pos_leaves ts -> ts <> [] ->
  o_no_constraint o = false -> draws_nonneg o ->
  forall q t, nth_error ts q = Some t -> exists t', nth_error (s_forest out) q = Some t' /\
  forall i lo hi, (i < n_leaves t)%nat -> (forall j, (j < n_leaves t)%nat -> lo <= leaf_v t 0 j <= hi) ->
    lo <= leaf_v t' 0 i <= hi \/
    (leaf_v t' 0 i = 0 /\ exists kap, smooth_kernel o ts t (s_lamb out) i kap /\ forall j, (j < n_leaves t)%nat -> kap j = 0).
Proof. exact p_C13. Qed.
Print Assumptions C13_range.

(** ... the same for any non-negative weights, whatever produced them *)
Theorem C13_mean_range : forall (t : tree R) kap lo hi, pos_leaves t -> (forall j, (j < n_leaves t)%nat -> 0 <= kap j) ->
  (forall j, (j < n_leaves t)%nat -> lo <= leaf_v t 0 j <= hi) ->
  kmass t kap <> 0 -> lo <= kmean t Reg kap 0 <= hi.
Proof. exact kmean_range_nz. Qed.
Print Assumptions C13_mean_range.

Example C13_ex : forall lg draws, exists out,
  smooth lg (Forest Reg [ex5_reg; ex3_reg]) (ex_opts exYr false (DDepth false) 0 L2) (ex_rand draws) = Ok out /\
  exists t', nth_error (s_forest out) 0 = Some t' /\
  forall i, (i < 3)%nat -> 1 <= leaf_v t' 0 i <= 9 \/ leaf_v t' 0 i = 0.
Proof.
  intros. destruct (C65_ex_reg lg false false draws) as (out&E). exists out. split; auto.
  destruct ex_trees_ok as (A&_&B).
  destruct (C13_range _ _ _ _ _ E A B ltac:(discriminate) eq_refl I 0%nat ex5_reg eq_refl) as (t'&N&V).
  exists t'. split; auto. intros i Hi. destruct (V i 1 9 Hi) as [X|[X _]]; auto.
  intros j Hj. do 3 (destruct j as [|j]; [exnum|]). cbn in Hj. lia.
Qed.

(** C15: smoothed class values are in [0,1] and sum to 1, unless no mass reaches the leaf (then all are 0). *)
Theorem C15_class_distribution : forall (lg : R -> R) nc ts (o : smooth_opts R) rd out,
  smooth lg (Forest (Class nc) ts) o rd = Ok out -> Forall (@wf_tree R) ts -> Forall pos_leaves ts ->
  Forall (class_counts nc) ts -> ts <> [] -> draws_nonneg o -> 0 <= o_class_eps o ->
  forall q t, nth_error ts q = Some t -> exists t', nth_error (s_forest out) q = Some t' /\
  forall i, (i < n_leaves t)%nat ->
    (forall c, (c < nc)%nat -> 0 <= leaf_v t' c i <= 1) /\
    (sumto nc (fun c => leaf_v t' c i) = 1 \/
     ((forall c, (c < nc)%nat -> leaf_v t' c i = 0) /\
      exists kap, smooth_kernel o ts t (s_lamb out) i kap /\ forall j, (j < n_leaves t)%nat -> kap j = 0)).
Proof. exact p_C15. Qed.
Print Assumptions C15_class_distribution.

Example C15_ex : forall lg draws, exists out,
  smooth lg (Forest (Class 2) [ex5_class]) (ex_opts exYc false (DDepth true) (1/10) L2) (ex_rand draws) = Ok out /\
  exists t', nth_error (s_forest out) 0 = Some t' /\ forall i c, (i < 3)%nat -> (c < 2)%nat -> 0 <= leaf_v t' c i <= 1.
Proof.
  intros. destruct (C65_ex_class lg false true (1/10) draws) as (out&E); [lra|]. exists out. split; auto.
  destruct ex_class_ok as (A&B&C).
  destruct (C15_class_distribution _ _ _ _ _ _ E A B C ltac:(discriminate) I ltac:(cbn; lra) 0%nat ex5_class eq_refl) as (t'&N&V).
  exists t'. split; auto. intros i c Hi Hc. apply V; auto.
Qed.

(** ** C14: scale *)

(** C14: multiplying all weights by a non-zero factor changes neither the values computed from them ... *)
Theorem C14_values_scale : forall (Gamma eta : mat R) l r, r <> 0 ->
  new_values Gamma eta (map (Rmult r) l) = new_values Gamma eta l.
Proof. exact fills_scale. Qed.
Print Assumptions C14_values_scale.
(** ... nor the tuning cost. *)
Theorem C14_cost_scale : forall y (Gamma eta : mat R) w l r, r <> 0 -> length Gamma = length eta ->
  (forall i, (i < length eta)%nat -> dot (nth i eta []) l = 0 -> dot (nth i Gamma []) l = 0) ->
  calc_cost y Gamma eta w (map (Rmult r) l) = calc_cost y Gamma eta w l.
Proof. exact cost_scale. Qed.
Print Assumptions C14_cost_scale.
Example C14_ex : let G := [[1;2];[3;4]]%Q in let E := [[1;1];[2;2]]%Q in
  new_values G E [6;3]%Q = [4#3; 5#3]%Q /\ new_values G E [2;1]%Q = [4#3; 5#3]%Q /\
  calc_cost [1;1]%Q G E [1;1]%Q [6;3]%Q = calc_cost [1;1]%Q G E [1;1]%Q [2;1]%Q.
Proof. vm_compute. auto. Qed.

(** ** C16: structure *)

(** C16: both returned forests have the input's trees with nothing but leaf values changed, and keep one value per response column. *)
Theorem C16_structure : forall (lg : R -> R) kd ts (o : smooth_opts R) rd out, smooth lg (Forest kd ts) o rd = Ok out ->
  Forall (@wf_tree R) ts -> ts <> [] ->
  length (s_forest out) = length ts /\ length (s_forest2 out) = length ts /\
  forall q t, nth_error ts q = Some t ->
    exists t1 t2, nth_error (s_forest out) q = Some t1 /\ nth_error (s_forest2 out) q = Some t2 /\
      same_but_leaf_values t t1 /\ same_but_leaf_values t t2 /\
      (wf_values kd t -> wf_values kd t1 /\ wf_values kd t2).
Proof. exact p_C16. Qed.
Print Assumptions C16_structure.
Example C16_ex : forall lg draws, exists out t1 t2,
  smooth lg (Forest Reg [ex5_reg; ex3_reg]) (ex_opts exYr false (DDepth true) 0 L2) (ex_rand draws) = Ok out /\
  s_forest out = [t1; t2] /\ t_left t1 = [1;-1;3;-1;-1]%Z /\ node_v t1 0 2 = 7.
Proof.
  intros. destruct (C65_ex_reg lg false true draws) as (out&E).
  destruct (C16_structure _ _ _ _ _ _ E (proj1 ex_trees_ok) ltac:(discriminate)) as (L&_&V).
  destruct (V 0%nat ex5_reg eq_refl) as (a&_&N1&_&S1&_). destruct (s_forest out) as [|t1 [|t2 [|t3 l]]] eqn:EF; try discriminate.
  exists out, t1, t2. split; auto. split; auto. inversion N1; subst a. destruct S1 as (->&_&_&_&_&_&_&SV). split; auto.
  unfold node_v. rewrite SV by reflexivity. exnum.
Qed.

(** ** C19: determinism with all_trees *)

(** C19: with all_trees the random tree choices have no influence. *)
Theorem C19_all_trees : forall (lg : R -> R) rf (o : smooth_opts R) rd1 rd2, o_all_trees o = true ->
  (forall q, r_oob rd1 q = r_oob rd2 q) -> (forall q, r_boot rd1 q = r_boot rd2 q) -> length (r_draws rd1) = length (r_draws rd2) ->
  smooth lg rf o rd1 = smooth lg rf o rd2.
Proof. exact p_C19. Qed.
Print Assumptions C19_all_trees.
Definition set_all {T} (o : smooth_opts T) (a : bool) : smooth_opts T :=
  {| o_X_trained := o_X_trained o; o_y_trained := o_y_trained o; o_X_tune := o_X_tune o; o_y_tune := o_y_tune o;
     o_no_constraint := o_no_constraint o; o_sanity := o_sanity o; o_resample := o_resample o; o_t_fix := o_t_fix o; o_all_trees := a;
     o_lamb_draws := o_lamb_draws o; o_style := o_style o; o_dist := o_dist o; o_class_eps := o_class_eps o; o_class_loss := o_class_loss o; o_adam := o_adam o |}.
Definition out_costs {T} (r : result (smooth_out T)) : list T := match r with Ok o => s_costs o | Err _ => [] end.
(** the schedule does matter without all_trees *)
Example C19_ex : let run a d := out_costs (smooth (fun x => x) (Forest Reg [ex5_reg; ex3_reg]) (set_all (ex_opts exYr false (DDepth false) 0%Q L2) a) (ex_rand d)) in
  run true [0]%nat = run true [1]%nat /\ run true [0]%nat <> [] /\ run false [0]%nat <> run false [1]%nat.
Proof. vm_compute. split; [reflexivity|]. split; discriminate. Qed.

(** ** C22, C30, C31: failures *)

(** C22: smooth on a classifier with the default cross-entropy loss never returns a forest ... *)
Theorem C22_smooth_ce_never_returns : forall (lg : R -> R) nc ts (o : smooth_opts R) rd,
  o_class_loss o = CE -> o_sanity o = false -> r_draws rd <> [] ->
  exists e, smooth lg (Forest (Class nc) ts) o rd = Err e.
Proof. exact p_C22. Qed.
Print Assumptions C22_smooth_ce_never_returns.
(** ... and on well-formed input the failure is the AssertionError of prox_project_ce. *)
Theorem C22_smooth_ce_assertion : forall (lg : R -> R) nc ts (o : smooth_opts R) rd,
  o_class_loss o = CE -> o_sanity o = false -> r_draws rd <> [] -> (0 < nc)%nat ->
  Forall (@wf_tree R) ts -> ts <> [] -> o_no_constraint o = false -> good_data (Class nc) o rd ts -> matrices_exist o ts ->
  smooth lg (Forest (Class nc) ts) o rd = Err AssertionError.
Proof. exact p_C22_data. Qed.
Print Assumptions C22_smooth_ce_assertion.
Example C22_ex : forall lg, smooth lg (Forest (Class 2) [ex5_class]) (ex_opts exYc false (DDepth false) (1/10) CE) (ex_rand [0]%nat) = Err AssertionError.
Proof.
  intros. apply C22_smooth_ce_assertion; try reflexivity; try discriminate; first [lia|apply ex_class_ok|apply ex_data_class|exact I].
Qed.

(** C30: argument errors of smooth, before anything else happens. *)
Theorem C30_smooth_argument_errors : forall (lg : R -> R) (o : smooth_opts R) rd,
  (smooth lg OtherObject o rd = Err ValueError) /\
  (forall kd ts, (o_resample o = true \/ o_X_tune o = None \/ o_y_tune o = None) ->
     (o_X_trained o = None \/ o_y_trained o = None) -> smooth lg (Forest kd ts) o rd = Err TypeError) /\
  (forall nc ts, ~ ((o_resample o = true \/ o_X_tune o = None \/ o_y_tune o = None) /\ (o_X_trained o = None \/ o_y_trained o = None)) ->
     o_no_constraint o = true -> smooth lg (Forest (Class nc) ts) o rd = Err ValueError).
Proof. exact p_C30. Qed.
Print Assumptions C30_smooth_argument_errors.
Example C30_ex : smooth (fun x => x) (Forest Reg [@ex5_reg Q _])
    {| o_X_trained := None; o_y_trained := None; o_X_tune := None; o_y_tune := Some exYr;
       o_no_constraint := false; o_sanity := true; o_resample := false; o_t_fix := n1; o_all_trees := false;
       o_lamb_draws := None; o_style := Standard; o_dist := DDepth false; o_class_eps := n1; o_class_loss := L2; o_adam := None |}
    (ex_rand [0]%nat) = Err TypeError.
Proof. reflexivity. Qed.

(** C31: if some class does not occur in one tree's out-of-bag (or bootstrap) sample, smooth raises. *)
Theorem C31_missing_class : forall (lg : R -> R) nc ts (o : smooth_opts R) rd q X y classes a,
  (q < length ts)%nat -> o_X_trained o = Some X -> o_y_trained o = Some y ->
  (o_resample o = true \/ o_X_tune o = None \/ o_y_tune o = None) ->
  NoDup classes -> length classes = nc -> (forall v, In v y -> In v classes) -> In a classes ->
  (forall i, In i (if o_resample o then r_boot rd q else r_oob rd q) -> nth_error y i <> Some a) ->
  exists e, smooth lg (Forest (Class nc) ts) o rd = Err e.
Proof. exact p_C31. Qed.
Print Assumptions C31_missing_class.
(** classes 0 and 1; the sample {0,2} has only class 0, the sample {0,1} both *)
Definition ex_oob_opts {T} {NT : Num T} : smooth_opts T :=
  {| o_X_trained := Some exX; o_y_trained := Some (exrow [0;1;0]%Z); o_X_tune := None; o_y_tune := None;
     o_no_constraint := false; o_sanity := false; o_resample := false; o_t_fix := n1; o_all_trees := false;
     o_lamb_draws := None; o_style := Standard; o_dist := DDepth false; o_class_eps := n1; o_class_loss := L2; o_adam := None |}.
Example C31_ex : (exists e, smooth (fun x => x) (Forest (Class 2) [@ex5_class Q _]) ex_oob_opts {| r_oob := fun _ => [0;2]%nat; r_boot := fun _ => []; r_draws := [0]%nat |} = Err e) /\
  (exists out, smooth (fun x => x) (Forest (Class 2) [@ex5_class Q _]) ex_oob_opts {| r_oob := fun _ => [0;1]%nat; r_boot := fun _ => []; r_draws := [0]%nat |} = Ok out).
Proof. split; eexists; vm_compute; reflexivity. Qed.

(** ** C28: alignment *)

(** C28: row c*L+r of the flattened problem is class c of row r everywhere ... *)
Theorem C28_flatten : forall kd (o : smooth_opts R) G E Ti Y W r c, length G = n_gamma kd -> length Y = length E -> length W = length E ->
  length Ti = length E -> (forall g, In g G -> length g = length E) -> (r < length E)%nat -> (c < n_gamma kd)%nat ->
  let P := flatten kd o G E Ti Y W in let row := (c * length E + r)%nat in
  (row < length (p_Gamma P))%nat /\
  nth row (p_Gamma P) [] = nth r (nth c G []) [] /\ nth row (p_eta P) [] = nth r E [] /\
  nth row (p_y P) 0 = nth c (nth r Y []) 0 /\ nth row (p_w P) 0 = nth r W 0 /\
  nth row (p_tidx P) 0%nat = (if o_all_trees o then 0%nat else nth r Ti 0%nat) /\
  length (p_Gamma P) = (n_gamma kd * length E)%nat /\ length (p_eta P) = (n_gamma kd * length E)%nat /\
  length (p_y P) = (n_gamma kd * length E)%nat /\ length (p_w P) = (n_gamma kd * length E)%nat /\
  length (p_tidx P) = (n_gamma kd * length E)%nat.
Proof. exact p_C28. Qed.
Print Assumptions C28_flatten.
(** ... and reading the results back returns entry c*L+r to row r, class c. *)
Theorem C28_unflatten : forall nc rows (f : list R) r c, (r < rows)%nat -> (c < nc)%nat ->
  length (unflatten nc rows f) = rows /\ length (nth r (unflatten nc rows f) []) = nc /\
  nth c (nth r (unflatten nc rows f) []) 0 = nth (c * rows + r) f 0.
Proof. exact p_C28_unflatten. Qed.
Print Assumptions C28_unflatten.
Example C28_ex : let P := flatten (Class 2) (@ex_oob_opts Q _) [[[1];[2];[3]];[[4];[5];[6]]]%Q [[7];[8];[9]]%Q [0;0;1]%nat [[10;11];[12;13];[14;15]]%Q [1;2;3]%Q in
  p_Gamma P = [[1];[2];[3];[4];[5];[6]]%Q /\ p_y P = [10;12;14;11;13;15]%Q /\ p_w P = [1;2;3;1;2;3]%Q /\ p_tidx P = [0;0;1;0;0;1]%nat /\
  unflatten 2 3 [10;12;14;11;13;15]%Q = [[10;11];[12;13];[14;15]]%Q.
Proof. vm_compute. auto 10. Qed.

(** ** C29: the second forest *)

(** C29: leaf number i of every tree of the second forest gets the smoothed value of global row i, i.e. of leaf i0 of the tree q0 with offset q0 + i0 = i. *)
Theorem C29_second_forest : forall (lg : R -> R) kd ts (o : smooth_opts R) rd out, smooth lg (Forest kd ts) o rd = Ok out ->
  Forall (@wf_tree R) ts -> ts <> [] ->
  s_lamb2 out = s_lamb_last out /\
  forall q t, nth_error ts q = Some t -> exists t', nth_error (s_forest2 out) q = Some t' /\
    forall i, (i < n_leaves t)%nat ->
      exists q0 t0 i0 kap, nth_error ts q0 = Some t0 /\ (i0 < n_leaves t0)%nat /\ i = (offset ts q0 + i0)%nat /\
       smooth_kernel o ts t0 (s_lamb_last out) i0 kap /\
       forall c, (c < n_gamma kd)%nat -> leaf_v t' c i = kmean t0 kd kap c.
Proof. exact p_C29. Qed.
Print Assumptions C29_second_forest.
(** For one tree this is the documented result ... *)
Theorem C29_single_tree : forall (lg : R -> R) kd t (o : smooth_opts R) rd out, smooth lg (Forest kd [t]) o rd = Ok out -> wf_tree t ->
  exists t', s_forest2 out = [t'] /\ same_but_leaf_values t t' /\
    forall i, (i < n_leaves t)%nat -> exists kap, smooth_kernel o [t] t (s_lamb_last out) i kap /\
      forall c, (c < n_gamma kd)%nat -> leaf_v t' c i = kmean t kd kap c.
Proof. exact p_C29_single. Qed.
Print Assumptions C29_single_tree.
(** ... for two trees it is not: with equal best and final weights the two forests differ, the second tree having received the first tree's values. *)
Theorem C29_two_trees_refuted : exists (ts : list (tree Q)) (o : smooth_opts Q) rd out,
  Forall (@wf_tree Q) ts /\ smooth (fun x => x) (Forest Reg ts) o rd = Ok out /\ s_lamb out = s_lamb_last out /\
  map (@t_value Q) (s_forest out) = [[[4];[1];[7];[5];[9]]; [[25];[20];[30]]]%Q /\
  map (@t_value Q) (s_forest2 out) = [[[4];[1];[7];[5];[9]]; [[25];[1];[5]]]%Q.
Proof.
  exists [ex5_reg; ex3_reg], (ex_opts exYr true (DDepth false) 0%Q L2), (ex_rand []).
  eexists. split; [repeat constructor|]. split; [vm_compute; reflexivity|]. vm_compute. auto.
Qed.
Print Assumptions C29_two_trees_refuted.

(** ** C64: impurity levels *)

(** C64: level numbers lie between 0 and the number of intervals minus 1 and are monotone in the impurity distance (so equal distances get equal levels) ... *)
Theorem C64_levels_monotone : forall s lv (t : tree R) D e, wf_tree t -> impurity_levels s lv t = Ok (D, e) ->
  exists Dm m, impurity_dist_leaves s t = Ok (Dm, m) /\ length D = n_leaves t /\
  (forall i, (i < n_leaves t)%nat -> length (nth i D []) = n_leaves t) /\
  (forall i j, (i < n_leaves t)%nat -> (j < n_leaves t)%nat -> (0 <= nth j (nth i D []) 0 <= Z.of_nat e - 2)%Z) /\
  (forall i j i' j', (i < n_leaves t)%nat -> (j < n_leaves t)%nat -> (i' < n_leaves t)%nat -> (j' < n_leaves t)%nat ->
     nth j (nth i Dm []) 0 <= nth j' (nth i' Dm []) 0 -> (nth j (nth i D []) 0 <= nth j' (nth i' D []) 0)%Z).
Proof. exact p_C64. Qed.
Print Assumptions C64_levels_monotone.
(** ... and when the boundaries are not negative, level 0 is exactly distance 0 or less, so each leaf is at level 0 from itself. *)
Theorem C64_level_zero : forall s (l : list R) (t : tree R) D e Dm m, wf_tree t -> impurity_levels s (LArr l) t = Ok (D, e) ->
  impurity_dist_leaves s t = Ok (Dm, m) -> (forall x, In x l -> 0 <= x) ->
  (forall i j, (i < n_leaves t)%nat -> (j < n_leaves t)%nat -> (nth j (nth i D []) 0%Z = 0%Z <-> nth j (nth i Dm []) 0 <= 0)) /\
  (forall i, (i < n_leaves t)%nat -> nth i (nth i D []) 0%Z = 0%Z).
Proof. exact p_C64_zero. Qed.
Print Assumptions C64_level_zero.
Example C64_ex : impurity_dist_leaves Standard (@ex5_reg Q _) = Ok ([[0;10;10];[10;0;4];[10;4;0]]%Q, 10%Q) /\
  impurity_levels Standard (LArr [0;5;20]%Q) (@ex5_reg Q _) = Ok ([[0;2;2];[2;0;1];[2;1;0]]%Z, 4%nat).
Proof. vm_compute. auto. Qed.
(** With negative boundaries only, level 0 stays empty and all distances, 0 included, share level 1. *)
Theorem C64_negative_boundaries_refuted : exists (l : list Q) (t : tree Q), wf_tree t /\
  impurity_levels Standard (LArr l) t = Ok ([[1;1;1];[1;1;1];[1;1;1]]%Z, 3%nat).
Proof. exists [-(5);-(1)]%Q, ex5_reg. split; [reflexivity|]. vm_compute. reflexivity. Qed.
Print Assumptions C64_negative_boundaries_refuted.
