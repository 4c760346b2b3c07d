(** Props_Rel3: units of the sample weights, origin of the response. *)
From Verif Require Import Base TreeSpec Spec M_Tree M_Gamma M_Levels M_Prox M_Grad M_Sgd M_Smooth SpecSmooth SpecRel.
From Verif Require Import L_Base L_Rel5 L_Rel6 Props_Smooth Props_Rel Props_Rel2.
From Coq Require Import Reals Lra QArith.
Local Open Scope R_scope.

(** ** C88: units of the sample weights *)

(** C88: multiplying the sample weights of a tree (and the class counts of a classification tree) by any number other than 0, possibly a different one for each tree, changes neither weights nor costs nor smoothed leaf values, as long as no leaf loses its mass during the descent ... *)
Theorem C88_weight_units : forall lg kd ts ts' (o : smooth_opts R) rd,
  Forall2 (fun t t' => exists s : R, s <> 0 /\ t' = reweighted kd s t) ts ts' ->
  Forall (@wf_tree R) ts -> ts <> [] -> keeps_mass lg kd ts o rd ->
  rrel (moved_out (fun v => v)) (smooth lg (Forest kd ts) o rd) (smooth lg (Forest kd ts') o rd).
Proof. exact p_C88. Qed.
Print Assumptions C88_weight_units.

(** ... which never happens with positive leaf weights, parents_all, the constraint and no Adam, for the squared error ... *)
Theorem C88_mass_kept : forall lg kd ts (o : smooth_opts R) rd, Forall (@wf_tree R) ts -> Forall pos_leaves ts -> ts <> [] -> plain_l2 kd o ->
  o_no_constraint o = false -> draws_nonneg o -> (kd = Reg \/ 0 <= o_class_eps o) -> o_dist o = DDepth true -> keeps_mass lg kd ts o rd.
Proof. exact keeps_plain. Qed.
Print Assumptions C88_mass_kept.

(** ... but does happen without parents_all: after the first step below a leaf has no mass, its eta lambda is replaced by 1, and the second step depends on the units (weights times 2: another forest). *)
Theorem C88_children_only_refuted : exists (s : Q) (ts : list (tree Q)) (o : smooth_opts Q) rd out out',
  Qlt 0 s /\ Forall (@wf_tree Q) ts /\ o_dist o = DDepth false /\ o_adam o = None /\ o_no_constraint o = false /\
  smooth (fun x => x) (Forest Reg ts) o rd = Ok out /\ smooth (fun x => x) (Forest Reg (map (reweighted Reg s) ts)) o rd = Ok out' /\
  s_costs out = [74; 27; 180032270#40462321]%Q /\ s_costs out' = [74; 27; 62]%Q /\
  map (fun t => leaf_select t (t_value t)) (s_forest out) = [[[7]; [11153#6361]; [8757#6361]]]%Q /\
  map (fun t => leaf_select t (t_value t)) (s_forest out') = [[[0]; [1]; [1]]]%Q.
Proof.
  exists (2#1)%Q, [ex5_reg], (ex_tune [[5#1];[2#1];[2#1]]%Q (DDepth false) (1#20)%Q None), (ex_rand [0;0]%nat). eexists. eexists.
  split; [reflexivity|]. split; [repeat constructor|]. do 3 (split; [reflexivity|]).
  split; [vm_compute; reflexivity|]. split; [vm_compute; reflexivity|]. repeat split; vm_compute; reflexivity.
Qed.
Print Assumptions C88_children_only_refuted.

Example C88_ex : forall lg t draws out, smooth lg (Forest Reg [ex5_reg; ex3_reg]) (ex_tune exYr (DDepth true) t None) (ex_rand draws) = Ok out ->
  exists out', smooth lg (Forest Reg [reweighted Reg 3 ex5_reg; reweighted Reg (1/2) ex3_reg]) (ex_tune exYr (DDepth true) t None) (ex_rand draws) = Ok out' /\
  s_lamb out' = s_lamb out /\ s_costs out' = s_costs out.
Proof.
  intros lg t draws out H. destruct ex_trees_ok as (A&_&B).
  assert (KM : keeps_mass lg Reg [ex5_reg; ex3_reg] (ex_tune exYr (DDepth true) t None) (ex_rand draws)).
  { apply C88_mass_kept; auto; try discriminate; [apply ex_plain|exact Logic.I]. }
  pose proof (C88_weight_units lg Reg [ex5_reg; ex3_reg] [reweighted Reg 3 ex5_reg; reweighted Reg (1/2) ex3_reg] (ex_tune exYr (DDepth true) t None) (ex_rand draws)) as X.
  rewrite H in X. destruct (smooth lg (Forest Reg [reweighted Reg 3 ex5_reg; reweighted Reg (1/2) ex3_reg]) _ _) as [out'|e].
  - exists out'. split; auto. destruct X as (_&L&_&_&_&C); auto; try discriminate.
    repeat constructor; eexists; (split; [|reflexivity]); lra.
  - exfalso. apply X; auto; try discriminate. repeat constructor; eexists; (split; [|reflexivity]); lra.
Qed.

(** ** C89: origin of the response *)

(** C89: adding b to all node values and all responses of a regression adds b to the smoothed leaf values and changes nothing else, for every distance, as long as no leaf loses its mass during the descent ... *)
Theorem C89_origin : forall lg (b : R) ts (o : smooth_opts R) rd, Forall (@wf_tree R) ts -> Forall (wf_values Reg) ts -> ts <> [] -> keeps_mass lg Reg ts o rd ->
  rrel (moved_out (Rplus b)) (smooth lg (Forest Reg ts) o rd) (smooth lg (Forest Reg (map (shifted b) ts)) (shifted_opts b o) rd).
Proof. exact p_C89. Qed.
Print Assumptions C89_origin.

(** ... so always with positive leaf weights, parents_all, the constraint and no Adam ... *)
Theorem C89_parents_all : forall lg (b : R) ts (o : smooth_opts R) rd, Forall (@wf_tree R) ts -> Forall (wf_values Reg) ts -> Forall pos_leaves ts -> ts <> [] ->
  plain_l2 Reg o -> o_no_constraint o = false -> draws_nonneg o -> o_dist o = DDepth true ->
  rrel (moved_out (Rplus b)) (smooth lg (Forest Reg ts) o rd) (smooth lg (Forest Reg (map (shifted b) ts)) (shifted_opts b o) rd).
Proof. intros. apply p_C89; auto. apply keeps_plain; auto. Qed.
Print Assumptions C89_parents_all.

(** ... but not without parents_all: a leaf without mass is given the value 0 whatever the origin.  Values 1, 5, 9 and responses 5, 2, 2 end with the values 0, 1, 1 and cost 27; plus 10, the same weights cost 227 and the starting weights are returned. *)
Theorem C89_children_only_refuted : exists (b : Q) (ts : list (tree Q)) (o : smooth_opts Q) rd out out',
  Forall (@wf_tree Q) ts /\ o_dist o = DDepth false /\ o_adam o = None /\ o_no_constraint o = false /\
  smooth (fun x => x) (Forest Reg ts) o rd = Ok out /\ smooth (fun x => x) (Forest Reg (map (shifted b) ts)) (shifted_opts b o) rd = Ok out' /\
  s_lamb_last out' = s_lamb_last out /\ s_costs out = [74; 27]%Q /\ s_costs out' = [74; 227]%Q /\
  s_lamb out = [0; 0; 116#15]%Q /\ s_lamb out' = [1; 0; 0]%Q.
Proof.
  exists (10#1)%Q, [ex5_reg], (ex_tune [[5#1];[2#1];[2#1]]%Q (DDepth false) (1#20)%Q None), (ex_rand [0]%nat). eexists. eexists.
  split; [repeat constructor|]. do 3 (split; [reflexivity|]).
  split; [vm_compute; reflexivity|]. split; [vm_compute; reflexivity|]. repeat split; vm_compute; reflexivity.
Qed.
Print Assumptions C89_children_only_refuted.

Example C89_ex : forall lg t draws out, smooth lg (Forest Reg [ex5_reg; ex3_reg]) (ex_tune exYr (DDepth true) t None) (ex_rand draws) = Ok out ->
  exists out', smooth lg (Forest Reg (map (shifted 7) [ex5_reg; ex3_reg])) (shifted_opts 7 (ex_tune exYr (DDepth true) t None)) (ex_rand draws) = Ok out' /\
  s_costs out' = s_costs out.
Proof.
  intros lg t draws out H. destruct ex_trees_ok as (A&V&B).
  pose proof (C89_parents_all lg 7 [ex5_reg; ex3_reg] (ex_tune exYr (DDepth true) t None) (ex_rand draws) A V B ltac:(discriminate) (ex_plain Reg exYr true t) eq_refl Logic.I eq_refl) as X.
  rewrite H in X. destruct (smooth lg (Forest Reg (map _ _)) _ _) as [out'|e]; [|contradiction].
  exists out'. split; auto. apply X.
Qed.
