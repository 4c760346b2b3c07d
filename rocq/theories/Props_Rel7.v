(** Props_Rel7: tuning data that are there several times. *)
From Verif Require Import Base TreeSpec Spec M_Tree M_Gamma M_Levels M_Prox M_Grad M_Sgd M_Smooth SpecSmooth SpecRel SpecRel2.
From Verif Require Import L_Base L_Rel14 Props_Smooth Props_Rel.
From Coq Require Import Reals Lra QArith Permutation.
Local Open Scope R_scope.

(** ** C113: repeated tuning data *)

(** C113: giving every tuning pair m times, in any order, acts like an m times larger step.  If the step size is divided by m and Adam's epsilon multiplied by m, smooth returns the same weights and forests, and the costs are m times as large: for every kind of forest, loss, distance and option, exceptions included ... *)
Theorem C113_tune : forall lg kd ts (o : smooth_opts R) rd m X Y X' Y', Forall (@wf_tree R) ts -> (0 < m)%nat -> o_resample o = false ->
  length Y = length X -> length Y' = length X' -> times m (combine X Y) (combine X' Y') ->
  smooth lg (Forest kd ts) (with_tune (slower m o) X' Y') rd = rmap (dearer m) (smooth lg (Forest kd ts) (with_tune o X Y) rd).
Proof. exact p_C113_tune. Qed.
Print Assumptions C113_tune.

(** ... and likewise for the out-of-bag rows and the bootstrap rows of the trees. *)
Theorem C113_sample : forall lg kd ts (o : smooth_opts R) rd rd' m, Forall (@wf_tree R) ts -> (0 < m)%nat -> (oob_logic o || o_resample o)%bool = true ->
  (forall q, times m (r_oob rd q) (r_oob rd' q)) -> (forall q, times m (r_boot rd q) (r_boot rd' q)) -> r_draws rd' = r_draws rd ->
  smooth lg (Forest kd ts) (slower m o) rd' = rmap (dearer m) (smooth lg (Forest kd ts) o rd).
Proof. exact p_C113_sample. Qed.
Print Assumptions C113_sample.

(** three observations given twice, the second time in another order *)
Example C113_ex : forall lg rd, smooth lg (Forest Reg [ex5_reg; ex3_reg]) (with_tune (slower 2 (ex_small (DDepth true) (1/20) None)) (exX ++ rev exX) (exYr ++ rev exYr)) rd
  = rmap (dearer 2) (smooth lg (Forest Reg [ex5_reg; ex3_reg]) (with_tune (ex_small (DDepth true) (1/20) None) exX exYr) rd).
Proof.
  intros. apply C113_tune; auto; [apply ex_trees_ok|]. unfold times, exX, exYr. cbn [map rev app combine repeat concat].
  do 3 apply perm_skip. eapply perm_trans; [apply perm_swap|]. eapply perm_trans; [apply perm_skip, perm_swap|]. apply perm_swap.
Qed.
(** the changed settings *)
Example C113_ex_slower : o_t_fix (slower 2 (ex_small (DDepth true) (1/20) None)) = 1/40 /\ (exists p, o_adam (slower 3 (ex_small (DDepth true) (1/20) (Some {| ad_alpha := 1/10; ad_b1 := 9/10; ad_b2 := 99/100; ad_eps := 1/1000 |}))) = Some p /\ ad_eps p = 3/1000 /\ ad_alpha p = 1/10).
Proof.
  split; [cbn; lra|]. eexists. split; [reflexivity|]. cbn. lra.
Qed.
Example C113_ex_sample : forall lg kd ts (o : smooth_opts R) draws, Forall (@wf_tree R) ts -> o_resample o = true ->
  smooth lg (Forest kd ts) (slower 2 o) {| r_oob := fun q => [3;3;1;1]%nat; r_boot := fun q => [q;0;0;q]%nat; r_draws := draws |} =
  rmap (dearer 2) (smooth lg (Forest kd ts) o {| r_oob := fun q => [1;3]%nat; r_boot := fun q => [q;0]%nat; r_draws := draws |}).
Proof.
  intros. apply C113_sample; auto; cbn; intros.
  - rewrite H0. apply orb_true_r.
  - apply (perm_trans (l' := [1;3;3;1]%nat)).
    + eapply perm_trans; [apply perm_skip, perm_swap|]. apply perm_swap.
    + do 2 apply perm_skip. apply perm_swap.
  - do 2 apply perm_skip. apply perm_swap.
Qed.
