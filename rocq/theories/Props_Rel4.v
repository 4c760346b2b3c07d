(** Props_Rel4: order of the trees. *)
From Verif Require Import Base TreeSpec Spec M_Tree M_Gamma M_Levels M_Prox M_Grad M_Sgd M_Smooth SpecSmooth SpecRel.
From Verif Require Import L_Base L_Rel7 Props_Smooth Props_Rel.
From Coq Require Import Reals Lra QArith Permutation.
Local Open Scope R_scope.

(** ** C90: order of the trees *)

(** C90: with depth distances the order of the trees in the forest does not matter.  If the trees (each with its out-of-bag and bootstrap rows) are reordered by pi and every step draws the same tree as before, smooth returns the same weights and costs, and place q of the smoothed forest holds what was at place pi q, for every kind of forest, loss, optimiser and option ... *)
Theorem C90_tree_order : forall lg kd (o : smooth_opts R) pa pi ts ts' rd rd', Forall (@wf_tree R) ts -> ts <> [] -> o_dist o = DDepth pa ->
  reordered pi ts ts' rd rd' -> forall out, smooth lg (Forest kd ts) o rd = Ok out ->
  exists out', smooth lg (Forest kd ts') o rd' = Ok out' /\ s_lamb out' = s_lamb out /\ s_lamb_last out' = s_lamb_last out /\ s_lamb2 out' = s_lamb2 out /\
    s_costs out' = s_costs out /\ length (s_forest out') = length ts /\
    forall q, (q < length ts)%nat -> nth_error (s_forest out') q = nth_error (s_forest out) (pi q).
Proof. exact p_C90. Qed.
Print Assumptions C90_tree_order.

(** swapping two trees *)
Definition swap2 (q : nat) : nat := (1 - q)%nat.
Lemma swap2_ok : forall {T} (a b : tree T) ds ds', Forall2 (fun d d' => Nat.modulo d 2 = swap2 (Nat.modulo d' 2)) ds ds' ->
  reordered swap2 [a; b] [b; a] (ex_rand ds) (ex_rand ds').
Proof.
  intros T a b ds ds' F. split; [reflexivity|]. split; [apply perm_swap|]. split; [|exact F].
  intros q Hq. destruct q as [|[|q]]; [auto|auto|cbn in Hq; lia].
Qed.

(** ... but the forest returned with the last weights does depend on it: all its trees get the leaf values of the first ones in the list (leaf values 1, 5, 9 and 20, 30, weights 1, 0, 0) ... *)
Theorem C90_second_forest_refuted : exists pi (ts ts' : list (tree Q)) (o : smooth_opts Q) rd rd' out out',
  Forall (@wf_tree Q) ts /\ o_dist o = DDepth true /\ reordered pi ts ts' rd rd' /\
  smooth (fun x => x) (Forest Reg ts) o rd = Ok out /\ smooth (fun x => x) (Forest Reg ts') o rd' = Ok out' /\
  map (fun t => leaf_select t (t_value t)) (s_forest2 out) = [[[1]; [5]; [9]]; [[1]; [5]]]%Q /\
  map (fun t => leaf_select t (t_value t)) (s_forest2 out') = [[[20]; [30]]; [[20]; [30]; [1]]]%Q.
Proof.
  exists swap2, [ex5_reg; ex3_reg], [ex3_reg; ex5_reg], (ex_small (DDepth true) (1#20)%Q None), (ex_rand []), (ex_rand []). eexists. eexists.
  split; [repeat constructor|]. split; [reflexivity|]. split; [apply swap2_ok; constructor|].
  split; [vm_compute; reflexivity|]. split; [vm_compute; reflexivity|]. split; vm_compute; reflexivity.
Qed.
Print Assumptions C90_second_forest_refuted.

(** ... and with impurity distances even the number of weights does: it is that of the first tree in the list. *)
Theorem C90_impurity_refuted : exists pi (ts ts' : list (tree Q)) (o : smooth_opts Q) rd rd' out out',
  Forall (@wf_tree Q) ts /\ o_dist o = DImp (LArr [0; 1; 20]%Q) /\ reordered pi ts ts' rd rd' /\
  smooth (fun x => x) (Forest Reg ts) o rd = Ok out /\ smooth (fun x => x) (Forest Reg ts') o rd' = Ok out' /\
  s_lamb out = [1; 0; 0]%Q /\ s_lamb out' = [1; 0; 0; 0]%Q.
Proof.
  exists swap2, [ex5_reg; mkTree [1;-1;-1]%Z [2;-1;-1]%Z [0;0;0]%nat [1;0;0]%Q [[25];[20];[30]]%Q [4;2;2]%Q [1#4;0;0]%Q],
    [mkTree [1;-1;-1]%Z [2;-1;-1]%Z [0;0;0]%nat [1;0;0]%Q [[25];[20];[30]]%Q [4;2;2]%Q [1#4;0;0]%Q; ex5_reg],
    (ex_small (DImp (LArr [0; 1; 20]%Q)) (1#20)%Q None), (ex_rand []), (ex_rand []). eexists. eexists.
  split; [repeat constructor|]. split; [reflexivity|]. split; [apply swap2_ok; constructor|].
  split; [vm_compute; reflexivity|]. split; [vm_compute; reflexivity|]. split; vm_compute; reflexivity.
Qed.
Print Assumptions C90_impurity_refuted.

Example C90_ex : forall lg (t : R) out, smooth lg (Forest Reg [ex5_reg; ex3_reg]) (ex_small (DDepth true) t None) (ex_rand [0;1;0]%nat) = Ok out ->
  exists out', smooth lg (Forest Reg [ex3_reg; ex5_reg]) (ex_small (DDepth true) t None) (ex_rand [1;0;1]%nat) = Ok out' /\
  s_lamb out' = s_lamb out /\ s_costs out' = s_costs out /\ nth_error (s_forest out') 0 = nth_error (s_forest out) 1.
Proof.
  intros lg t out H. destruct ex_trees_ok as (A&_&_).
  destruct (C90_tree_order lg Reg (ex_small (DDepth true) t None) true swap2 [ex5_reg; ex3_reg] [ex3_reg; ex5_reg] (ex_rand [0;1;0]%nat) (ex_rand [1;0;1]%nat) A ltac:(discriminate) eq_refl
    ltac:(apply swap2_ok; repeat constructor) out H) as (out'&H1&H2&_&_&H3&_&H4).
  exists out'. split; auto. split; auto. split; auto. apply (H4 0%nat). cbn; lia.
Qed.
(** the hypothesis of the example holds: a run with three steps *)
Example C90_ex_run : exists out, smooth (fun x => x) (Forest Reg [ex5_reg; ex3_reg]) (ex_small (DDepth true) (1#20)%Q None) (ex_rand [0;1;0]%nat) = Ok out /\ length (s_costs out) = 4%nat.
Proof. eexists. split; [vm_compute; reflexivity|reflexivity]. Qed.
