(** Props_Rel5: a forest that holds every tree several times. *)
From Verif Require Import Base TreeSpec Spec M_Tree M_Gamma M_Levels M_Prox M_Grad M_Sgd M_Smooth SpecSmooth SpecRel SpecProg SpecCopy.
From Verif Require Import L_Base L_Rel8 Props_Smooth Props_Rel.
From Coq Require Import Reals Lra QArith.
Local Open Scope R_scope.

Lemma stepped_same : forall o : smooth_opts R, stepped (o_t_fix o) o = o.
Proof. intros []. reflexivity. Qed.

(** ** C92: copies of the trees *)

(** C92: with depth distances, a forest that holds the trees m times over is smoothed like the forest itself: if every step draws a copy of the tree drawn before, smooth returns the same weights, m times the costs, and every copy of a tree becomes what the tree becomes, for every kind of forest, loss and optimiser ... *)
Theorem C92_copies : forall lg kd (o : smooth_opts R) pa m ts ts' rd rd', Forall (@wf_tree R) ts -> ts <> [] -> o_dist o = DDepth pa -> o_all_trees o = false ->
  copied m ts ts' rd rd' -> forall out, smooth lg (Forest kd ts) o rd = Ok out ->
  exists out', smooth lg (Forest kd ts') o rd' = Ok out' /\ s_lamb out' = s_lamb out /\ s_lamb_last out' = s_lamb_last out /\ s_lamb2 out' = s_lamb2 out /\
    s_costs out' = map (Rmult (INR m)) (s_costs out) /\ length (s_forest out') = length ts' /\
    forall q, (q < length ts')%nat -> nth_error (s_forest out') q = nth_error (s_forest out) (q mod length ts).
Proof.
  intros lg kd o pa m ts ts' rd rd' W N D A C out H.
  destruct (p_C92 lg kd o (o_t_fix o) pa m ts ts' rd rd' W N D C (or_introl (conj A eq_refl)) out H) as (out'&X). rewrite stepped_same in X. exists out'. exact X.
Qed.
Print Assumptions C92_copies.

(** ... when every step uses all trees at once the gradient is m times as long, so plain descent gives the same weights for the copies with a step size m times smaller ... *)
Theorem C92_copies_at_once : forall lg kd (o : smooth_opts R) pa m ts ts' rd rd', Forall (@wf_tree R) ts -> ts <> [] -> o_dist o = DDepth pa -> o_all_trees o = true -> o_adam o = None ->
  copied m ts ts' rd rd' -> forall out, smooth lg (Forest kd ts) o rd = Ok out ->
  exists out', smooth lg (Forest kd ts') (stepped (o_t_fix o / INR m) o) rd' = Ok out' /\ s_lamb out' = s_lamb out /\ s_lamb_last out' = s_lamb_last out /\ s_lamb2 out' = s_lamb2 out /\
    s_costs out' = map (Rmult (INR m)) (s_costs out) /\ length (s_forest out') = length ts' /\
    forall q, (q < length ts')%nat -> nth_error (s_forest out') q = nth_error (s_forest out) (q mod length ts).
Proof.
  intros lg kd o pa m ts ts' rd rd' W N D A AD C. apply (p_C92 lg kd o _ pa m ts ts' rd rd' W N D C). right. split; [exact A|]. split; [exact AD|].
  field. apply not_0_INR. destruct C as (M0&_). lia.
Qed.
Print Assumptions C92_copies_at_once.

(** [m] copies of a forest, with fixed tuning data *)
Lemma copied_ex : forall {T} (ts : list (tree T)) ds, ts <> [] -> copied 2 ts (ts ++ ts) (ex_rand ds) (ex_rand ds).
Proof.
  intros T ts ds N. assert (L : (length ts <> 0)%nat) by (destruct ts; [congruence|cbn; lia]).
  split; [lia|]. split; [rewrite app_length; lia|]. split.
  - intros q Hq. rewrite app_length in Hq. split; [|auto]. destruct (Nat.lt_ge_cases q (length ts)) as [X|X].
    + rewrite nth_error_app1, Nat.mod_small by auto. reflexivity.
    + rewrite nth_error_app2 by auto. replace q with (q - length ts + 1 * length ts)%nat at 2 by lia. rewrite Nat.mod_add, Nat.mod_small by lia. reflexivity.
  - cbn [r_draws ex_rand]. assert (E : forall d, ((d mod length (ts ++ ts)) mod length ts = d mod length ts)%nat).
    { intros d. rewrite app_length. replace (length ts + length ts)%nat with (length ts * 2)%nat by lia. rewrite Nat.mod_mul_r by lia. rewrite Nat.mul_comm, Nat.mod_add, Nat.mod_mod by lia. reflexivity. }
    induction ds; constructor; auto.
Qed.
Definition ex_once {T} {NT : Num T} (t : T) : smooth_opts T :=
  {| o_X_trained := None; o_y_trained := None; o_X_tune := Some exX; o_y_tune := Some exYr;
     o_no_constraint := false; o_sanity := false; o_resample := false; o_t_fix := t; o_all_trees := true;
     o_lamb_draws := None; o_style := Standard; o_dist := DDepth true; o_class_eps := n0; o_class_loss := L2; o_adam := None |}.

(** ... and with the same step size it does not: one step of 1/1000 with two trees and with two copies of each. *)
Theorem C92_same_step_refuted : exists (ts ts' : list (tree Q)) (o : smooth_opts Q) rd out out',
  Forall (@wf_tree Q) ts /\ o_dist o = DDepth true /\ o_all_trees o = true /\ o_adam o = None /\ copied 2 ts ts' rd rd /\
  smooth (fun x => x) (Forest Reg ts) o rd = Ok out /\ smooth (fun x => x) (Forest Reg ts') o rd = Ok out' /\
  map Qred (s_lamb out) <> map Qred (s_lamb out').
Proof.
  exists [ex5_reg; ex3_reg], [ex5_reg; ex3_reg; ex5_reg; ex3_reg], (ex_once (1#1000)%Q), (ex_rand [0]%nat). eexists. eexists.
  split; [repeat constructor|]. split; [reflexivity|]. split; [reflexivity|]. split; [reflexivity|]. split; [apply (copied_ex [ex5_reg; ex3_reg]); discriminate|].
  split; [vm_compute; reflexivity|]. split; [vm_compute; reflexivity|]. vm_compute. discriminate.
Qed.
Print Assumptions C92_same_step_refuted.

Example C92_ex : forall lg (t : R) out, smooth lg (Forest Reg [ex5_reg; ex3_reg]) (ex_small (DDepth true) t None) (ex_rand [0;1;0]%nat) = Ok out ->
  exists out', smooth lg (Forest Reg [ex5_reg; ex3_reg; ex5_reg; ex3_reg]) (ex_small (DDepth true) t None) (ex_rand [0;1;0]%nat) = Ok out' /\
  s_lamb out' = s_lamb out /\ s_costs out' = map (Rmult 2) (s_costs out) /\ nth_error (s_forest out') 3 = nth_error (s_forest out) 1.
Proof.
  intros lg t out H. destruct ex_trees_ok as (A&_&_).
  destruct (C92_copies lg Reg (ex_small (DDepth true) t None) true 2 [ex5_reg; ex3_reg] [ex5_reg; ex3_reg; ex5_reg; ex3_reg] (ex_rand [0;1;0]%nat) (ex_rand [0;1;0]%nat) A ltac:(discriminate) eq_refl eq_refl
    ltac:(apply (copied_ex [ex5_reg; ex3_reg]); discriminate) out H) as (out'&H1&H2&_&_&H3&_&H4).
  exists out'. split; auto. split; auto. split; [exact H3|]. apply (H4 3%nat). cbn; lia.
Qed.
Example C92_ex_once : forall lg (t : R) out, smooth lg (Forest Reg [ex5_reg; ex3_reg]) (ex_once t) (ex_rand [0;1;0]%nat) = Ok out ->
  exists out', smooth lg (Forest Reg [ex5_reg; ex3_reg; ex5_reg; ex3_reg]) (ex_once (t / 2)) (ex_rand [0;1;0]%nat) = Ok out' /\ s_lamb out' = s_lamb out.
Proof.
  intros lg t out H. destruct ex_trees_ok as (A&_&_).
  destruct (C92_copies_at_once lg Reg (ex_once t) true 2 [ex5_reg; ex3_reg] [ex5_reg; ex3_reg; ex5_reg; ex3_reg] (ex_rand [0;1;0]%nat) (ex_rand [0;1;0]%nat) A ltac:(discriminate) eq_refl eq_refl eq_refl
    ltac:(apply (copied_ex [ex5_reg; ex3_reg]); discriminate) out H) as (out'&H1&H2&_). exists out'. split; auto.
Qed.
(** both kinds of run return *)
Example C92_ex_run : (exists out, smooth (fun x => x) (Forest Reg [ex5_reg; ex3_reg]) (ex_small (DDepth true) (1#20)%Q None) (ex_rand [0;1;0]%nat) = Ok out /\ length (s_costs out) = 4%nat) /\
  exists out, smooth (fun x => x) (Forest Reg [ex5_reg; ex3_reg]) (ex_once (1#1000)%Q) (ex_rand [0;1]%nat) = Ok out /\ length (s_costs out) = 3%nat.
Proof. split; eexists; (split; [vm_compute; reflexivity|reflexivity]). Qed.
