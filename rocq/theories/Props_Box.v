(** Props_Box: property theorems about bounding boxes and centers (smooth_base.py:1700-1835). *)
From Verif Require Import Base TreeSpec Spec M_Tree M_Gamma M_Box SpecBox SpecSmooth.
From Verif Require Import L_Base L_Tree L_Box.
From Coq Require Import Reals Lra Lia QArith.
Local Open Scope R_scope.

(** ** C49: bounding boxes *)

(** C49: bound_box_tree returns one box per node; the root's is the smallest box around the data, and the boxes of the two children of a split are the node's box with the upper / lower bound of the split feature replaced by the threshold. *)
Theorem C49_boxes : forall (t : tree R) p X, wf_tree t -> features_ok p t -> data_ok p X ->
  exists bs, bound_box_tree t X = Ok bs /\ length bs = size t /\ hull p X (nth 0 bs []) /\
  forall v l r, lc t v = Z.of_nat l -> rc t v = Z.of_nat r ->
    let f := nth v (t_feature t) 0%nat in let x := nth v (t_thresh t) 0 in
    cut_hi p f x (nth v bs []) (nth l bs []) /\ cut_lo p f x (nth v bs []) (nth r bs []).
Proof. exact p_C49_boxes. Qed.
Print Assumptions C49_boxes.

(** ... every point of the data range lies in the boxes of all nodes it passes through (in particular of its leaf); *)
Theorem C49_contains : forall (t : tree R) p X bs x v, wf_tree t -> features_ok p t -> data_ok p X ->
  bound_box_tree t X = Ok bs -> in_range p X x -> reaches t x v -> in_box p x (nth v bs []).
Proof. exact p_C49_contains. Qed.
Print Assumptions C49_contains.

(** ... conversely, when the thresholds lie inside the boxes they split, every point of a node's box that is on none of its lower faces passes through the node. *)
Theorem C49_only_inside : forall (t : tree R) p X bs x v, wf_tree t -> features_ok p t -> data_ok p X ->
  bound_box_tree t X = Ok bs -> splits_inside t bs -> (v < size t)%nat -> in_half_box p x (nth v bs []) -> reaches t x v.
Proof. exact p_C49_inside. Qed.
Print Assumptions C49_only_inside.

(** ... center_tree returns the midpoints of the boxes, which lie between the bounds where these are in order, hence inside the box when the thresholds lie inside the boxes they split; *)
Theorem C49_centers : forall (t : tree R) p X, wf_tree t -> features_ok p t -> data_ok p X ->
  exists bs cs, bound_box_tree t X = Ok bs /\ center_tree t X = Ok cs /\ length cs = size t /\
  forall v, (v < size t)%nat -> length (nth v cs []) = p /\
    (forall f, (f < p)%nat -> nth f (nth v cs []) 0 = (lower (nth v bs []) f + upper (nth v bs []) f) / 2) /\
    (forall f, (f < p)%nat -> lower (nth v bs []) f <= upper (nth v bs []) f ->
       lower (nth v bs []) f <= nth f (nth v cs []) 0 <= upper (nth v bs []) f) /\
    (splits_inside t bs -> in_box p (nth v cs []) (nth v bs [])).
Proof. exact p_C49_center. Qed.
Print Assumptions C49_centers.

(** ... center_forest stacks the centers of the trees and names the tree of every row. *)
Theorem C49_center_forest : forall ts p X, Forall wf_tree ts -> Forall (features_ok p) ts -> data_ok p X ->
  exists M ti, center_forest ts X = Ok (M, ti) /\ length M = nodes_before ts (length ts) /\ length ti = length M /\
  forall q t, nth_error ts q = Some t -> exists cs, center_tree t X = Ok cs /\
    forall v, (v < size t)%nat -> nth (nodes_before ts q + v) M [] = nth v cs [] /\ nth (nodes_before ts q + v) ti 0%nat = q.
Proof. exact p_C49_forest. Qed.
Print Assumptions C49_center_forest.

Example C49_ex : bound_box_tree (@ex5_reg Q _) exX = Ok [[(0,3);(0,5)]; [(0,1);(0,5)]; [(1,3);(0,5)]; [(1,3);(0,2)]; [(1,3);(2,5)]]%Q /\
  center_forest [@ex3_reg Q _; ex5_reg] exX =
    Ok ([[3#2;5#2];[1#2;5#2];[2;5#2]; [3#2;5#2];[1#2;5#2];[2;5#2];[2;1];[2;7#2]], [0;0;0;1;1;1;1;1]%nat)%Q.
Proof. split; vm_compute; reflexivity. Qed.
Example C49_ex_hyp : exists bs, bound_box_tree (@ex5_reg R _) exX = Ok bs /\ wf_tree (@ex5_reg R _) /\ features_ok 2 (@ex5_reg R _) /\
  data_ok 2 (@exX R _) /\ splits_inside ex5_reg bs /\ in_box 2 [3; 5] (nth 4 bs []).
Proof.
  assert (WF : wf_tree (@ex5_reg R _)) by reflexivity.
  assert (F : features_ok 2 (@ex5_reg R _)).
  { intros v Hv. cbn in Hv. do 5 (destruct v as [|v]; [cbn; try discriminate; intros; lia|]). lia. }
  assert (D : data_ok 2 (@exX R _)) by (split; [discriminate|]; intros x [<-|[<-|[<-|[]]]]; reflexivity).
  destruct (C49_boxes ex5_reg 2 exX WF F D) as (bs&E&L&H&K). exists bs. do 4 (split; auto).
  destruct bs as [|b0 [|b1 [|b2 [|b3 [|b4 [|]]]]]]; try discriminate L.
  assert (X0 : In [exz 3; exz 5] (@exX R _)) by (right; right; left; reflexivity).
  assert (X1 : In [exz 0; exz 0] (@exX R _)) by (left; reflexivity).
  destruct (K 0%nat 1%nat 2%nat eq_refl eq_refl) as [[_ K1] [_ K2]]. destruct (K 2%nat 3%nat 4%nat eq_refl eq_refl) as [[_ K3] [_ K4]].
  destruct H as (_&H&_). pose proof (H _ X0) as A. pose proof (H _ X1) as B. cbn in K1, K2, K3, K4.
  pose proof (A 0%nat ltac:(lia)) as A0. pose proof (B 0%nat ltac:(lia)) as B0. pose proof (A 1%nat ltac:(lia)) as A1. pose proof (B 1%nat ltac:(lia)) as B1.
  pose proof (K2 0%nat ltac:(lia)) as C0. pose proof (K2 1%nat ltac:(lia)) as C1. cbn in A0, A1, B0, B1, C0, C1.
  change (Pos.to_nat 3) with 3%nat in A0. change (Pos.to_nat 5) with 5%nat in A1. cbn [INR] in A0, A1.
  split.
  - intros v Hv LF. cbn in Hv. do 5 (destruct v as [|v]; [cbn in LF |- *; try discriminate; cbn; lra|]). lia.
  - replace [3;5] with [@exz R _ 3; exz 5] by (cbn [exz]; change (Pos.to_nat 3) with 3%nat; change (Pos.to_nat 5) with 5%nat; cbn; f_equal; [lra|f_equal; lra]).
    eapply (C49_contains ex5_reg 2 exX _ _ 4 WF F D E); [apply (p_C49_data 2 exX); auto|].
    assert (R2 : reaches (@ex5_reg R _) [exz 3; exz 5] 2).
    { apply (reach_right _ _ 0 2); [constructor|reflexivity|]. apply nleb_false. cbn [nth exz ex5_reg ex5 t_feature t_thresh]. change (Pos.to_nat 3) with 3%nat; change (Pos.to_nat 5) with 5%nat; cbn; lra. }
    apply (reach_right _ _ 2 4); [exact R2|reflexivity|]. apply nleb_false. cbn [nth exz ex5_reg ex5 t_feature t_thresh]. change (Pos.to_nat 3) with 3%nat; change (Pos.to_nat 5) with 5%nat; cbn; lra.
Qed.
