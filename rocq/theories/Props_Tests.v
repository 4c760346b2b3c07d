(** Props_Tests: C126, what the package's tests assert about fitted forests, for every tree. *)
From Coq Require Import Reals Lra Lia QArith.
From Verif Require Import Base TreeSpec Spec M_Tree M_Prune SpecPrune.
From Verif Require Import L_Prune4 L_Tests Conform.
Local Open Scope R_scope.

(** C126 (test_change_in_impurity): the root's entry is its impurity, the entry of every other node its impurity minus that of
    its parent; adding up the entries of a node and its ancestors re-creates the node's impurity. *)
Theorem C126_differences : forall t : tree R, wf_tree t -> let d := change_in_impurity t in
  length d = size t /\ nth 0 d 0 = nth 0 (t_imp t) 0 /\
  (forall p c, child t p c -> nth c d 0 = nth c (t_imp t) 0 - nth p (t_imp t) 0) /\
  (forall v sel, (v < size t)%nat -> (forall a, (a < size t)%nat -> (sel a = true <-> anc t a v)) ->
     sum_sel (size t) sel (fun a => nth a d 0) = nth v (t_imp t) 0).
Proof. exact p_diff. Qed.
Print Assumptions C126_differences.

Example C126_differences_ex : wf_tree (fake count_values some_imp) /\
  change_in_impurity (fake count_values some_imp) = [7 # 10; - (1 # 2); - (2 # 5); - (1 # 10); - (1 # 5); - (1 # 10); - (1 # 10)]%Q.
Proof. split; vm_compute; reflexivity. Qed.

(** C126 (test_depth_per_node_plus_parent): from left to right no row of the parent matrix increases, a row has as many entries other
    than 0 as its node has edges to the root, and children are one level deeper. *)
Theorem C126_parent_rows : forall {T} (t : tree T), wf_tree t -> let (dv, pm) := depth_per_node_plus_parent t in
  (forall v k, (v < size t)%nat -> (S k < length (nth v pm []))%nat -> (nth (S k) (nth v pm []) 0 <= nth k (nth v pm []) 0)%nat) /\
  (forall v, (v < size t)%nat -> length (filter (fun x => negb (Nat.eqb x 0)) (nth v pm [])) = nth v dv 0%nat) /\
  (forall p c, child t p c -> nth c dv 0%nat = S (nth p dv 0%nat)).
Proof. exact @p_rows. Qed.
Print Assumptions C126_parent_rows.

Example C126_parent_rows_ex : wf_tree (fake count_values some_imp) /\ depth_per_node_plus_parent (fake count_values some_imp) =
  ([0;1;1;2;2;3;3]%nat, [[0;0;0;0];[1;0;0;0];[2;0;0;0];[3;2;0;0];[4;2;0;0];[5;4;2;0];[6;4;2;0]]%nat).
Proof. split; vm_compute; reflexivity. Qed.

(** C126 (test_r_single_t_classification): if weights and class counts add up over the children, a node that is split has at least
    the risk of one of its children. *)
Theorem C126_child_risk : forall nc k (t : tree R) rs v l r, wf_tree t -> (0 < k)%nat -> class_tree t k -> good_weights t ->
  (forall c, (c < k)%nat -> additive t (node_v t c)) -> r_single_t (TreeObj (Class nc) t) = Ok rs ->
  lc t v = Z.of_nat l -> rc t v = Z.of_nat r -> nth l rs 0 <= nth v rs 0 \/ nth r rs 0 <= nth v rs 0.
Proof. exact q_child_risk. Qed.
Print Assumptions C126_child_risk.

(** node 4 of the tree of C45 *)
Example C126_child_risk_ex : wf_tree (@full7 R _) /\ good_weights (@full7 R _) /\ class_tree (@full7 R _) 2 /\
  (forall c, (c < 2)%nat -> additive (@full7 R _) (node_v full7 c)) /\ exists rs, r_single_t (TreeObj (Class 2) (@full7 R _)) = Ok rs.
Proof. destruct full7_ok as (A&B&C&D). repeat (split; auto). eexists. reflexivity. Qed.

(** ... but not that of the other one as well: a node may be purer than a child. *)
Theorem C126_both_refuted : exists (t : tree Q) rs v r, wf_tree t /\ r_single_t (TreeObj (Class 2) t) = Ok rs /\
  (forall p l r, lc t p = Z.of_nat l -> rc t p = Z.of_nat r -> forall c, (nth c (nth p (t_value t) []) 0 == nth c (nth l (t_value t) []) 0 + nth c (nth r (t_value t) []) 0)%Q) /\
  rc t v = Z.of_nat r /\ (nth v rs 0 < nth r rs 0)%Q.
Proof.
  exists (mkTree [1;-1;-1]%Z [2;-1;-1]%Z [0;0;0]%nat [0;0;0]%Q [[9;1];[8;0];[1;1]]%Q [10;8;2]%Q [0;0;0]%Q). do 3 eexists. split; [reflexivity|].
  split; [vm_compute; reflexivity|]. split; [|split; [instantiate (2 := 0%nat); instantiate (1 := 2%nat); reflexivity|vm_compute; reflexivity]].
  intros p l r Hl Hr c. destruct p as [|[|[|p]]]; cbn in Hl, Hr; try (destruct p; cbn in Hl; lia); try lia.
  assert (l = 1%nat) by lia. assert (r = 2%nat) by lia. subst. destruct c as [|[|c]]; cbn; try reflexivity. destruct c; reflexivity.
Qed.
Print Assumptions C126_both_refuted.
