(** Props_Quantile: property theorems about the levels impurity distances are sorted into. *)
From Verif Require Import Base TreeSpec Spec M_Tree M_Gamma M_Levels SpecSmooth SpecQuantile L_Base L_Levels L_Quantile.
From Coq Require Import Reals Lra Lia QArith Sorting.Permutation Sorting.Sorted.
Local Open Scope R_scope.

(** ** C120: impurity distances are binned by quantiles *)

(** C120: the boundaries made of an integer number of levels are the quantiles 0/n, 1/n, .., n/n with linear interpolation, ... *)
Theorem C120_quantiles : forall n (a q : list R), (0 < n)%nat -> a <> [] -> (quantiles n a = Ok q <-> is_quantiles n a q).
Proof. exact is_quantiles_model. Qed.
Print Assumptions C120_quantiles.
Theorem C120_quantiles_facts : forall n (a : list R), (0 < n)%nat -> a <> [] -> quantiles 0 a = Err ValueError /\ exists q, quantiles n a = Ok q /\
  (In (nth 0 q 0) a /\ forall y, In y a -> nth 0 q 0 <= y) /\ (In (nth n q 0) a /\ forall y, In y a -> y <= nth n q 0) /\
  (forall i j, (i <= j <= n)%nat -> nth i q 0 <= nth j q 0) /\ length q = S n.
Proof.
  intros n a Hn Ha. split; [apply quantile_zero|]. destruct (p_quantiles n a Hn Ha) as (q&E&Q). exists q. split; auto.
  destruct (quantiles_facts n a q Hn Q) as (A&B&C&_). split; auto. split; auto. split; auto. apply Q.
Qed.
Print Assumptions C120_quantiles_facts.
Example C120_quantiles_ex : is_quantiles 2 [1; 3; 2; 10] [1; 5 / 2; 10] /\ quantiles 2 [1; 3; 2; 10]%Q = Ok [1; 5 # 2; 10]%Q.
Proof.
  split; [|vm_compute; reflexivity]. split; [reflexivity|]. intros i Hi. exists [1; 2; 3; 10], (match i with 0 => 0 | 1 => 1 | _ => 3 end)%nat.
  split; [constructor; apply perm_swap|]. split; [repeat (constructor; [|repeat (constructor; try lra)]); constructor|].
  destruct i as [|[|[|i]]]; [| | |lia]; cbn [length nth]; rewrite ?S_INR; cbn [INR]; (split; [lia|]); split; try lra; field.
Qed.

(** ... with boundaries given as an array: no positive distance is a ValueError, no positive boundary an IndexError; otherwise the
    positive boundaries but the largest, and half of the smallest positive distance (at most 1) when it is below them, separate the levels,
    and the level of a pair of leaves is the number of boundaries below its distance, ... *)
Theorem C120_levels : forall s (br : list R) (t : tree R) Dm m, wf_tree t -> impurity_dist_leaves s t = Ok (Dm, m) -> (forall x, In x br -> 0 <= x) ->
  ((forall x, In x (concat Dm) -> x <= 0) -> impurity_levels s (LArr br) t = Err ValueError) /\
  ((exists x, In x (concat Dm) /\ 0 < x) -> (forall x, In x br -> x <= 0) -> impurity_levels s (LArr br) t = Err IndexError) /\
  ((exists x, In x (concat Dm) /\ 0 < x) -> (exists x, In x br /\ 0 < x) ->
     exists D e, impurity_levels s (LArr br) t = Ok (D, e) /\ binned br Dm D e).
Proof. exact p_C120_outcome. Qed.
Print Assumptions C120_levels.

(** ... with an integer the boundaries are the quantiles of the tree's own distances (all pairs, the pair of a leaf with itself included), 0 is a ValueError, ... *)
Theorem C120_int : forall s n (t : tree R) Dm m, wf_tree t -> impurity_dist_leaves s t = Ok (Dm, m) ->
  impurity_levels s (LInt 0) t = Err ValueError /\
  ((0 < n)%nat -> exists br, is_quantiles n (concat Dm) br /\ impurity_levels s (LInt n) t = impurity_levels s (LArr br) t).
Proof. exact p_C120_int. Qed.
Print Assumptions C120_int.
Theorem C120_own : forall s n (t : tree R) Dm m, wf_tree t -> imp_decreasing t -> (0 < n)%nat -> impurity_dist_leaves s t = Ok (Dm, m) ->
  ((forall x, In x (concat Dm) -> x = 0) -> impurity_levels s (LInt n) t = Err ValueError) /\
  (~ (forall x, In x (concat Dm) -> x = 0) -> exists br D e, is_quantiles n (concat Dm) br /\ impurity_levels s (LInt n) t = Ok (D, e) /\ binned br Dm D e).
Proof. exact p_C120_own. Qed.
Print Assumptions C120_own.
Theorem C120_one_leaf : forall s n (t : tree R), wf_tree t -> n_leaves t = 1%nat -> impurity_levels s (LInt n) t = Err ValueError.
Proof. exact p_C120_single. Qed.
Print Assumptions C120_one_leaf.
Example C120_ex : wf_tree (@ex5_reg R _) /\ imp_decreasing (@ex5_reg R _) /\
  impurity_dist_leaves Standard (@ex5_reg Q _) = Ok ([[0;10;10];[10;0;4];[10;4;0]]%Q, 10%Q) /\
  quantiles 4 [0;10;10;10;0;4;10;4;0]%Q = Ok [0;0;4;10;10]%Q /\
  impurity_levels Standard (LInt 4) (@ex5_reg Q _) = Ok ([[0;2;2];[2;0;1];[2;1;0]]%Z, 4%nat) /\
  impurity_levels Standard (LArr [0;0]%Q) (@ex5_reg Q _) = Err IndexError /\
  wf_tree (mkTree [-1]%Z [-1]%Z [0]%nat [0]%Q [[5]]%Q [4]%Q [3]%Q) /\
  impurity_levels Standard (LInt 4) (mkTree [-1]%Z [-1]%Z [0]%nat [0]%Q [[5]]%Q [4]%Q [3]%Q) = Err ValueError.
Proof.
  split; [reflexivity|]. split; [|vm_compute; repeat split; reflexivity].
  intros p c [H|H]; revert H; unfold lc, rc; (destruct p as [|[|[|[|[|p]]]]]; cbn; intros H; [| | | | |destruct p]; try lia);
  destruct c as [|[|[|[|[|c]]]]]; try lia; cbn; rewrite ?INR_IPR; unfold IPR, IPR_2; cbn; lra.
Qed.

(** ... a forest uses the quantiles of the distances of its first five trees (0 is a ValueError), for every tree, ... *)
Theorem C120_forest : forall kd s n (ts : list (tree R)) Dms, Forall (@wf_tree R) ts -> ts <> [] -> distances s (firstn 5 ts) Dms ->
  create_Gamma_eta_forest_imp kd s (LInt 0) ts = Err ValueError /\
  ((0 < n)%nat -> exists br, is_quantiles n (concat (map (@concat R) Dms)) br /\
     create_Gamma_eta_forest_imp kd s (LInt n) ts = create_Gamma_eta_forest_imp kd s (LArr br) ts).
Proof. exact p_C120_forest. Qed.
Print Assumptions C120_forest.
Theorem C120_smooth_levels : forall s n (ts : list (tree R)) Dms arr, Forall (@wf_tree R) ts -> ts <> [] -> distances s (firstn 5 ts) Dms -> (0 < n)%nat ->
  quantiles_distance_trees s (firstn 5 ts) n = Ok arr <-> is_quantiles n (concat (map (@concat R) Dms)) arr.
Proof. exact level_array_quantiles. Qed.
Print Assumptions C120_smooth_levels.

(** ... so that the levels of equal distances in two trees differ by at most 1, ... *)
Theorem C120_close : forall br Dm1 Dm2 D1 D2 e1 e2 i1 j1 i2 j2, binned br Dm1 D1 e1 -> binned br Dm2 D2 e2 ->
  (i1 < length Dm1)%nat -> (j1 < length (nth i1 Dm1 []))%nat -> (i2 < length Dm2)%nat -> (j2 < length (nth i2 Dm2 []))%nat ->
  nth j1 (nth i1 Dm1 []) 0 = nth j2 (nth i2 Dm2 []) 0 -> (Z.abs (nth j1 (nth i1 D1 []) 0%Z - nth j2 (nth i2 D2 []) 0%Z) <= 1)%Z.
Proof. exact p_C120_close. Qed.
Print Assumptions C120_close.

(** ... but they may differ: the boundary added below the others is the tree's own. *)
Definition two_leaves (d1 d2 : Q) : tree Q := mkTree [1;-1;-1]%Z [2;-1;-1]%Z [0;0;0]%nat [1;0;0]%Q [[5];[4];[6]]%Q [4;2;2]%Q [5;5 - d1;5 - d2]%Q.
Theorem C120_same_levels_refuted : exists (t1 t2 : tree Q) br D1 D2 e1 e2 m1 m2 L1 L2, wf_tree t1 /\ wf_tree t2 /\
  quantiles_distance_trees Standard [t1; t2] 7 = Ok br /\
  impurity_dist_leaves Standard t1 = Ok (D1, m1) /\ impurity_dist_leaves Standard t2 = Ok (D2, m2) /\
  impurity_levels Standard (LArr br) t1 = Ok (L1, e1) /\ impurity_levels Standard (LArr br) t2 = Ok (L2, e2) /\
  nth 0 (nth 1 D1 []) 0%Q = nth 0 (nth 1 D2 []) 0%Q /\ nth 0 (nth 1 L1 []) 0%Z <> nth 0 (nth 1 L2 []) 0%Z /\ e1 <> e2.
Proof.
  exists (two_leaves (1 # 2) 4), (two_leaves 4 4). do 9 eexists. do 2 (split; [reflexivity|]). split; [vm_compute; reflexivity|].
  do 4 (split; [vm_compute; reflexivity|]). split; [reflexivity|]. split; vm_compute; discriminate.
Qed.
Print Assumptions C120_same_levels_refuted.
