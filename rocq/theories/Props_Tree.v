(** Props_Tree: property theorems about single trees (depth, decision matrix, distances). *)
From Verif Require Import Base TreeSpec Spec M_Tree M_Gamma L_Dist L_PropsTree.
From Coq Require Import Reals Lra QArith.
Local Open Scope nat_scope.

(** C01: depth_per_node returns, for every node, the number of edges on its path from the root. *)
Theorem C01_depth_per_node : forall {T} (t : tree T), wf_tree t ->
  length (depth_per_node t) = size t /\
  forall v d, v < size t -> (nth v (depth_per_node t) 0 = d <-> depth_of t v d).
Proof. exact (@p_C01). Qed.
Print Assumptions C01_depth_per_node.

Example C01_ex : wf_tree (@deep13 R _) /\ depth_per_node (@deep13 R _) = [0;1;1;2;2;3;3;3;3;4;4;4;4].
Proof. split; reflexivity. Qed.

(** C02: per-tree depth vectors in tree order, and the largest depth of the forest. *)
Theorem C02_calc_depth_for_forest : forall {T} (ts : list (tree T)), Forall wf_tree ts -> ts <> [] ->
  length (fst (calc_depth_for_forest ts)) = length ts /\
  (forall q t v d, nth_error ts q = Some t -> v < size t ->
     (nth v (nth q (fst (calc_depth_for_forest ts)) []) 0 = d <-> depth_of t v d)) /\
  is_max_depth ts (snd (calc_depth_for_forest ts)).
Proof. exact (@p_C02). Qed.
Print Assumptions C02_calc_depth_for_forest.

Example C02_ex : Forall wf_tree [@deep13 Q _; comb7 (repeat [0%Q] 7) (repeat 1%Q 7) (repeat 0%Q 7)] /\
  snd (calc_depth_for_forest [comb7 (repeat [0%Q] 7) (repeat 1%Q 7) (repeat 0%Q 7); deep13]) = 4.
Proof. split; [repeat constructor|reflexivity]. Qed.

(** C03: entry (i,j) of V is 1 when node j is on the path from the root to node i and 0 otherwise; the leaf matrix is the leaf rows. *)
Theorem C03_create_decision_per_leafs : forall {T} (t : tree T), wf_tree t ->
  let (vl, va) := create_decision_per_leafs t in
  length va = size t /\
  (forall i, i < size t -> length (nth i va []) = size t) /\
  (forall i j, i < size t -> j < size t ->
     (anc t j i -> nth j (nth i va []) 0 = 1) /\ (~ anc t j i -> nth j (nth i va []) 0 = 0)) /\
  vl = map (fun v => nth v va []) (leaf_ids t).
Proof. exact (@p_C03). Qed.
Print Assumptions C03_create_decision_per_leafs.

Example C03_ex : fst (create_decision_per_leafs (comb7 (repeat [0%Q] 7) (repeat 1%Q 7) (repeat 0%Q 7))) =
  [[1;1;0;0;0;0;0];[1;0;1;1;0;0;0];[1;0;1;0;1;1;0];[1;0;1;0;1;0;1]].
Proof. reflexivity. Qed.

(** C04: the depth distance of two leaves is the number of levels climbed to their lowest common ancestor (max / min of the two climbs in the other styles). *)
Theorem C04_depth_dist_leaves : forall {T} (t : tree T) (s : dstyle), wf_tree t ->
  let D := depth_dist_leaves s t in
  length D = n_leaves t /\
  (forall i, i < n_leaves t -> length (nth i D []) = n_leaves t) /\
  (forall i j d, i < n_leaves t -> j < n_leaves t ->
     (nth j (nth i D []) 0%Z = Z.of_nat d <-> leaf_dist t s (leaf_id t i) (leaf_id t j) d)) /\
  (forall i, i < n_leaves t -> nth i (nth i D []) 0%Z = 0%Z) /\
  (forall i j, i < n_leaves t -> j < n_leaves t -> i <> j -> (1 <= nth j (nth i D []) 0)%Z) /\
  (s <> Standard -> forall i j, i < n_leaves t -> j < n_leaves t ->
     nth j (nth i D []) 0%Z = nth i (nth j D []) 0%Z).
Proof. exact (@p_C04). Qed.
Print Assumptions C04_depth_dist_leaves.

Example C04_ex : let t := comb7 (repeat [0%Q] 7) (repeat 1%Q 7) (repeat 0%Q 7) in wf_tree t /\
  depth_dist_leaves Standard t = [[0;1;1;1];[2;0;1;1];[3;2;0;1];[3;2;1;0]]%Z /\
  depth_dist_leaves MaxStyle t = [[0;2;3;3];[2;0;2;2];[3;2;0;1];[3;2;1;0]]%Z /\
  depth_dist_leaves MinStyle t = [[0;1;1;1];[1;0;1;1];[1;1;0;1];[1;1;1;0]]%Z.
Proof. repeat split. Qed.

(** C05: the standard and max distances satisfy the triangle inequality ... *)
Theorem C05_depth_dist_triangle : forall {T} (t : tree T) (s : dstyle), wf_tree t -> s <> MinStyle ->
  let D := depth_dist_leaves s t in
  forall i j k, i < n_leaves t -> j < n_leaves t -> k < n_leaves t ->
    (nth k (nth i D []) 0 <= nth j (nth i D []) 0 + nth k (nth j D []) 0)%Z.
Proof. exact (@p_C05). Qed.
Print Assumptions C05_depth_dist_triangle.

Example C05_ex : let D := depth_dist_leaves MaxStyle (@deep13 Q _) in
  nth 3 (nth 0 D []) 0%Z = 4%Z /\ nth 1 (nth 0 D []) 0%Z = 3%Z /\ nth 3 (nth 1 D []) 0%Z = 2%Z.
Proof. repeat split. Qed.

(** ... and the min distance does not. *)
Theorem C05_min_dist_triangle_refuted : exists t : tree R, wf_tree t /\
  let D := depth_dist_leaves MinStyle t in
  exists i j k, i < n_leaves t /\ j < n_leaves t /\ k < n_leaves t /\
    (nth j (nth i D []) 0 + nth k (nth j D []) 0 < nth k (nth i D []) 0)%Z.
Proof. exact p_C05r. Qed.
Print Assumptions C05_min_dist_triangle_refuted.

Local Open Scope R_scope.

(** C06: the impurity distance is the impurity drop from the lowest common ancestor to the leaf; the second component is its maximum. *)
Theorem C06_impurity_dist_leaves : forall (t : tree R) (s : dstyle), wf_tree t ->
  exists D m, impurity_dist_leaves s t = Ok (D, m) /\
  length D = n_leaves t /\ (forall i, (i < n_leaves t)%nat -> length (nth i D []) = n_leaves t) /\
  (forall i j a, (i < n_leaves t)%nat -> (j < n_leaves t)%nat -> is_lca t a (leaf_id t i) (leaf_id t j) ->
     let imp v := nth v (t_imp t) 0 in
     nth j (nth i D []) 0 =
       match s with
       | Standard => imp a - imp (leaf_id t i)
       | MaxStyle => Rmax (imp a - imp (leaf_id t i)) (imp a - imp (leaf_id t j))
       | MinStyle => Rmin (imp a - imp (leaf_id t i)) (imp a - imp (leaf_id t j))
       end) /\
  (forall i, (i < n_leaves t)%nat -> nth i (nth i D []) 0 = 0) /\
  (forall i j, (i < n_leaves t)%nat -> (j < n_leaves t)%nat -> nth j (nth i D []) 0 <= m) /\
  (exists i j, (i < n_leaves t)%nat /\ (j < n_leaves t)%nat /\ nth j (nth i D []) 0 = m).
Proof. exact p_C06. Qed.
Print Assumptions C06_impurity_dist_leaves.

Example C06_ex : let imp := map (fun x => (x # 10)%Q) [7;2;3;2;1;0;0]%Z in
  let t := comb7 (repeat [0%Q] 7) (repeat 1%Q 7) imp in wf_tree t /\
  exists D m, impurity_dist_leaves MaxStyle t = Ok (D, m) /\ Qeq m (7 # 10) /\
    map (map Qred) D = [[0;1#2;7#10;7#10];[1#2;0;3#10;3#10];[7#10;3#10;0;1#10];[7#10;3#10;1#10;0]]%Q.
Proof. split; [reflexivity|]. eexists. eexists. split; [vm_compute; reflexivity|]. split; reflexivity. Qed.

Local Open Scope nat_scope.

(** C50: row v of the parent matrix lists the ancestors of v going up, repeating the root. *)
Theorem C50_parent_matrix : forall {T} (t : tree T), wf_tree t ->
  let (dv, pm) := depth_per_node_plus_parent t in
  dv = depth_per_node t /\ length pm = size t /\
  exists m, is_max_depth [t] m /\
  forall v, (v < size t)%nat -> length (nth v pm []) = S m /\
    forall k a, (k <= m)%nat -> (nth k (nth v pm []) 0%nat = a <-> upk t k v a).
Proof. exact (@p_C50). Qed.
Print Assumptions C50_parent_matrix.

Example C50_ex : snd (depth_per_node_plus_parent (comb7 (repeat [0%Q] 7) (repeat 1%Q 7) (repeat 0%Q 7))) =
  [[0;0;0;0];[1;0;0;0];[2;0;0;0];[3;2;0;0];[4;2;0;0];[5;4;2;0];[6;4;2;0]].
Proof. reflexivity. Qed.
