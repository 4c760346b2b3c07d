(** SpecQuantile: quantiles of a list of numbers and the intervals impurity distances are sorted into. *)
From Verif Require Import Base TreeSpec Spec M_Tree M_Gamma.
From Coq Require Import Reals Sorting.Permutation Sorting.Sorted.
Local Open Scope R_scope.

(** the value at (real) position [pos] of the numbers [a] in increasing order, linear between neighbours *)
Definition value_at (a : list R) (pos x : R) : Prop :=
  exists s k, Permutation a s /\ StronglySorted Rle s /\ (k < length s)%nat /\ INR k <= pos < INR (S k) /\
    x = nth k s 0 + (pos - INR k) * (nth (S k) s (nth k s 0) - nth k s 0).

(** [q] are the quantiles 0/n, 1/n, .., n/n of [a] *)
Definition is_quantiles (n : nat) (a q : list R) : Prop :=
  length q = S n /\ forall i, (i <= n)%nat -> value_at a (INR i * (INR (length a) - 1) / INR n) (nth i q 0).

(** half of the smallest positive number of [vals], and at most 1 *)
Definition half_smallest (vals : list R) (u : R) : Prop :=
  exists m, In m vals /\ 0 < m /\ (forall x, In x vals -> 0 < x -> m <= x) /\ u = Rmin m 2 / 2.

(** the inner boundaries made of the boundaries [br]: those that are positive and not the largest,
    and [u] when it is smaller than all of them *)
Definition inner (br : list R) (x : R) : Prop := In x br /\ 0 < x /\ exists y, In y br /\ x < y.
Definition bin_edges (br : list R) (u : R) (edges : list R) : Prop :=
  StronglySorted Rlt edges /\
  forall x, In x edges <-> inner br x \/ (x = u /\ forall z, inner br z -> u < z).

(** [k] boundaries lie below [x] *)
Definition bin_of (edges : list R) (x : R) (k : nat) : Prop :=
  (k <= length edges)%nat /\ (forall m, (m < k)%nat -> nth m edges 0 < x) /\
  (forall m, (k <= m < length edges)%nat -> x <= nth m edges 0).

(** [D] holds the level of every leaf pair, given its distances [Dm] and the boundaries [br] *)
Definition binned (br : list R) (Dm : list (list R)) (D : list (list Z)) (e : nat) : Prop :=
  exists u edges, half_smallest (concat Dm) u /\ bin_edges br u edges /\ e = S (S (length edges)) /\ length D = length Dm /\
    forall i j, (i < length Dm)%nat -> (j < length (nth i Dm []))%nat ->
      exists k, nth j (nth i D []) 0%Z = Z.of_nat k /\ bin_of edges (nth j (nth i Dm []) 0) k.

(** the matrices of impurity distances of some trees *)
Definition distances (s : dstyle) (ts : list (tree R)) (Dms : list (list (list R))) : Prop :=
  Forall2 (fun t Dm => exists m, impurity_dist_leaves s t = Ok (Dm, m)) ts Dms.
