(** SpecNamed: vocabulary of the statements about named distances and precomputed matrices. *)
From Verif Require Import Base TreeSpec M_Analysis M_Named.
From Coq Require Import Reals.
From Coq Require Strings.String.
Import Coq.Strings.String.StringSyntax.
Local Open Scope string_scope.
Local Open Scope list_scope.

(** the argument stands for the name [s]: the name itself or a list of at least two names that starts with it *)
Definition stands_for (a : names) (s : str) : Prop := a = One s \/ exists s2 l, a = Many (s :: s2 :: l).

(** the name of a style *)
Definition style_name (s : dstyle) : str :=
  match s with Standard => lit "standard" | MaxStyle => lit "max" | MinStyle => lit "min" end.

(** a matrix of [w] columns with entries 0 and 1 *)
Definition zero_one (w : nat) (V : list (list nat)) : Prop :=
  forall r, In r V -> length r = w /\ forall x, In x r -> x = 0 \/ x = 1.

(** node [c] is on the path of row [r] and not on that of row [s] *)
Definition only_first (r s : list nat) (c : nat) : bool := andb (Nat.eqb (nth c r 0) 1) (Nat.eqb (nth c s 0) 0).
(** how many nodes are *)
Definition apart (w : nat) (r s : list nat) : nat := length (filter (only_first r s) (seq 0 w)).

(** a distance in one direction and in the other, by style *)
Definition by_style (s : dstyle) (a b : nat) : nat :=
  match s with Standard => a | MaxStyle => Nat.max a b | MinStyle => Nat.min a b end.
Definition by_style_R (s : dstyle) (a b : R) : R :=
  match s with Standard => a | MaxStyle => Rmax a b | MinStyle => Rmin a b end.

(** the impurity lost on the way down to row [r] where row [s] is not *)
Definition lost (w : list R) (r s : list nat) : R :=
  (- fold_right (fun c acc => nth c w 0 + acc) 0 (filter (only_first r s) (seq 0 (length w))))%R.

(** how many ordered pairs of leaves the trees have *)
Definition n_pairs {T} (ts : list (tree T)) : nat := fold_right (fun t acc => n_leaves t * n_leaves t + acc) 0 ts.
(** where tree [q]'s pair of leaves (i, j) stands among the values of all trees *)
Definition place {T} (ts : list (tree T)) (q i j : nat) : nat :=
  (n_pairs (firstn q ts)
   + (i * match nth_error ts q with Some t => n_leaves t | None => 0 end + j))%nat.

(** same arguments, other ones for tree, matrix and vector, or for levels *)
Definition dm_from {T} (a : dm_args T) tr V w : dm_args T := mkDm tr V w (dm_style a) (dm_dist a) (dm_levels a).
