(** SpecTune: vocabulary of the property statements about tuning data. *)
From Verif Require Import Base TreeSpec Spec M_Tree M_Gamma M_Levels M_Smooth SpecSmooth.
From Coq Require Import Reals.
Local Open Scope R_scope.

(** [lf o] is the number of the leaf in which observation [o] ends, for each observation *)
Definition routed (t : tree R) (X : mat R) (lf : nat -> nat) : Prop :=
  forall o, (o < length X)%nat -> leaf_of t (nth o X []) (lf o) /\
    forall i, leaf_of t (nth o X []) i -> i = lf o.

(** response of observation o in column c *)
Definition resp (Y : mat R) (o c : nat) : R := nth c (nth o Y []) 0.

(** sum of squared errors, over the observations of (X, Y) and nc response columns, when
    every observation in leaf i is predicted by [pred i c] *)
Definition sse (nc : nat) (X Y : mat R) (lf : nat -> nat) (pred : nat -> nat -> R) : R :=
  sumto (length X) (fun o => sumto nc (fun c => (resp Y o c - pred (lf o) c) * (resp Y o c - pred (lf o) c))).

(** the same for a forest whose trees are predicted on their own data; [ts'] may be the
    forest itself or a copy with other leaf values *)
Definition no_tree : tree R := mkTree [] [] [] [] [] [] [].
Definition forest_sse (nc : nat) (data : nat -> mat R * mat R) (lf : nat -> nat -> nat) (ts' : list (tree R)) : R :=
  sumto (length ts') (fun q => sse nc (fst (data q)) (snd (data q)) (lf q)
                                 (fun i c => leaf_v (nth q ts' no_tree) c i)).

(** [data q], [lf q] are tree q's tuning data and the leaf of each observation *)
Definition tuning_of (kd : kind) (o : smooth_opts R) (rd : randomness) (ts : list (tree R))
    (data : nat -> mat R * mat R) (lf : nat -> nat -> nat) : Prop :=
  forall q t, nth_error ts q = Some t -> tuning_data kd o rd q = Ok (data q) /\ routed t (fst (data q)) (lf q).
