(** SpecOobs: two data sets that tell smooth_clean the same. *)
From Verif Require Import Base TreeSpec Spec M_Tree M_Gamma M_Levels M_Grad M_Sgd M_Smooth M_Clean SpecSmooth SpecTune SpecClean.
From Coq Require Import Reals Permutation.

(** the arguments with other data *)
Definition clean_with (o : clean_opts R) (X : mat R) (y : list R) : clean_opts R :=
  {| k_X := X; k_y := y; k_no_constraint := k_no_constraint o; k_sanity := k_sanity o; k_t_fix := k_t_fix o;
     k_all_obs := k_all_obs o; k_use_full := k_use_full o; k_n_obs := k_n_obs o; k_lamb_draws := k_lamb_draws o;
     k_style := k_style o; k_dist := k_dist o; k_adam := k_adam o |}.

(** observation [o] of the new data stands for observation [pi o] of the old data: it is out of bag for the same
    trees, falls into the same leaves of these trees and has, if there is such a tree, the same response.  Nothing
    is said about the leaves of trees that were trained on it. *)
Definition same_oob (ts : list (tree R)) (pi : nat -> nat) (oob oob' : nat -> list nat) (X X' : mat R) (y y' : list R) : Prop :=
  length X' = length X /\ length y' = length y /\ Permutation (map pi (seq 0 (length X))) (seq 0 (length X)) /\
  (forall o q, (o < length X)%nat -> (q < length ts)%nat -> (In o (oob' q) <-> In (pi o) (oob q))) /\
  (forall o q t i, (o < length X)%nat -> nth_error ts q = Some t -> In (pi o) (oob q) ->
     leaf_of t (nth (pi o) X []) i -> leaf_of t (nth o X' []) i) /\
  (forall o q, (o < length X)%nat -> (q < length ts)%nat -> In (pi o) (oob q) -> nth o y' 0%R = nth (pi o) y 0%R).
(** the steps look at the same observations *)
Definition same_draws (pi : nat -> nat) (n : nat) (draws draws' : list (list nat)) : Prop :=
  Forall2 (fun d d' => d = map pi d' /\ forall o, In o d' -> (o < n)%nat) draws draws'.
