(** SpecOob: what the columns n_oob and R_oob({t}) are compared with. *)
From Verif Require Import Base TreeSpec Spec M_Prune M_Oob.
From Coq Require Import Reals Sorting.Sorted.
Local Open Scope R_scope.

(** rows [idx] of the array [l] *)
Definition rows_of {A} (l : list A) (idx : list nat) (out : list A) : Prop :=
  length out = length idx /\ forall k, (k < length idx)%nat -> nth_error l (nth k idx 0%nat) = nth_error out k.

(** [sel] picks the observations that pass through node v *)
Definition passes (t : tree R) (X : list (list R)) (v : nat) (sel : nat -> bool) : Prop :=
  forall i, (i < length X)%nat -> (sel i = true <-> reaches t (nth i X []) v).

(** [cats] lists the labels occurring in [y], in increasing order *)
Definition label_list (y cats : list R) : Prop :=
  StronglySorted Rlt cats /\ forall u, In u cats <-> In u y.

(** [y] has labels 0, ..., K-1, each at least once *)
Definition all_labels (K : nat) (y : list R) : Prop :=
  (forall c, (c < K)%nat -> In (INR c) y) /\ forall u, In u y -> exists c, (c < K)%nat /\ u = INR c.

(** the two data frames below each other: no row has entries in both *)
Definition stacked {A B} (df : list A) (new : list B) (out : list (option A * option B)) : Prop :=
  out = map (fun r => (Some r, None)) df ++ map (fun r => (None, Some r)) new.
