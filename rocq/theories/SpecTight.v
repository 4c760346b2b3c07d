(** SpecTight: which starts the clean descent takes; overwriting entries of a dictionary. *)
From Verif Require Import Base SpecTorch M_Pytorch.
From Coq Require Import Reals.
Local Open Scope R_scope.

(** a start for [K] weights: the right length and, with the constraint, no negative entry and a sum
    within 1e-8 + 1e-5 of 1 *)
Definition start_fine (K : nat) (cons : bool) (init : list R) : Prop :=
  K = length init /\
  (cons = true -> Rabs (nsum init - 1) <= / 100000000 + / 100000 /\ forall x, In x init -> 0 <= x).

(** [d'] is [d] with the entries of the keys Center 0 .. Center (p-1), present or not, replaced by one
    value each, which satisfies [P] *)
Definition overwritten {A} (p : nat) (P : nat -> A -> Prop) (d d' : list (key * A)) : Prop :=
  NoDup (map fst d') /\
  (forall k, (forall c, (c < p)%nat -> k <> Center c) -> forall v, In (k, v) d' <-> In (k, v) d) /\
  (forall c, (c < p)%nat -> exists v, P c v /\ forall v', In (Center c, v') d' <-> v' = v).
