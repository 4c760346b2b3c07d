(** SpecCopy: vocabulary of the property statements about a forest that holds every tree several times. *)
From Verif Require Import Base TreeSpec Spec M_Tree M_Smooth.

(** [m] copies of the forest, one after the other: place [q] of the new forest holds tree
    [q mod n] with its out-of-bag and bootstrap rows.  Every step of the new run draws a copy of
    the tree the old run draws. *)
Definition copied {T} (m : nat) (ts ts' : list (tree T)) (rd rd' : randomness) : Prop :=
  0 < m /\ length ts' = m * length ts /\
  (forall q, q < length ts' -> nth_error ts' q = nth_error ts (q mod length ts) /\
     r_oob rd' q = r_oob rd (q mod length ts) /\ r_boot rd' q = r_boot rd (q mod length ts)) /\
  Forall2 (fun d d' => (d' mod length ts') mod length ts = d mod length ts) (r_draws rd) (r_draws rd').
