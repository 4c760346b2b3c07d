(** SpecDRel: vocabulary of the properties that compare two runs of depth_tune. *)
From Verif Require Import Base TreeSpec Spec M_Tree M_Smooth M_Depth SpecSmooth SpecRel SpecRel2.
From Coq Require Import Reals Permutation.
Local Open Scope R_scope.

(** other tuning data *)
Definition d_with {T} (o : depth_opts T) (X : list (list T)) (y : list T) : depth_opts T :=
  {| d_X_trained := d_X_trained o; d_y_trained := d_y_trained o; d_X_tune := Some X; d_y_tune := Some y; d_resample := d_resample o |}.
(** responses times [c], responses plus [b], features measured on the scales [phi] *)
Definition d_responses {T} (f : T -> T) (o : depth_opts T) : depth_opts T :=
  {| d_X_trained := d_X_trained o; d_y_trained := option_map (map f) (d_y_trained o);
     d_X_tune := d_X_tune o; d_y_tune := option_map (map f) (d_y_tune o); d_resample := d_resample o |}.
Definition d_rescaled (phi : nat -> R -> R) (o : depth_opts R) : depth_opts R :=
  {| d_X_trained := option_map (map (rescaled_obs phi)) (d_X_trained o); d_y_trained := d_y_trained o;
     d_X_tune := option_map (map (rescaled_obs phi)) (d_X_tune o); d_y_tune := d_y_tune o; d_resample := d_resample o |}.
(** the data have [p] features and the trees split on these *)
Definition d_features (p : nat) (o : depth_opts R) (ts : list (tree R)) : Prop :=
  (forall X x, d_X_trained o = Some X \/ d_X_tune o = Some X -> In x X -> length x = p) /\
  (forall t v, In t ts -> (v < size t)%nat -> is_leafb t v = false -> (nth v (t_feature t) 0 < p)%nat).
(** trees and losses mapped *)
Definition d_map {T} (f : tree T -> tree T) (g : T -> T) (r : list (tree T) * list T) : list (tree T) * list T :=
  (map f (fst r), map g (snd r)).
(** every tree of [ts] is [m] times in [ts'], in any order: place [q] of [ts'] holds tree [ix q] of
    [ts] with its out-of-bag and bootstrap rows *)
Definition regrouped {T} (m : nat) (ix : nat -> nat) (ts ts' : list (tree T)) (rd rd' : randomness) : Prop :=
  (0 < m)%nat /\ times m (seq 0 (length ts)) (map ix (seq 0 (length ts'))) /\
  forall q, (q < length ts')%nat -> nth_error ts' q = nth_error ts (ix q) /\ r_oob rd' q = r_oob rd (ix q) /\ r_boot rd' q = r_boot rd (ix q).
