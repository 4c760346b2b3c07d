(** SpecAll: vocabulary of the property statements about what smooth_all depends on. *)
From Verif Require Import Base TreeSpec Spec M_Level SpecSmooth SpecTune SpecLevel.
From Coq Require Import Reals Permutation.
Local Open Scope R_scope.

(** the same options apart from the data *)
Definition same_settings (o o' : all_opts R) : Prop :=
  a_no_constraint o' = a_no_constraint o /\ a_sanity o' = a_sanity o /\ a_parents_all o' = a_parents_all o /\ a_inner_assess o' = a_inner_assess o.

(** every leaf gets, at one common rate, as many observations and as large a sum of responses from the second data set as from the first *)
Definition in_proportion (t : tree R) (d d' : list (list R) * list R) : Prop :=
  exists r lf lf', 0 < r /\ routed t (fst d) lf /\ routed t (fst d') lf' /\
    forall i, (i < n_leaves t)%nat ->
      sum_sel (length (fst d')) (fun k => Nat.eqb (lf' k) i) (fun _ => 1) = r * sum_sel (length (fst d)) (fun k => Nat.eqb (lf k) i) (fun _ => 1) /\
      sum_sel (length (fst d')) (fun k => Nat.eqb (lf' k) i) (fun k => nth k (snd d') 0) = r * sum_sel (length (fst d)) (fun k => Nat.eqb (lf k) i) (fun k => nth k (snd d) 0).

(** a data set with observations, one response each *)
Definition usable (d : list (list R) * list R) : Prop := fst d <> [] /\ length (snd d) = length (fst d).

(** other tuning data, other training data *)
Definition all_with_tune {T} (o : all_opts T) (X : list (list T)) (y : list T) : all_opts T :=
  {| a_X := a_X o; a_y := a_y o; a_X_tune := Some X; a_y_tune := Some y; a_no_constraint := a_no_constraint o; a_sanity := a_sanity o;
     a_resample := a_resample o; a_parents_all := a_parents_all o; a_inner_assess := a_inner_assess o |}.
Definition all_with_trained {T} (o : all_opts T) (X : list (list T)) (y : list T) : all_opts T :=
  {| a_X := X; a_y := y; a_X_tune := a_X_tune o; a_y_tune := a_y_tune o; a_no_constraint := a_no_constraint o; a_sanity := a_sanity o;
     a_resample := a_resample o; a_parents_all := a_parents_all o; a_inner_assess := a_inner_assess o |}.

(** the trees in another order: place [q] holds tree [pi q] *)
Definition trees_reordered {T} (pi : nat -> nat) (ts ts' : list (tree T)) : Prop :=
  length ts' = length ts /\ Permutation (map pi (seq 0 (length ts))) (seq 0 (length ts)) /\
  forall q, (q < length ts)%nat -> nth_error ts' q = nth_error ts (pi q).

(** the tuning observations tell any two weight vectors apart: some observation's leaf is smoothed to different values *)
Definition determined (ts : list (tree R)) (pa : bool) (n : nat) (data : nat -> list (list R) * list R) (lf : nat -> nat -> nat) : Prop :=
  forall l l', length l = n -> length l' = n -> l <> l' ->
  exists q t x m, nth_error ts q = Some t /\ (x < length (fst (data q)))%nat /\ (forall k, (k < n)%nat -> level_mean t pa (lf q x) k (m k)) /\
    sumto n (fun k => nth k l 0 * m k) <> sumto n (fun k => nth k l' 0 * m k).

(** the optimisation step: every positive definite program is solved, and an answer is a best feasible vector of weights *)
Definition solves (nc : bool) (n : nat) (solve : bool -> list (list R) -> list R -> option (list R)) : Prop :=
  (forall G a, length a = n -> square n G -> symmetric n G -> pos_def n G -> exists l, solve nc G a = Some l) /\
  (forall G a l, length a = n -> solve nc G a = Some l -> feasible nc n l /\ forall l', feasible nc n l' -> qp_objective n G a l <= qp_objective n G a l').

(** the responses in other units *)
Definition all_scaled (c : R) (o : all_opts R) : all_opts R :=
  {| a_X := a_X o; a_y := map (Rmult c) (a_y o); a_X_tune := a_X_tune o; a_y_tune := option_map (map (Rmult c)) (a_y_tune o); a_no_constraint := a_no_constraint o; a_sanity := a_sanity o;
     a_resample := a_resample o; a_parents_all := a_parents_all o; a_inner_assess := a_inner_assess o |}.

(** every tree [m] times *)
Definition trees_copied {T} (m : nat) (ts ts' : list (tree T)) : Prop :=
  length ts' = (m * length ts)%nat /\ forall q, (q < length ts')%nat -> nth_error ts' q = nth_error ts (q mod length ts).
