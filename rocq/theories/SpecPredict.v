(** SpecPredict: vocabulary of the property statements about predictions. *)
From Verif Require Import Base TreeSpec Spec M_Tree M_Gamma M_Levels M_Smooth SpecSmooth SpecTune.
From Coq Require Import Reals.
Local Open Scope R_scope.

(** observation [x] ends in leaf number [lf q] of tree number [q] *)
Definition ends (ts : list (tree R)) (x : list R) (lf : nat -> nat) : Prop :=
  forall q t, nth_error ts q = Some t -> leaf_of t x (lf q).

(** mean of [f] over the m trees *)
Definition tree_mean (m : nat) (f : nat -> R) : R := sumto m f / INR m.

(** mean over the trees of the values of the leaves [lf] *)
Definition leaf_mean (ts : list (tree R)) (lf : nat -> nat) : R :=
  tree_mean (length ts) (fun q => leaf_v (nth q ts no_tree) 0 (lf q)).

(** two observations fall into the same leaf of every tree *)
Definition same_leaves (ts : list (tree R)) (x x' : list R) : Prop := forall lf, ends ts x lf <-> ends ts x' lf.

(** every leaf has training mass left under the weights [lamb] *)
Definition mass_left (o : smooth_opts R) (ts : list (tree R)) (lamb : list R) : Prop :=
  forall q t i kap, nth_error ts q = Some t -> (i < n_leaves t)%nat -> smooth_kernel o ts t lamb i kap -> kmass t kap <> 0.

(** [lo q] and [hi q] bound the leaf values of tree number [q] *)
Definition leaf_bounds (ts : list (tree R)) (lo hi : nat -> R) : Prop :=
  forall q t j, nth_error ts q = Some t -> (j < n_leaves t)%nat -> lo q <= leaf_v t 0 j <= hi q.

(** the same forest with other leaf values *)
Definition relabelled (ts ts' : list (tree R)) : Prop :=
  length ts' = length ts /\ forall q t, nth_error ts q = Some t -> exists t', nth_error ts' q = Some t' /\ same_but_leaf_values t t'.

(** the first entry with the largest value *)
Definition first_largest (l : list R) (k : nat) : Prop :=
  (k < length l)%nat /\ (forall j, (j < length l)%nat -> nth j l 0 <= nth k l 0) /\ (forall j, (j < k)%nat -> nth j l 0 < nth k l 0).

(** [y] and [X] are handed to smooth as tuning data, for all trees *)
Definition tunes_on (o : smooth_opts R) (X : mat R) (y : list R) : Prop :=
  o_resample o = false /\ o_X_tune o = Some X /\ o_y_tune o = Some (map (fun v => [v]) y) /\ length y = length X.

(** mean squared error when observation o is predicted by [p o] *)
Definition mse_of (n : nat) (y p : nat -> R) : R := sumto n (fun o => (y o - p o) * (y o - p o)) / INR n.

(** mean squared error of tree number [q] alone on (X, y) *)
Definition alone (pred : list (tree R) -> list R -> R) (ts : list (tree R)) (X : mat R) (y : list R) (q : nat) : R :=
  mse_of (length X) (fun o => nth o y 0) (fun o => pred [nth q ts no_tree] (nth o X [])).
(** mean squared distance between the predictions of tree number [q] and those of the forest *)
Definition apart (pred : list (tree R) -> list R -> R) (ts : list (tree R)) (X : mat R) (q : nat) : R :=
  mse_of (length X) (fun o => pred ts (nth o X [])) (fun o => pred [nth q ts no_tree] (nth o X [])).
