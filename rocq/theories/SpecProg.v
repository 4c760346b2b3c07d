(** SpecProg: vocabulary of the property statements about the progress of plain descent. *)
From Verif Require Import Base TreeSpec Spec M_Tree M_Gamma M_Levels M_Smooth SpecSmooth SpecTune.
From Coq Require Import Reals.
Local Open Scope R_scope.

(** the same options with step size [t], the same randomness with other tree draws *)
Definition stepped {T} (t : T) (o : smooth_opts T) : smooth_opts T :=
  {| o_X_trained := o_X_trained o; o_y_trained := o_y_trained o; o_X_tune := o_X_tune o; o_y_tune := o_y_tune o;
     o_no_constraint := o_no_constraint o; o_sanity := o_sanity o; o_resample := o_resample o;
     o_t_fix := t; o_all_trees := o_all_trees o; o_lamb_draws := o_lamb_draws o;
     o_style := o_style o; o_dist := o_dist o; o_class_eps := o_class_eps o; o_class_loss := o_class_loss o;
     o_adam := o_adam o |}.
Definition drawing (draws : list nat) (rd : randomness) : randomness :=
  {| r_oob := r_oob rd; r_boot := r_boot rd; r_draws := draws |}.

(** [K] weights, all of it on distance (or level) [k] *)
Definition only (K k : nat) : list R := upd (repeat 0 K) k 1.

(** [p] says how much the tuning data ask for weight at distance [k].  An observation in
    leaf i contributes its residual there times the amount by which the leaves at distance k
    would pull the prediction away from leaf i's own value (relative to leaf i's weight). *)
Definition is_pull (o : smooth_opts R) (rd : randomness) (ts : list (tree R)) (K k : nat) (p : R) : Prop :=
  exists data lf kap, tuning_of Reg o rd ts data lf /\
  (forall q t i, nth_error ts q = Some t -> (i < n_leaves t)%nat -> smooth_kernel o ts t (only K k) i (kap q i)) /\
  p = sumto (length ts) (fun q => let t := nth q ts no_tree in
        sumto (length (fst (data q))) (fun x => let i := lf q x in
          (resp (snd (data q)) x 0 - leaf_v t 0 i) *
          (sumto (n_leaves t) (fun j => kap q i j * leaf_w t j * (leaf_v t 0 j - leaf_v t 0 i)) / leaf_w t i))).
