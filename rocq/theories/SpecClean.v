(** SpecClean: vocabulary of the property statements about smooth_clean. *)
From Verif Require Import Base TreeSpec Spec M_Tree M_Gamma M_Levels M_Sgd M_Smooth M_Clean SpecSmooth SpecTune.
From Coq Require Import Reals.
Local Open Scope R_scope.

(** observation o was not in the bootstrap sample of tree q *)
Definition out_of_bag (oob : nat -> list nat) (o q : nat) : bool :=
  if in_dec Nat.eq_dec o (oob q) then true else false.

(** number of trees (of nt) for which o is out of bag *)
Definition oob_count (oob : nat -> list nat) (nt o : nat) : R := sum_sel nt (out_of_bag oob o) (fun _ => 1).

(** plain mean of v q over the trees q for which o is out of bag *)
Definition oob_mean (oob : nat -> list nat) (nt o : nat) (v : nat -> R) : R :=
  sum_sel nt (out_of_bag oob o) v / oob_count oob nt o.

(** the out-of-bag rows of every tree are rows of the data *)
Definition oob_rows (oob : nat -> list nat) (nt n : nat) : Prop :=
  forall q o, (q < nt)%nat -> In o (oob q) -> (o < n)%nat.

(** [lf q o] is the leaf of tree q in which observation o ends *)
Definition leaves_of {N : Num R} (ts : list (tree R)) (X : mat R) (lf : nat -> nat -> nat) : Prop :=
  forall q t o, nth_error ts q = Some t -> (o < length X)%nat -> leaf_of t (nth o X []) (lf q o).

(** the row, in arrays stacked over the forest, of the leaf of tree q in which o ends *)
Definition leaf_row (ts : list (tree R)) (lf : nat -> nat -> nat) (q o : nat) : nat := (offset ts q + lf q o)%nat.

(** the weighted sum of a row of Gamma or eta, and their ratio (0 without mass) *)
Definition rowsum (M : mat R) (lamb : list R) (r : nat) : R := sumto (length lamb) (fun k => nth k (nth r M []) 0 * nth k lamb 0).
Definition smoothed (Gamma eta : mat R) (lamb : list R) (r : nat) : R :=
  if Req_EM_T (rowsum eta lamb r) 0 then 0 else rowsum Gamma lamb r / rowsum eta lamb r.

(** the arguments of smooth with the same distance and start as those of smooth_clean (nothing else
    matters for smooth_kernel, separated, draws_ok and matrices_exist) *)
Definition as_smooth (o : clean_opts R) : smooth_opts R :=
  {| o_X_trained := None; o_y_trained := None; o_X_tune := None; o_y_tune := None;
     o_no_constraint := false; o_sanity := false; o_resample := false; o_t_fix := 0; o_all_trees := false;
     o_lamb_draws := k_lamb_draws o; o_style := k_style o; o_dist := k_dist o;
     o_class_eps := 0; o_class_loss := L2; o_adam := None |}.

(** number of observations of [obs] that are out of bag for some of nt trees *)
Definition ever (oob : nat -> list nat) (nt o : nat) : bool := existsb (out_of_bag oob o) (seq 0 nt).
Definition n_ever (oob : nat -> list nat) (nt : nat) (obs : list nat) : R :=
  sumto (length obs) (fun j => if ever oob nt (nth j obs 0%nat) then 1 else 0).
(** mean squared error of predictions [p] over the observations of [obs] that are ever out of bag *)
Definition oob_mse (oob : nat -> list nat) (nt : nat) (obs : list nat) (y : list R) (p : nat -> R) : R :=
  sumto (length obs) (fun j => let o := nth j obs 0%nat in
    if ever oob nt o then (p o - nth o y 0) * (p o - nth o y 0) else 0) / n_ever oob nt obs.

(** [idx] and [w] are what generate_oob_info returns for a well-formed forest, Gamma and eta have one
    row per leaf of the forest *)
Definition oob_setting (ts : list (tree R)) (oob : nat -> list nat) (X : mat R) (lf : nat -> nat -> nat)
    (idx : list (list nat)) (w : list R) (Gamma eta : mat R) : Prop :=
  Forall wf_tree ts /\ ts <> [] /\ oob_rows oob (length ts) (length X) /\ leaves_of ts X lf /\
  generate_oob_info ts oob X = Ok (idx, w) /\
  length Gamma = offset ts (length ts) /\ length eta = offset ts (length ts).
(** the observations [obs] exist *)
Definition drawn (X : mat R) (obs : list nat) : Prop := obs <> [] /\ forall o, In o obs -> (o < length X)%nat.
