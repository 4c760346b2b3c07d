(** M_Null: model of check_in_null (smooth_level.py:433-483). *)
From Verif Require Import Base TreeSpec M_Gamma M_Level.
From Coq Require Import QArith Qround.

Section Model.
Context {T : Type} {NT : Num T}.

(** smooth_level.py:457-459: None, or a number that is not negative and equals its floor *)
Definition tol_ok (tol_pow : option Q) : bool :=
  match tol_pow with
  | None => true
  | Some q => (Qle_bool 0 q && Qeq_bool (inject_Z (Qfloor q)) q)%bool
  end.

(** smooth_level.py:433-483 [check_in_null].  [null_space] is scipy.linalg.null_space and
    [matrix_rank tol] np.linalg.matrix_rank with the tolerance that tol_pow selects; both matrices
    are given as lists of columns.  np.concatenate needs v to have as many rows as the null space,
    which is the number of columns of G. *)
Definition check_in_null (null_space : mat T -> list (list T)) (matrix_rank : option Q -> list (list T) -> nat)
    (G : mat T) (v : list T) (tol_pow : option Q) : result bool :=
  if negb (tol_ok tol_pow) then Err ValueError
  else
    let nspace := null_space G in
    let null_rank := length nspace in
    if (null_rank =? 0)%nat then Ok false
    else if negb (length v =? length (nth 0 nspace []))%nat then Err ValueError
    else
      let large_mat := nspace ++ [v] in
      Ok (matrix_rank tol_pow large_mat =? null_rank)%nat.

(** what may be passed as sanity_check of smooth_all (smooth_level.py:488): a boolean, a dictionary, something
    else.  Of a dictionary only the values under "tol_pow" and "sanity check" matter (None: no such key); the
    second may be other than a boolean (Some None).  A tol_pow that is neither None nor a number is not
    modelled (check_in_null would raise TypeError). *)
Inductive sanity_arg :=
| SBool (b : bool)
| SDict (tol_pow : option (option Q)) (sanity : option (option bool))
| SOther.

(** smooth_level.py:554-566 *)
Definition read_sanity (a : sanity_arg) : result (bool * option Q) :=
  match a with
  | SBool b => Ok (b, None)
  | SDict (Some tol) (Some (Some b)) => Ok (b, tol)
  | SDict _ _ => Err ValueError
  | SOther => Err ValueError
  end.

Definition with_sanity (b : bool) (o : all_opts T) : all_opts T :=
  {| a_X := a_X o; a_y := a_y o; a_X_tune := a_X_tune o; a_y_tune := a_y_tune o; a_no_constraint := a_no_constraint o;
     a_sanity := b; a_resample := a_resample o; a_parents_all := a_parents_all o; a_inner_assess := a_inner_assess o |}.

(** smooth_level.py:485-733 [smooth_all] with its sanity_check argument (the field a_sanity of [o] is
    ignored) and the call of check_in_null *)
Definition smooth_all_call (fuel : nat) (feps : T) (solve : bool -> mat T -> list T -> option (list T))
    (null_space : mat T -> list (list T)) (matrix_rank : option Q -> list (list T) -> nat)
    (o : all_opts T) (sanity : sanity_arg) (oob boot : nat -> list nat) (ts : list (tree T))
    : result (list (tree T) * list T) :=
  if negb (length (a_y o) =? length (a_X o))%nat then Err ValueError
  else
    do '(b, tol) <- read_sanity sanity;
    smooth_all_with fuel feps solve (fun G v => check_in_null null_space matrix_rank G v tol) (with_sanity b o) oob boot ts.

End Model.
