(** M_Prox: model of prox_project and prox_project_ce (smooth_base.py:110-216). *)
From Verif Require Import Base.

Section Model.
Context {T : Type} {NT : Num T}.
Local Open Scope num_scope.

(** [np.sort(y)[::-1]] (smooth_base.py:145): descending order.  Only values
    matter, so insertion sort stands for numpy's sort. *)
Fixpoint insert_desc (x : T) (l : list T) : list T :=
  match l with
  | [] => [x]
  | y :: r => if x <? y then y :: insert_desc x r else x :: l
  end.
Definition sort_desc (l : list T) : list T := fold_right insert_desc [] l.

(** [y[y < 0] = 0] (smooth_base.py:143, 152) *)
Definition clip0 (y : list T) : list T := map (fun x => if x <? n0 then n0 else x) y.

(** smooth_base.py:148 and 150: the thresholds [(sv - 1)/(np.arange(1, n+1))] *)
Definition thresholds (sv : list T) : list T :=
  map2 (fun s k => (s - n1) / nof k) sv (seq 1 (length sv)).

(** smooth_base.py:110-154 [prox_project].  Returns the result and the content
    of the caller's array afterwards (its negative entries are overwritten,
    line 143).  Line 148 compares the *unsorted* [y] with the thresholds.
    [sv[rho]] and [rho + 1] at line 150 pick the thresholds at the positions
    [rho]; np.max raises ValueError when there is none. *)
Definition prox_project (y : list T) : result (list T * list T) :=
  let y := clip0 y in
  let u := sort_desc y in
  let sv := cumsum u in
  let rho := map2 (fun yi ti => ti <? yi) y (thresholds sv) in
  do m <- nmaximum (mask_select rho (thresholds sv));
  let theta := nmax m n0 in
  Ok (clip0 (map (fun x => x - theta) y), y).

(** smooth_base.py:156-216 [prox_project_ce]: the first statement (line 189) is
    [assert False]. *)
Definition prox_project_ce (y : list T) (class_eps : T) : result (list T) :=
  Err AssertionError.

End Model.
