(** M_Oob: model of _append_oob_values (tune_prune.py:442-507). *)
From Verif Require Import Base TreeSpec M_Tree M_Gamma M_Levels M_Prox M_Grad M_Sgd M_Smooth M_Prune.

(** the two new columns of a node: n_oob and R_oob({t}) *)
Record orow (T : Type) := mkOrow { or_n : T; or_risk : T }.
Arguments mkOrow {T}. Arguments or_n {T}. Arguments or_risk {T}.

Section Model.
Context {T : Type} {NT : Num T}.
Local Open Scope num_scope.
Implicit Type t : tree T.

(** tune_prune.py:468: column v of [oob_decision_path], one entry per out-of-bag observation *)
Definition visits t (X : mat T) (v : nat) : list T := map (fun x => nth v (path_row t x) n0) X.

(** tune_prune.py:469 [n_oob]; the counts are numbers *)
Definition n_oob t (X : mat T) (v : nat) : T := nsum (visits t X v).

(** tune_prune.py:473-484: row v of [oob_decision_path.T @ y_tune] at the column that is the
    node's majority class.  [y_tune] has one column per label present (pd.get_dummies), so a
    larger column number raises IndexError.  A count of zero makes 0/0, a NaN that line 484
    sets to 0. *)
Definition oob_accuracy t (X : mat T) (y : list T) (v : nat) : result T :=
  let Y := get_dummies y in
  let row := map (fun c => dot (visits t X v) (col c Y)) (seq 0 (length (sorted_set y))) in
  match nth_error row (argmax (nth v (t_value t) [])) with
  | None => Err IndexError
  | Some c => Ok (if n_oob t X v =? n0 then n0 else c / n_oob t X v)
  end.

(** tune_prune.py:494-500: [(D.T * y).T - value], set to 0 where D is 0, squared, mean over
    the observations *)
Definition oob_error t (X : mat T) (y : list T) (v : nat) : T :=
  let diff := map2 (fun d yi => if d =? n0 then n0 else d * yi - nth 0 (nth v (t_value t) []) n0)
                   (visits t X v) y in
  nsum (map (fun e => e * e) diff) / nof (length diff).

(** tune_prune.py:442-507 [_append_oob_values].  [oob]: the rows of
    _generate_unsampled_indices(tree.random_state, n).  scikit-learn rejects an array without
    rows with ValueError.  pd.concat puts the new data frame below the old one: a row
    has the columns of prune_df or the two new ones, the others are NaN ([None]). *)
Definition append_oob_values (df : list (prow T)) (o : tree_object T) (X : mat T) (y : list T) (oob : list nat)
    : result (list (option (prow T) * option (orow T))) :=
  match o with
  | OtherTree _ => Err ValueError
  | TreeObj kd t =>
      do Xt <- take_rows X oob;
      do yt <- take_rows y oob;
      if Nat.eqb (length Xt) 0 then Err ValueError
      else
        do risk <- match kd with
                   | Reg => Ok (map (oob_error t Xt yt) (seq 0 (size t)))
                   | Class _ => mapM (oob_accuracy t Xt yt) (seq 0 (size t))
                   end;
        Ok (map (fun r => (Some r, None)) df ++
            map2 (fun v r => (None, Some (mkOrow (n_oob t Xt v) r))) (seq 0 (size t)) risk)
  end.

End Model.
