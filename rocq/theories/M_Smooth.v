(** M_Smooth: model of smooth (smooth_base.py:1057-1422). *)
From Verif Require Import Base TreeSpec M_Tree M_Gamma M_Levels M_Prox M_Grad M_Sgd.

Section Model.
Context {T : Type} {NT : Num T}.
Local Open Scope num_scope.
Implicit Type t : tree T.

(** ** Observations in leaves *)

(** nodes visited by observation [x] from node [v]; sklearn goes left when
    x[feature] <= threshold.  (scikit-learn's decision_path, called at
    smooth_base.py:1266; the library's float32 conversion is not modelled.) *)
Fixpoint path_nodes (fuel : nat) t (x : list T) (v : nat) : list nat :=
  if is_leafb t v then [v] else
  match fuel with
  | O => [v]
  | S f => v :: path_nodes f t x
             (Z.to_nat (if nleb (nth (nth v (t_feature t) O) x n0) (nth v (t_thresh t) n0)
                        then lc t v else rc t v))
  end.

(** a row of [t.decision_path(X)]: 1 at visited nodes *)
Definition path_row t (x : list T) : list T :=
  let p := path_nodes (size t) t x 0 in
  map (fun v => if existsb (Nat.eqb v) p then n1 else n0) (seq 0 (size t)).

(** smooth_base.py:1266-1267: [obs_V_leaf], one row per observation and one column
    per leaf.  scikit-learn rejects an array without rows with ValueError. *)
Definition obs_V_leaf t (X : mat T) : result (mat T) :=
  match X with
  | [] => Err ValueError
  | _ => Ok (map (fun x => leaf_select t (path_row t x)) X)
  end.

(** smooth_base.py:1234 *)
Definition num_leaf t : nat := length (filter (fun c => Z.eqb c (-1)) (t_left t)).

(** smooth_base.py:1266-1285, one tree: target rows (one entry for regression, one
    per class for classification) and weights per leaf.  [nc] is the number of
    response columns y_all has; a different number of columns in [y] makes
    np.concatenate raise ValueError, as does a different number of rows at the
    matrix product. *)
Definition leaf_targets (nc : nat) t (X y : mat T) : result (mat T * list T) :=
  do V <- obs_V_leaf t X;
  if negb (Nat.eqb (length y) (length X)) then Err ValueError
  else if negb (forallb (fun r => Nat.eqb (length r) nc) y) then Err ValueError
  else
    let cols := transpose n0 (num_leaf t) V in
    let w := map nsum cols in
    let wdiv := fill1 w in
    Ok (map2 (fun cl d => map (fun c => dot cl (col c y) / d) (seq 0 nc)) cols wdiv, w).

(** [X[idx,:]], [y[idx]]; IndexError when an index is out of range
    (smooth_base.py:1249-1250, 1259-1260) *)
Definition take_rows {A} (l : list A) (idx : list nat) : result (list A) :=
  mapM (fun i => match nth_error l i with Some x => Ok x | None => Err IndexError end) idx.

(** [np.array(pd.get_dummies(y))]: one column per distinct label present, in
    increasing order (smooth_base.py:1253, 1263) *)
Definition get_dummies (y : list T) : mat T :=
  let cats := sorted_set y in
  map (fun v => map (fun c => if v =? c then n1 else n0) cats) y.

(** the response as rows: [y] for regression, one-hot for classification *)
Definition response_rows (kd : kind) (y : list T) : mat T :=
  match kd with Reg => map (fun v => [v]) y | Class _ => get_dummies y end.

(** ** Options *)

Inductive loss_choice := CE | L2.
(** distance_style with parents_all and levels (parents_all=True with impurity
    distances is not modelled) *)
Inductive dist_choice := DDepth (parents_all : bool) | DImp (levels : levels_arg T).

(** the arguments of smooth (smooth_base.py:1057-1070).  [o_X_trained] and
    [o_y_trained]: training data; labels are numbers.  [o_y_tune]: rows, [y] for
    regression and a one-hot row for classification.  [o_lamb_draws]: None for
    initial_lamb_seed=None, otherwise the stream of uniform draws after seeding,
    of which the first K are used (line 1293-1295).  verbose has no effect on the result. *)
Record smooth_opts := {
  o_X_trained : option (mat T); o_y_trained : option (list T);
  o_X_tune : option (mat T); o_y_tune : option (mat T);
  o_no_constraint : bool; o_sanity : bool; o_resample : bool;
  o_t_fix : T; o_all_trees : bool; o_lamb_draws : option (nat -> T);
  o_style : dstyle; o_dist : dist_choice;
  o_class_eps : T; o_class_loss : loss_choice; o_adam : option (adam_par T)
}.

(** the randomness smooth consumes: out-of-bag rows of tree q (determined by the
    tree's random_state), fresh bootstrap rows for tree q, and one draw per
    descent step (sgd_max_num = length of the list) *)
Record randomness := {
  r_oob : nat -> list nat; r_boot : nat -> list nat; r_draws : list nat
}.

(** the first argument: a random forest or something else *)
Inductive rf_object := Forest (kd : kind) (ts : list (tree T)) | OtherObject.

(** the returned tuple; a forest comes with its attribute .lamb *)
Record smooth_out := {
  s_forest : list (tree T); s_lamb : list T;
  s_forest2 : list (tree T); s_lamb2 : list T;
  s_lamb_last : list T; s_costs : list T
}.

(** ** Pieces *)

(** smooth_base.py:1170-1173 *)
Definition isNone {A} (o : option A) : bool := match o with None => true | _ => false end.
Definition oob_logic (o : smooth_opts) : bool :=
  ((isNone (o_X_tune o) || isNone (o_y_tune o)) && negb (o_resample o))%bool.

(** smooth_base.py:1243-1263: the tuning data of tree number q *)
Definition tuning_data (kd : kind) (o : smooth_opts) (rd : randomness) (q : nat)
    : result (mat T * mat T) :=
  if (oob_logic o || o_resample o)%bool then
    match o_X_trained o, o_y_trained o with
    | Some X, Some y =>
        let idx := if oob_logic o then r_oob rd q else r_boot rd q in
        do Xt <- take_rows X idx;
        do yt <- take_rows y idx;
        Ok (Xt, response_rows kd yt)
    | _, _ => Err TypeError
    end
  else match o_X_tune o, o_y_tune o with
       | Some X, Some y => Ok (X, y)
       | _, _ => Err TypeError
       end.

(** smooth_base.py:1231-1285: all trees; state (y_all, weight_all) *)
Definition add_targets (kd : kind) (o : smooth_opts) (rd : randomness)
    (acc : mat T * list T) (it : nat * tree T) : result (mat T * list T) :=
  do '(X, y) <- tuning_data kd o rd (fst it);
  do '(yl, w) <- leaf_targets (n_gamma kd) (snd it) X y;
  Ok (fst acc ++ yl, snd acc ++ w).
Definition all_targets (kd : kind) (o : smooth_opts) (rd : randomness) (ts : list (tree T))
    : result (mat T * list T) :=
  foldM (add_targets kd o rd) (combine (seq 0 (length ts)) ts) ([], []).

(** smooth_base.py:1290-1300: the starting weights.  For classification every entry
    is raised by class_eps/K and the vector is normalised (twice, which is once
    in exact arithmetic). *)
Definition normalise (l : list T) : list T := map (fun x => x / nsum l) l.
Definition initial_lamb (kd : kind) (o : smooth_opts) (K : nat) : list T :=
  let l0 := match o_lamb_draws o with
            | None => upd (repeat n0 K) 0 n1
            | Some u => normalise (map u (seq 0 K))
            end in
  match kd with
  | Reg => l0
  | Class _ => normalise (normalise (map (fun x => x + n1 * o_class_eps o / nof (length l0)) l0))
  end.

(** smooth_base.py:1370-1373 *)
Definition new_values (Gamma eta : mat T) (lamb : list T) : list T :=
  map2 (fun g e => if e =? n0 then n0 else g / (if e =? n0 then n1 else e))
       (mv Gamma lamb) (mv eta lamb).

(** smooth_base.py:1380-1385: [reshape((-1,num_classes), order="F")]: entry (r,c) is
    flat[c*rows + r]; for regression (nc = 1) this turns numbers into rows *)
Definition unflatten (nc rows : nat) (flat : list T) : mat T :=
  map (fun r => map (fun c => nth (c * rows + r) flat n0) (seq 0 nc)) (seq 0 rows).

(** the tree with new value rows *)
Definition set_values t (v : mat T) : tree T :=
  mkTree (t_left t) (t_right t) (t_feature t) (t_thresh t) v (t_weight t) (t_imp t).

(** smooth_base.py:1392-1397: [tree.value[leaves] = Y[start:start+num_leaf]];
    ValueError when the slice has the wrong number of rows (a single row would
    be broadcast) *)
Definition write_leaves (Y : mat T) (start : nat) t : result (tree T) :=
  let sl := firstn (num_leaf t) (skipn start Y) in
  if Nat.eqb (length sl) (num_leaf t) then
    Ok (set_values t (mask_assign (map (fun c => Z.eqb c (-1)) (t_left t)) (t_value t) sl))
  else match sl with
       | [r] => Ok (set_values t (mask_assign (map (fun c => Z.eqb c (-1)) (t_left t))
                                              (t_value t) (repeat r (num_leaf t))))
       | _ => Err ValueError
       end.

(** smooth_base.py:1387-1399: first loop, [start_idx += num_leaf] *)
Fixpoint write_forest (Y : mat T) (start : nat) (ts : list (tree T)) : result (list (tree T)) :=
  match ts with
  | [] => Ok []
  | t :: r => do t' <- write_leaves Y start t;
              do r' <- write_forest Y (start + num_leaf t) r;
              Ok (t' :: r')
  end.

(** smooth_base.py:1404-1416: second loop; line 1416 advances start_idx instead of
    start_idx2, so every slice starts at 0 *)
Fixpoint write_forest2 (Y : mat T) (start2 : nat) (ts : list (tree T)) : result (list (tree T)) :=
  match ts with
  | [] => Ok []
  | t :: r => do t' <- write_leaves Y start2 t;
              do r' <- write_forest2 Y start2 r;
              Ok (t' :: r')
  end.

(** smooth_base.py:1210-1215 *)
Definition forest_matrices (kd : kind) (o : smooth_opts) (ts : list (tree T))
    : result (list (mat T) * mat T * list nat) :=
  match o_dist o with
  | DDepth pa => create_Gamma_eta_forest kd pa (o_style o) ts
  | DImp lv => create_Gamma_eta_forest_imp kd (o_style o) lv ts
  end.

(** smooth_base.py:1302-1315: all_trees gives every row tree index 0; for
    classification everything is flattened class by class: Gamma by reshape
    (its class slabs one after the other), eta / weights / indices by np.tile,
    targets by [y_all.T.reshape(-1)].  With one response column (regression)
    these operations change nothing. *)
Definition flatten (kd : kind) (o : smooth_opts) (G : list (mat T)) (E : mat T)
    (Ti : list nat) (Y : mat T) (W : list T) : problem T :=
  let nc := n_gamma kd in
  let Ti' := if o_all_trees o then map (fun _ => O) Ti else Ti in
  {| p_y := concat (transpose n0 nc Y);
     p_w := concat (repeat W nc);
     p_Gamma := concat G;
     p_eta := concat (repeat E nc);
     p_tidx := concat (repeat Ti' nc) |}.

(** smooth_base.py:1318-1361: the descent; [lg] is np.log *)
Definition optimise (lg : T -> T) (kd : kind) (o : smooth_opts) (rd : randomness)
    (P : problem T) (lamb : list T) : result (list T * list T * list T) :=
  if o_sanity o then Ok (lamb, lamb, [])
  else
    let l2 := stocastic_grad_descent P lamb (o_t_fix o) (negb (o_no_constraint o))
                                     (o_adam o) (r_draws rd) in
    match kd, o_class_loss o with
    | Reg, _ => l2
    | Class _, L2 => l2
    | Class _, CE => stocastic_grad_descent_ce lg P lamb (o_t_fix o) (negb (o_no_constraint o))
                       (o_class_eps o) (o_adam o) (r_draws rd)
    end.

(** smooth_base.py:1057-1422 [smooth].  The input forest is deep-copied (lines
    1200-1201) and only the copies are written to. *)
Definition smooth (lg : T -> T) (rf : rf_object) (o : smooth_opts) (rd : randomness)
    : result smooth_out :=
  match rf with
  | OtherObject => Err ValueError
  | Forest kd ts =>
    if ((oob_logic o || o_resample o) && (isNone (o_X_trained o) || isNone (o_y_trained o)))%bool
    then Err TypeError
    else if (match kd with Class _ => o_no_constraint o | Reg => false end) then Err ValueError
    else
      do '(G, E, Ti) <- forest_matrices kd o ts;
      do '(Y, W) <- all_targets kd o rd ts;
      let lamb0 := initial_lamb kd o (ncols E) in
      let P := flatten kd o G E Ti Y W in
      do '(lamb, lamb_last, c) <- optimise lg kd o rd P lamb0;
      let nc := n_gamma kd in
      let rows := length E in
      let Y1 := unflatten nc rows (new_values (p_Gamma P) (p_eta P) lamb) in
      let Y2 := unflatten nc rows (new_values (p_Gamma P) (p_eta P) lamb_last) in
      do f1 <- write_forest Y1 0 ts;
      do f2 <- write_forest2 Y2 0 ts;
      Ok {| s_forest := f1; s_lamb := lamb; s_forest2 := f2; s_lamb2 := lamb_last;
            s_lamb_last := lamb_last; s_costs := c |}
  end.

End Model.
Arguments smooth_opts T : clear implicits.
Arguments dist_choice T : clear implicits.
Arguments rf_object T : clear implicits.
Arguments smooth_out T : clear implicits.
