(** M_Depth: model of tune_depth.py. *)
From Verif Require Import Base TreeSpec M_Tree M_Gamma M_Levels M_Smooth M_Prune.

Section Model.
Context {T : Type} {NT : Num T}.
Local Open Scope num_scope.
Implicit Type t : tree T.

(** tune_depth.py:44-51, one leaf: its decision row with the column of node v multiplied
    by v when depth(v) <= k and by 0 otherwise, then the row maximum *)
Definition lowest_viable (depths row : list nat) (k : nat) : nat :=
  list_maxn (map2 (fun r v => Nat.mul r (if Nat.leb (nth v depths O) k then v else O))
                  row (seq 0 (length row))).

(** tune_depth.py:18-61 [leaf_predicted_values]: the dictionary has the keys
    0..max_depth-1 and is modelled by the list of its entries; an entry has one value row
    per leaf *)
Definition leaf_predicted_values t : list (mat T) :=
  let depths := depth_per_node t in
  map (fun k => map (fun row => nth (lowest_viable depths row k) (t_value t) []) (v_leaf t))
      (seq 0 (list_maxn depths)).

(** the node where an observation ends (scikit-learn's apply, used by predict) *)
Definition end_node t (x : list T) : nat := last (path_nodes (size t) t x 0) O.

(** scikit-learn's [t.predict] for one observation.  The trees of a classification forest
    are fitted on class indices, so their predictions are indices 0,1,.. and not labels. *)
Definition predict (kd : kind) t (x : list T) : T :=
  let v := nth (end_node t x) (t_value t) [] in
  match kd with Reg => nth 0 v n0 | Class _ => nof (argmax v) end.

(** tune_depth.py:160-166: squared error or number of disagreements.  scikit-learn rejects
    an array without rows.  Arrays X, y of different lengths are not modelled further than
    by an exception (numpy would broadcast a single row). *)
Definition data_loss (kd : kind) t (X : mat T) (y : list T) : result T :=
  match X with
  | [] => Err ValueError
  | _ => if negb (Nat.eqb (length y) (length X)) then Err ValueError
         else Ok (nsum (map2 (fun x yi =>
                let p := predict kd t x in
                match kd with
                | Reg => (yi - p) * (yi - p)
                | Class _ => if p =? yi then n0 else n1
                end) X y))
  end.

(** [tree.value[tree.children_left == -1] = pred] (tune_depth.py:158, 189) *)
Definition set_leaves t (pred : mat T) : tree T :=
  set_values t (mask_assign (map (fun c => Z.eqb c (-1)) (t_left t)) (t_value t) pred).

(** tune_depth.py:157-166, one pass of the inner loop; state: the tree being overwritten,
    tree_loss and the loop variable i *)
Definition depth_step (kd : kind) (X : mat T) (y : list T)
    (st : tree T * list T * option nat) (it : nat * mat T)
    : result (tree T * list T * option nat) :=
  let '(t, tl, _) := st in
  let t' := set_leaves t (snd it) in
  do l <- data_loss kd t' X y;
  Ok (t', upd tl (fst it) l, Some (fst it)).

(** tune_depth.py:168 [tree_loss[tree_loss == -1] = tree_loss[i]] *)
Definition fill_missing (tl : list T) (i : nat) : list T :=
  map (fun x => if x =? - n1 then nth i tl n0 else x) tl.

(** the arguments of depth_tune; [d_y_trained], [d_y_tune] are labels or responses *)
Record depth_opts := {
  d_X_trained : option (mat T); d_y_trained : option (list T);
  d_X_tune : option (mat T); d_y_tune : option (list T); d_resample : bool
}.

(** tune_depth.py:105-108 *)
Definition d_oob (o : depth_opts) : bool :=
  ((isNone (d_X_tune o) || isNone (d_y_tune o)) && negb (d_resample o))%bool.

(** tune_depth.py:136-151: the tuning data of tree number q *)
Definition depth_data (o : depth_opts) (rd : randomness) (q : nat) : result (mat T * list T) :=
  if (d_oob o || d_resample o)%bool then
    match d_X_trained o, d_y_trained o with
    | Some X, Some y =>
        let idx := if d_oob o then r_oob rd q else r_boot rd q in
        do Xt <- take_rows X idx;
        do yt <- take_rows y idx;
        Ok (Xt, yt)
    | _, _ => Err TypeError
    end
  else match d_X_tune o, d_y_tune o with
       | Some X, Some y => Ok (X, y)
       | _, _ => Err TypeError
       end.

(** tune_depth.py:132-169, one pass of the outer loop; state: forest_loss and the loop
    variable i of the inner loop, which survives from tree to tree and is unbound at first *)
Definition depth_tree (kd : kind) (o : depth_opts) (rd : randomness) (max_depth : nat)
    (acc : list T * option nat) (it : nat * tree T) : result (list T * option nat) :=
  let '(fl, i0) := acc in
  do '(X, y) <- depth_data o rd (fst it);
  let pl := leaf_predicted_values (snd it) in
  do '(_, tl, i) <- foldM (depth_step kd X y) (combine (seq 0 (length pl)) pl)
                          (snd it, repeat (- n1) max_depth, i0);
  match i with
  | None => Err UnboundLocalError
  | Some i => Ok (map2 nadd fl (fill_missing tl i), Some i)
  end.

(** [np.argmin]: first position of the minimum; ValueError on an empty array
    (tune_depth.py:171) *)
Definition argmin (l : list T) : result nat :=
  match l with
  | [] => Err ValueError
  | x :: r => Ok (snd (fold_left (fun '(m, b) '(y, k) => if y <? m then (y, k) else (m, b))
                                 (combine r (seq 1 (length r))) (x, O)))
  end.

(** tune_depth.py:178-189, one tree; the largest key of an empty dictionary is a ValueError *)
Definition truncate_tree (best : nat) t : result (tree T) :=
  let pl := leaf_predicted_values t in
  match pl with
  | [] => Err ValueError
  | _ => Ok (set_leaves t (nth (Nat.min (length pl - 1) best) pl []))
  end.

(** tune_depth.py:63-195 [depth_tune]: the new forest and its attribute loss_vec_depth *)
Definition depth_tune (rf : rf_object T) (o : depth_opts) (rd : randomness)
    : result (list (tree T) * list T) :=
  match rf with
  | OtherObject => Err ValueError
  | Forest kd ts =>
    if ((d_oob o || d_resample o) && (isNone (d_X_trained o) || isNone (d_y_trained o)))%bool
    then Err TypeError
    else
      let max_depth := snd (calc_depth_for_forest ts) in
      do '(fl, _) <- foldM (depth_tree kd o rd max_depth) (combine (seq 0 (length ts)) ts)
                           (repeat n0 max_depth, None);
      do best <- argmin fl;
      do ts' <- mapM (truncate_tree best) ts;
      Ok (ts', fl)
  end.

End Model.
Arguments depth_opts T : clear implicits.
