(** M_Pytorch: model of the torch smoother (smooth_pytorch.py). *)
From Verif Require Import Base TreeSpec M_Tree M_Gamma M_Levels M_Prox M_Grad M_Sgd M_Smooth M_Box M_More M_Torch.

Section Model.
Context {T : Type} {NT : Num T}.
Local Open Scope num_scope.
Implicit Type t : tree T.

(** ** Leaf attributes *)

(** the keys of one_d_dict and two_d_dict (smooth_pytorch.py:264-265, 337, 358) *)
Inductive key : Set := Leaf_n | Leaf_d | Leaf_i | Full_d | Full_i | Center (col : nat).
Definition key_eq_dec : forall a b : key, {a = b} + {a <> b}.
Proof. decide equality. apply Nat.eq_dec. Defined.

(** a Python dict in insertion order *)
Definition dict (A : Type) : Type := list (key * A).
(** [d[k] = v] *)
Fixpoint dict_set {A} (d : dict A) (k : key) (v : A) : dict A :=
  match d with
  | [] => [(k, v)]
  | (k', v') :: r => if key_eq_dec k k' then (k, v) :: r else (k', v') :: dict_set r k v
  end.

(** ** Preparation *)

(** the arguments of pytorch_numpy_prep after random_forest (smooth_pytorch.py:20-24);
    [po_y_tune]: response rows, one-hot for classification *)
Record prep_opts := {
  po_X_trained : option (mat T); po_y_trained : option (list T);
  po_X_tune : option (mat T); po_y_tune : option (mat T);
  po_resample : bool; po_train_only : bool; po_style : dstyle; po_parents_all : bool
}.

(** the rows scikit-learn draws: [_generate_unsampled_indices] and [_generate_sample_indices] with
    the random_state of tree q, and fresh bootstrap rows for tree q *)
Record torch_rows := { tr_oob : nat -> list nat; tr_train : nat -> list nat; tr_boot : nat -> list nat }.

(** smooth_pytorch.py:125-129 *)
Definition prep_oob (o : prep_opts) : bool :=
  ((isNone (po_X_tune o) || isNone (po_y_tune o)) && negb (po_resample o) && negb (po_train_only o))%bool.

(** smooth_pytorch.py:183-221: the tuning data of tree q; of the three reassignments the last one
    that applies counts.  (The rows drawn by an earlier one are not used.) *)
Definition prep_data (kd : kind) (o : prep_opts) (rd : torch_rows) (q : nat) : result (mat T * mat T) :=
  if (prep_oob o || po_resample o || po_train_only o)%bool then
    match po_X_trained o, po_y_trained o with
    | Some X, Some y =>
        let idx := if po_train_only o then tr_train rd q
                   else if po_resample o then tr_boot rd q else tr_oob rd q in
        do Xt <- take_rows X idx;
        do yt <- take_rows y idx;
        Ok (Xt, response_rows kd yt)
    | _, _ => Err TypeError
    end
  else match po_X_tune o, po_y_tune o with
       | Some X, Some y => Ok (X, y)
       | _, _ => Err TypeError
       end.

(** smooth_pytorch.py:167-245: state (y_all, weight_all).  Lines 224-245 are lines 1266-1285 of
    smooth_base.py, modelled by leaf_targets. *)
Definition prep_targets (kd : kind) (o : prep_opts) (rd : torch_rows) (ts : list (tree T)) : result (mat T * list T) :=
  foldM (fun acc it =>
           do '(X, y) <- prep_data kd o rd (fst it);
           do '(yl, w) <- leaf_targets (n_gamma kd) (snd it) X y;
           Ok (fst acc ++ yl, snd acc ++ w))
        (combine (seq 0 (length ts)) ts) ([], []).

(** what pytorch_numpy_prep returns (smooth_pytorch.py:269-270) *)
Record prep_out := {
  pr_y : list T; pr_Gamma : mat T; pr_eta : mat T; pr_w : list T; pr_t : list nat;
  pr_one : dict (list T); pr_two : dict (mat T); pr_dim : nat; pr_nc : nat
}.

(** [np.tile(a, n)] along the first axis *)
Definition tile {A} (n : nat) (l : list A) : list A := concat (repeat l n).

(** smooth_pytorch.py:20-271 [pytorch_numpy_prep]; for classification lines 248-260 flatten class by
    class, with one response column these operations change nothing.  ValueError when the argument
    is not a forest. *)
Definition pytorch_numpy_prep (rf : rf_object T) (o : prep_opts) (rd : torch_rows) : result prep_out :=
  match rf with
  | OtherObject => Err ValueError
  | Forest kd ts =>
    if ((prep_oob o || po_resample o || po_train_only o) && (isNone (po_X_trained o) || isNone (po_y_trained o)))%bool
    then Err TypeError
    else
      do '(m, ti) <- create_Gamma_eta_forest_more kd (po_parents_all o) (po_style o) ts;
      do '(Y, W) <- prep_targets kd o rd ts;
      let nc := n_gamma kd in
      Ok {| pr_y := concat (transpose n0 nc Y); pr_Gamma := concat (mo_Gamma m);
            pr_eta := tile nc (mo_eta m); pr_w := tile nc W; pr_t := tile nc ti;
            pr_one := [(Leaf_n, tile nc (mo_n m)); (Leaf_d, tile nc (map nof (mo_depth m)));
                       (Leaf_i, tile nc (mo_imp m))];
            pr_two := [(Full_d, tile nc (map (map nof) (mo_depth_full m))); (Full_i, tile nc (mo_imp_full m))];
            pr_dim := ncols (mo_eta m); pr_nc := nc |}
  end.

(** smooth_pytorch.py:331-340: column [c] of the leaf centers, all trees.  [center_t[cl == -1,:]] *)
Definition one_d_center (ts : list (tree T)) (X : mat T) (c : nat) : result (list T) :=
  do ls <- mapM (fun t => do ce <- center_tree t X; Ok (map (fun r => nth c r n0) (leaf_select t ce))) ts;
  Ok (concat ls).

(** smooth_pytorch.py:345-372: for every leaf the centers (column [c]) of the node and its ancestors,
    padded on the right with the last entry to K columns *)
Definition pad_last (K : nat) (r : list T) : list T := r ++ repeat (last r n0) (K - length r).
Definition two_d_center (ts : list (tree T)) (X : mat T) (K c : nat) : result (mat T) :=
  do ms <- mapM (fun t => do ce <- center_tree t X;
                   Ok (map (fun ps => pad_last K (map (fun a => nth c (nth a ce []) n0) ps))
                           (leaf_select t (snd (depth_per_node_plus_parent t))))) ts;
  Ok (concat ms).

(** smooth_pytorch.py:274-376 [node_spatial_structure_update]; None is Python's None.  The
    arguments that are not None are taken to be dictionaries.  Both are updated in place; the
    result is what they hold afterwards. *)
Definition node_spatial_structure_update (ts : list (tree T)) (X : mat T)
    (one : option (dict (list T))) (two : option (dict (mat T)))
    : result (option (dict (list T)) * option (dict (mat T))) :=
  match one, two with
  | None, None => Err ValueError
  | _, _ =>
    do one' <- match one with
               | None => Ok None
               | Some d => do d' <- foldM (fun a c => do v <- one_d_center ts X c; Ok (dict_set a (Center c) v))
                                          (seq 0 (ncols X)) d;
                           Ok (Some d')
               end;
    do two' <- match two with
               | None => Ok None
               | Some d => do d' <- foldM (fun a c => do v <- two_d_center ts X (snd (calc_depth_for_forest ts) + 1) c;
                                                      Ok (dict_set a (Center c) v))
                                          (seq 0 (ncols X)) d;
                           Ok (Some d')
               end;
    Ok (one', two')
  end.

(** ** The dataset *)

Record dataset := {
  ds_y : list T; ds_Gamma : mat T; ds_eta : mat T; ds_w : list T; ds_t : list nat;
  ds_x : mat T; ds_num : nat
}.

(** [row[a : a + len(b)] = b] *)
Definition splice (row : list T) (a : nat) (b : list T) : list T :=
  firstn a row ++ b ++ skipn (a + length b) row.

(** smooth_pytorch.py:502-523, one dictionary entry: assertion on the shape, then columns
    lamb_dim*var_num .. lamb_dim*(var_num+1) of X_nn; state (X_nn, var_num) *)
Definition put_one (n K : nat) (st : mat T * nat) (it : key * list T) : result (mat T * nat) :=
  if Nat.eqb (length (snd it)) n
  then Ok (map2 (fun row x => splice row (K * snd st) (repeat x K)) (fst st) (snd it), S (snd st))
  else Err AssertionError.
Definition put_two (n K : nat) (st : mat T * nat) (it : key * mat T) : result (mat T * nat) :=
  if (Nat.eqb (length (snd it)) n && forallb (fun r => Nat.eqb (length r) K) (snd it))%bool
  then Ok (map2 (fun row b => splice row (K * snd st) b) (fst st) (snd it), S (snd st))
  else Err AssertionError.

(** smooth_pytorch.py:476-530 [__create_softmax_structure] *)
Definition softmax_structure (n K : nat) (one : dict (list T)) (two : dict (mat T)) : result (mat T) :=
  let nv := (length one + length two)%nat in
  do s1 <- foldM (put_one n K) one (repeat (repeat n0 (K * nv)) n, O);
  do s2 <- foldM (put_two n K) two s1;
  Ok (fst s2).

(** smooth_pytorch.py:421-430 [ForestDataset.__init__]; num_trees is the number of different
    entries of t_vec *)
Definition forest_dataset (y : list T) (Gamma eta : mat T) (w : list T) (tv : list nat)
    (one : dict (list T)) (two : dict (mat T)) (K : nat) : result dataset :=
  do x <- softmax_structure (length eta) K one two;
  Ok {| ds_y := y; ds_Gamma := Gamma; ds_eta := eta; ds_w := w; ds_t := tv; ds_x := x;
        ds_num := length (nodup Nat.eq_dec tv) |}.

(** the five tensors of one batch *)
Record item := { it_y : tensor T; it_Gamma : tensor T; it_eta : tensor T; it_w : tensor T; it_x : tensor T }.

(** smooth_pytorch.py:439-473 [__getitem__], and the leading dimension DataLoader adds *)
Definition getitem (d : dataset) (idx : nat) : item :=
  let m := map (fun i => Nat.eqb i idx) (ds_t d) in
  {| it_y := batch_vec (mask_select m (ds_y d)); it_Gamma := batch_mat (mask_select m (ds_Gamma d));
     it_eta := batch_mat (mask_select m (ds_eta d)); it_w := batch_vec (mask_select m (ds_w d));
     it_x := batch_mat (mask_select m (ds_x d)) |}.

(** ** The model *)

(** the parameters: weight row and bias of the linear model of every distance *)
Local Notation params := (list (list T * T)).
Record softmax_model := { m_vars : nat; m_dim : nat; m_lin : params }.

(** the argument init: a number, or "r" with the values torch.nn.Linear draws *)
Inductive init_arg := InitScalar (x : T) | InitRandom (p : params).

(** smooth_pytorch.py:533-592 [SoftmaxTreeFit.__init__].  torch.nn.Linear(0, 1), made for every
    distance in line 578, divides by the square root of the number of inputs when it draws its start
    values (torch 1.0.0, the version .travis.yml installs). *)
Definition softmax_tree_fit (vars dim : nat) (init : init_arg) : result softmax_model :=
  let no_input := (Nat.eqb vars 0 && negb (Nat.eqb dim 0))%bool in
  match init with
  | InitRandom p => if no_input then Err ZeroDivisionError
                    else Ok {| m_vars := vars; m_dim := dim; m_lin := p |}
  | InitScalar x =>
      if nleb x n0 then Err ValueError
      else if no_input then Err ZeroDivisionError
      else Ok {| m_vars := vars; m_dim := dim;
                 m_lin := map (fun l => (repeat n0 vars, if Nat.eqb l 0 then n1 * x else n0)) (seq 0 dim) |}
  end.

(** smooth_pytorch.py:595-635 [forward]; [ex] is the exponential.  Returns (yhat_item,
    weights_item, lamb). *)
Definition forward (ex : T -> T) (m : softmax_model) (x : item) : result (tensor T * tensor T * tensor T) :=
  do xl <- mapM (fun l => do xi <- index_last (it_x x) (map (fun v => l + m_dim m * v)%nat (seq 0 (m_vars m)));
                          let wb := nth l (m_lin m) ([], n0) in linear (fst wb) (snd wb) xi)
                (seq 0 (m_dim m));
  do lin <- stack 2 xl;
  let lamb := softmax ex 2 lin in
  do G <- resize (sh lamb) (it_Gamma x);
  do Gf <- bop RuntimeError nmul G lamb;
  do E <- resize (sh lamb) (it_eta x);
  do Ef <- bop RuntimeError nmul E lamb;
  do yh <- bop RuntimeError ndiv (sum_dim 2 Gf) (sum_dim 2 Ef);
  Ok (yh, it_w x, lamb).

(** ** Losses *)

(** smooth_pytorch.py:639-660 [weighted_l2] and 662-682 [weighted_l2_np]; [e] is the library's
    broadcasting error *)
Definition weighted_l2_gen (e : exn) (y y_pred w : tensor T) : result T :=
  do d <- bop e nsub y y_pred;
  do p <- bop e nmul w (tmap (fun x => x * x) d);
  Ok (tsum p / tsum w).
Definition weighted_l2 := weighted_l2_gen RuntimeError.
Definition weighted_l2_np := weighted_l2_gen ValueError.

(** smooth_pytorch.py:684-702 [l2_np] *)
Definition l2_np (y y_pred : tensor T) : result T :=
  do d <- bop ValueError nsub y y_pred; Ok (tmean (tmap (fun x => x * x) d)).

(** smooth_pytorch.py:704-720 [acc_np]; class values are numbers.  For shapes that do not match
    numpy compares to the single value False. *)
Definition acc_np (y y_pred : tensor T) : T :=
  match bop ValueError (fun a b => if a =? b then n1 else n0) y y_pred with
  | Ok c => tmean c
  | Err _ => n0
  end.

(** ** Writing the forest *)

(** smooth_pytorch.py:799-812: [y_tree.reshape((-1,1,num_classes), order = "F")] assigned to the
    leaf values (one row is broadcast); with one response column this is line 803 *)
Definition write_tree (nc : nat) t (flat : list T) : result (tree T) :=
  let rows := Nat.div (length flat) nc in
  if negb (Nat.eqb (rows * nc) (length flat)) then Err ValueError
  else if (Nat.eqb rows (num_leaf t) || Nat.eqb rows 1)%bool
  then write_leaves (unflatten nc rows flat) 0 t
  else Err ValueError.

(** smooth_pytorch.py:727-814 [update_rf]: always the full dictionaries of pytorch_numpy_prep with
    train_only; SequentialSampler visits items 0, 1, .. *)
Definition train_opts (X : option (mat T)) (y : option (list T)) (s : dstyle) (pa : bool) : prep_opts :=
  {| po_X_trained := X; po_y_trained := y; po_X_tune := None; po_y_tune := None; po_resample := false;
     po_train_only := true; po_style := s; po_parents_all := pa |}.
Definition update_rf (ex : T -> T) (rf : rf_object T) (m : softmax_model) (X : option (mat T)) (y : option (list T))
    (pa : bool) (s : dstyle) (rd : torch_rows) : result (list (tree T)) :=
  match rf with
  | OtherObject => Err ValueError
  | Forest kd ts =>
    do p <- pytorch_numpy_prep rf (train_opts X y s pa) rd;
    do d <- forest_dataset (pr_y p) (pr_Gamma p) (pr_eta p) (pr_w p) (pr_t p) (pr_one p) (pr_two p) (pr_dim p);
    foldM (fun f i =>
             do '(yt, _, _) <- forward ex m (getitem d i);
             match nth_error f i with
             | None => Err IndexError
             | Some t => do t' <- write_tree (n_gamma kd) t (dat yt); Ok (upd f i t')
             end)
          (seq 0 (ds_num d)) ts
  end.

(** ** Tuning *)

(** the arguments of smooth_pytorch (smooth_pytorch.py:817-826) but the optimiser's; verbose has no
    effect on the result.  which_dicts and x_dicts as membership tests. *)
Record torch_opts := {
  to_X_trained : mat T; to_y_trained : list T; to_X_tune : option (mat T); to_y_tune : option (mat T);
  to_resample : bool; to_sgd_max_num : nat; to_all_trees : bool; to_parents_all : bool; to_style : dstyle;
  to_which_one : bool; to_which_two : bool; to_x_one : bool; to_x_two : bool; to_init : init_arg
}.

(** state of the loop: the parameters of torch_model (one mutable cell per linear model), the
    optimiser's state, loss_all, loss_min (None is np.inf), params_min, best_model.  Line 988
    stores references to the cells of torch_model, so params_min is a list of cell numbers;
    line 990 copies the values. *)
Record torch_state (St : Type) := {
  ts_cells : params; ts_opt : St; ts_losses : list T; ts_min : option T; ts_pmin : list nat;
  ts_best : option params
}.
Arguments ts_cells {St} _. Arguments ts_opt {St} _. Arguments ts_losses {St} _. Arguments ts_min {St} _.
Arguments ts_pmin {St} _. Arguments ts_best {St} _.

(** smooth_pytorch.py:966-990, one step on the batch of tree [q].  [opt] is zero_grad, backward and
    torch.optim.Adam's step: from its state, the cells and the batch to its state and the new
    contents of the cells. *)
Definition torch_step {St : Type} (ex : T -> T) (opt : St -> params -> item -> St * params) (vars dim : nat)
    (d dall : dataset) (st : torch_state St) (q : nat) : result (torch_state St) :=
  let mk p := {| m_vars := vars; m_dim := dim; m_lin := p |} in
  let x := getitem d q in
  do '(yp, w, _) <- forward ex (mk (ts_cells st)) x;
  do _ <- weighted_l2 (it_y x) yp w;
  let op := opt (ts_opt st) (ts_cells st) x in
  let x2 := getitem dall 0 in
  do '(yp2, w2, _) <- forward ex (mk (snd op)) x2;
  do cur <- weighted_l2 (it_y x2) yp2 w2;
  let better := match ts_min st with None => true | Some m => nleb cur m end in
  Ok {| ts_cells := snd op; ts_opt := fst op; ts_losses := ts_losses st ++ [cur];
        ts_min := if better then Some cur else ts_min st;
        ts_pmin := if better then seq 0 (length (snd op)) else ts_pmin st;
        ts_best := if better then Some (snd op) else ts_best st |}.

(** what smooth_pytorch returns; [so_model] is torch_model, whose cells the numbers in
    [so_params_min] refer to *)
Record torch_out := {
  so_forest : list (tree T); so_losses : list T; so_loss_min : T; so_params_min : list nat;
  so_best : softmax_model; so_model : softmax_model
}.

(** smooth_pytorch.py:900-905, 907-920: the dictionaries in use *)
Definition used_dicts (o : torch_opts) (ts : list (tree T)) (p : prep_out)
    : result (dict (list T) * dict (mat T)) :=
  let one := if to_which_one o then pr_one p else [] in
  let two := if to_which_two o then pr_two p else [] in
  if (to_x_one o || to_x_two o)%bool then
    do '(od, td) <- node_spatial_structure_update ts (to_X_trained o)
                      (if to_x_one o then Some one else None) (if to_x_two o then Some two else None);
    Ok (match od with Some d => d | None => one end, match td with Some d => d | None => two end)
  else Ok (one, two).

(** smooth_pytorch.py:817-1003 [smooth_pytorch].  [draw e i] is the i-th number drawn by
    RandomSampler (with replacement, as many as there are items) in epoch e; to_X_tune, to_y_tune and
    to_resample are not passed on.  Line 931 changes t_idx_vec after the dataset has been made.
    UnboundLocalError when best_model was never assigned. *)
Definition smooth_pytorch {St : Type} (ex : T -> T) (opt : St -> params -> item -> St * params) (opt0 : St)
    (rf : rf_object T) (o : torch_opts) (rd : torch_rows) (draw : nat -> nat -> nat) : result torch_out :=
  do p <- pytorch_numpy_prep rf (train_opts (Some (to_X_trained o)) (Some (to_y_trained o)) (to_style o) (to_parents_all o)) rd;
  match rf with
  | OtherObject => Err ValueError
  | Forest kd ts =>
    do '(one, two) <- used_dicts o ts p;
    let vars := (length one + length two)%nat in
    do d <- forest_dataset (pr_y p) (pr_Gamma p) (pr_eta p) (pr_w p) (pr_t p) one two (pr_dim p);
    let num_trees := if to_all_trees o then 1%nat else length ts in
    do dall <- forest_dataset (pr_y p) (pr_Gamma p) (pr_eta p) (pr_w p) (map (fun _ => O) (pr_t p)) one two (pr_dim p);
    do m0 <- softmax_tree_fit vars (pr_dim p) (to_init o);
    let epochs := Nat.div (to_sgd_max_num o) num_trees in
    let steps := concat (map (fun e => map (fun i => Nat.modulo (draw e i) (ds_num d)) (seq 0 (ds_num d))) (seq 0 epochs)) in
    do st <- foldM (torch_step ex opt vars (pr_dim p) d dall) steps
               {| ts_cells := m_lin m0; ts_opt := opt0; ts_losses := []; ts_min := None; ts_pmin := []; ts_best := None |};
    match ts_best st, ts_min st with
    | Some b, Some lm =>
        let best := {| m_vars := vars; m_dim := pr_dim p; m_lin := b |} in
        do f <- update_rf ex rf best (Some (to_X_trained o)) (Some (to_y_trained o)) (to_parents_all o) (to_style o) rd;
        Ok {| so_forest := f; so_losses := ts_losses st; so_loss_min := lm; so_params_min := ts_pmin st; so_best := best;
              so_model := {| m_vars := vars; m_dim := pr_dim p; m_lin := ts_cells st |} |}
    | _, _ => Err UnboundLocalError
    end
  end.

End Model.

Arguments ts_cells {T St} _. Arguments ts_opt {T St} _. Arguments ts_losses {T St} _. Arguments ts_min {T St} _.
Arguments ts_pmin {T St} _. Arguments ts_best {T St} _.
