(** M_More: model of the Gamma / eta functions that also return leaf attributes
    (smooth_base.py:1840-2330). *)
From Verif Require Import Base TreeSpec M_Tree M_Gamma.

Section Model.
Context {T : Type} {NT : Num T}.
Local Open Scope num_scope.
Implicit Type t : tree T.

(** smooth_base.py:1914-1922, 2057-2065: diagonal of Q = V V^T minus one *)
Definition leaf_depth t : list nat := map (fun r => Nat.sub (dotn r r) 1) (v_leaf t).

(** smooth_base.py:1896, 1907, 2040, 2051 [leaf_impurity] *)
Definition leaf_impurity t : list T := leaf_select t (t_imp t).

(** what create_Gamma_eta_tree_more_per returns; create_Gamma_eta_tree_more returns all
    but the last two *)
Record more_out := {
  mo_Gamma : list (mat T); mo_eta : mat T; mo_n : list T; mo_depth : list nat;
  mo_imp : list T; mo_depth_full : list (list nat); mo_imp_full : mat T
}.

(** smooth_base.py:1840-1969 [create_Gamma_eta_tree_more]: (Gamma, eta, n_leaf_original,
    leaf_depth, leaf_impurity); the code that builds Gamma and eta is the one of
    create_Gamma_eta_tree *)
Definition create_Gamma_eta_tree_more (kd : kind) (pa : bool) (s : dstyle) t
    : result (list (mat T) * mat T * list T * list nat * list T) :=
  do '(g, e) <- create_Gamma_eta_tree kd pa s t;
  Ok (g, e, n_leaf_original t, leaf_depth t, leaf_impurity t).

(** smooth_base.py:2113-2117, one row of leaf_depth_full with K columns: the first d+1
    entries become d, d-1, .., 0; numpy raises ValueError when there are fewer than d+1 *)
Definition depth_row (K d : nat) : result (list nat) :=
  if Nat.leb (d + 1) K then Ok (rev (seq 0 (d + 1)) ++ repeat O (K - (d + 1)))
  else Err ValueError.

(** smooth_base.py:2122-2124 [impurity[parent_mat]] restricted to the leaves *)
Definition impurity_rows t : mat T :=
  leaf_select t (map (map (fun a => nth a (t_imp t) n0)) (snd (depth_per_node_plus_parent t))).

(** smooth_base.py:1972-2127 [create_Gamma_eta_tree_more_per] *)
Definition create_Gamma_eta_tree_more_per (kd : kind) (pa : bool) (s : dstyle) t : result more_out :=
  do '(g, e) <- create_Gamma_eta_tree kd pa s t;
  do df <- mapM (depth_row (ncols e)) (leaf_depth t);
  Ok {| mo_Gamma := g; mo_eta := e; mo_n := n_leaf_original t; mo_depth := leaf_depth t;
        mo_imp := leaf_impurity t; mo_depth_full := df; mo_imp_full := impurity_rows t |}.

(** the state of the loop of create_Gamma_eta_forest_more is a more_out (with the arrays of all
    trees seen so far) and t_idx_all *)

(** smooth_base.py:2257-2322, loop body.  A negative [diff] makes np.tile / np.zeros raise
    ValueError, and so does np.concatenate when the impurity rows do not have K columns. *)
Definition add_more (kd : kind) (pa : bool) (s : dstyle) (K : nat)
    (acc : more_out * list nat) (it : nat * tree T) : result (more_out * list nat) :=
  let '(a, ti) := acc in
  do m <- create_Gamma_eta_tree_more_per kd pa s (snd it);
  if Nat.ltb K (ncols (mo_eta m)) then Err ValueError
  else
    let diff := Nat.sub K (ncols (mo_eta m)) in
    let i_top := nth 0 (nth 0 (mo_imp_full m) []) n0 in
    let fi := map (fun r => r ++ repeat i_top diff) (mo_imp_full m) in
    if negb (Nat.eqb (ncols fi) K) then Err ValueError
    else Ok ({| mo_Gamma := map2 (fun Ga ga => Ga ++ map (pad_row pa K) ga) (mo_Gamma a) (mo_Gamma m);
                mo_eta := mo_eta a ++ map (pad_row pa K) (mo_eta m);
                mo_n := mo_n a ++ mo_n m; mo_depth := mo_depth a ++ mo_depth m;
                mo_imp := mo_imp a ++ mo_imp m;
                mo_depth_full := mo_depth_full a ++ map (fun r => r ++ repeat O diff) (mo_depth_full m);
                mo_imp_full := mo_imp_full a ++ fi |},
             ti ++ repeat (fst it) (length (mo_eta m))).

(** smooth_base.py:2182-2330 [create_Gamma_eta_forest_more]; the order of the eight results is
    that of the fields, with t_idx_all after eta *)
Definition create_Gamma_eta_forest_more (kd : kind) (pa : bool) (s : dstyle) (ts : list (tree T))
    : result (more_out * list nat) :=
  foldM (add_more kd pa s (snd (calc_depth_for_forest ts) + 1)%nat) (combine (seq 0 (length ts)) ts)
    ({| mo_Gamma := repeat [] (n_gamma kd); mo_eta := []; mo_n := []; mo_depth := []; mo_imp := [];
        mo_depth_full := []; mo_imp_full := [] |}, []).

End Model.
Arguments more_out T : clear implicits.
