(** M_Level: model of smooth_level.py (decision-path kernels, level smoothing of a whole forest). *)
From Verif Require Import Base TreeSpec M_Tree M_Gamma M_Prox M_Grad M_Levels M_Sgd M_Smooth.

Section Model.
Context {T : Type} {NT : Num T}.
Local Open Scope num_scope.
Implicit Type t : tree T.

(** ** Decision paths of leaves *)

(** smooth_level.py:291-306 [_decision_list_nodes]: the two lists (leaf, node on its path);
    the recursion is on the tree, [fuel] bounds it *)
Fixpoint decision_list_nodes (fuel : nat) t (idx : nat) (elders : list nat) : result (list nat * list nat) :=
  if Z.eqb (nth idx (t_left t) (-1)%Z) (-1) then
    Ok (repeat idx (length elders + 1), elders ++ [idx])
  else
    match fuel with
    | O => Err RecursionError
    | S f =>
        do '(xl, yl) <- decision_list_nodes f t (Z.to_nat (nth idx (t_left t) (-1)%Z)) (elders ++ [idx]);
        do '(xr, yr) <- decision_list_nodes f t (Z.to_nat (nth idx (t_right t) (-1)%Z)) (elders ++ [idx]);
        Ok (xl ++ xr, yl ++ yr)
    end.

(** [np.cumsum(children_right == -1) - 1], at index i (smooth_level.py:282) *)
Definition leaf_idx t (i : nat) : nat :=
  (sumn (map (fun c => if Z.eqb c (-1) then 1 else 0) (firstn (S i) (t_right t))) - 1)%nat.

(** smooth_level.py:274-286 [decision_path_nodes]; the sparse COO array adds up the ones put at
    one coordinate *)
Definition decision_path_nodes t : result (list (list nat)) :=
  do '(x, yy) <- decision_list_nodes (size t) t 0 [];
  let n_leafs := length (filter (fun c => Z.eqb c (-1)) (t_right t)) in
  let n_nodes := length (t_right t) in
  let coords := combine (map (leaf_idx t) x) yy in
  Ok (map (fun r => map (fun c => length (filter (fun p => (Nat.eqb (fst p) r && Nat.eqb (snd p) c)%bool) coords))
                        (seq 0 n_nodes)) (seq 0 n_leafs)).

(** ** Kernels *)

(** a row of tree.decision_path(data) *)
Definition path_rown t (x : list T) : list nat :=
  map (fun v => if existsb (Nat.eqb v) (path_nodes (size t) t x 0) then 1%nat else O) (seq 0 (size t)).

(** a Python dictionary with integer keys, in insertion order *)
Definition dict A := list (nat * A).
Definition lookup {A} (k : nat) (d : dict A) : option A :=
  match filter (fun p => Nat.eqb (fst p) k) d with [] => None | p :: _ => Some (snd p) end.

(** smooth_level.py:56-71 [_make_Vt_mat_tree]; [depth_vec] None means depth_per_node.  The keys are
    the depth values in increasing order.  Data without rows is refused by scikit-learn; a depth
    vector of another length than the number of nodes raises IndexError. *)
Definition make_Vt_mat_tree t (data : mat T) (depth_vec : option (list nat)) : result (dict (list (list nat))) :=
  let dv := match depth_vec with None => depth_per_node t | Some v => v end in
  match data with
  | [] => Err ValueError
  | _ =>
    if negb (Nat.eqb (length dv) (size t)) then Err IndexError
    else
      let full := map (path_rown t) data in
      let keys := filter (fun k => existsb (Nat.eqb k) dv) (seq 0 (S (list_maxn dv))) in
      Ok (map (fun k => (k, map (fun r => mask_select (map (Nat.eqb k) dv) r) full)) keys)
  end.

(** smooth_level.py:33-54 [make_Vt_mat]; [depth_dict] lists the depth vectors by tree *)
Definition make_Vt_mat (ts : list (tree T)) (data : mat T) (depth_dict : option (list (list nat)))
    : result (list (dict (list (list nat)))) :=
  mapM (fun it => match depth_dict with
                  | None => make_Vt_mat_tree (snd it) data None
                  | Some dd => match nth_error dd (fst it) with
                               | None => Err KeyError
                               | Some v => make_Vt_mat_tree (snd it) data (Some v)
                               end
                  end) (combine (seq 0 (length ts)) ts).

(** [A.dot(B.T)] *)
Definition dot_t (A B : list (list nat)) : list (list nat) := map (fun r => map (fun s => dotn r s) B) A.

(** smooth_level.py:73-141 [make_Ut_prime_mat_no_sym]: for each depth one matrix per tree
    (n_tree x n_test x n_train, zero for a tree without nodes at that depth).  With max_depth None
    the loop of lines 92-97 takes the largest key of the dictionaries themselves, that is the largest tree index. *)
Definition make_Ut_prime (Vnew V : list (dict (list (list nat)))) (max_depth : option nat)
    : result (dict (list (list (list nat)))) :=
  if negb (Nat.eqb (length Vnew) (length V)) then Err AssertionError
  else match V, Vnew with
  | d :: _, dn :: _ =>
    match lookup 0 d, lookup 0 dn with
    | Some m0, Some mn0 =>
      let n_train := length m0 in
      let n_test := length mn0 in
      let md := match max_depth with Some m => m | None => (length V - 1)%nat end in
      mapM (fun l =>
        do ms <- mapM (fun vw =>
                   match lookup l (snd vw) with
                   | None => Ok (repeat (repeat O n_train) n_test)
                   | Some m => match lookup l (fst vw) with
                               | None => Err KeyError
                               | Some mn => Ok (dot_t mn m)
                               end
                   end) (combine Vnew V);
        Ok (l, ms)) (seq 0 md)
    | _, _ => Err KeyError
    end
  | _, _ => Err IndexError
  end.

(** smooth_level.py:144-162 [remove_0_from_Ut_prime] *)
Definition remove_0 {A} (U : dict A) : result (dict A) :=
  if existsb (fun p => Nat.eqb (fst p) 0) U then
    Ok (map (fun p => ((fst p - 1)%nat, snd p)) (filter (fun p => negb (Nat.eqb (fst p) 0)) U))
  else Err AssertionError.

(** matrix addition and scaling *)
Definition madd (A B : mat T) : mat T := map2 (map2 nadd) A B.
Definition mscale (c : T) (A : mat T) : mat T := map (map (fun x => c * x)) A.

(** smooth_level.py:179-181 [U.sum(axis=0)/U.shape[0]] *)
Definition tree_mean (U : list (list (list nat))) : mat T :=
  match U with
  | [] => []
  | m :: r => map (map (fun k => nof k / nof (length U))) (fold_left (map2 (map2 Nat.add)) r m)
  end.

(** smooth_level.py:167-193 [make_kernel]; [None] stands for the number 0 returned for an empty dictionary.
    Adding the number 0 to the first matrix gives that matrix. *)
Definition make_kernel (U : dict (list (list (list nat)))) (lamb : option (list T)) : result (option (mat T)) :=
  let lv := match lamb with None => repeat n1 (length U) | Some l => l end in
  if negb (Nat.eqb (length U) (length lv)) then Err AssertionError
  else foldM (fun K p =>
         match nth_error lv (fst p) with
         | None => Err IndexError
         | Some c => let M := mscale c (tree_mean (snd p)) in
                     Ok (Some (match K with
                               | None => M
                               | Some K0 => if Nat.eqb (fst p) 0 then M else madd K0 M
                               end))
         end) U None.

(** smooth_level.py:197-216 [depth_dist] of a square array *)
Definition depth_dist (K : mat T) : result (mat T) :=
  let own := map (fun i => nth i (nth i K []) n0) (seq 0 (length K)) in
  if forallb (fun x => x =? n0) own then Err AssertionError
  else Ok (map2 (fun o r => map (fun x => o - x) r) own K).

(** smooth_level.py:235-269 [max_depth_dist], [min_depth_dist] *)
Definition sym_dist (f : T -> T -> T) (K DD : option (mat T)) : result (mat T) :=
  do D <- match DD, K with
          | Some D, _ => Ok D
          | None, Some K => depth_dist K
          | None, None => Err AssertionError
          end;
  Ok (map2 (map2 f) D (transpose n0 (length D) D)).
Definition max_depth_dist := sym_dist nmax.
Definition min_depth_dist := sym_dist nmin.

(** smooth_level.py:218-233 [categorical_depth_expand] of an integer matrix: one 0/1 slice per value *)
Definition categorical_depth_expand (D : list (list Z)) : result (list (list (list nat))) :=
  do mn <- zminimum (concat D);
  if (mn <? 0)%Z then Err AssertionError
  else
    do mx <- zmaximum (concat D);
    Ok (map (fun d => map (map (fun x => if Z.eqb x (Z.of_nat d) then 1%nat else O)) D) (seq 0 (Z.to_nat (mx + 1)))).

(** ** Positive definiteness *)

Definition nabs (x : T) : T := if x <? n0 then - x else x.
(** [np.allclose(A, A.T)] for a square array: |a - b| <= 1e-8 + 1e-5 |b| *)
Definition allclose_sym (A : mat T) : bool :=
  let tenth := n1 / nof 10 in
  forallb (fun p => nleb (nabs (fst p - snd p)) (npow tenth 8 + npow tenth 5 * nabs (snd p)))
          (combine (concat A) (concat (transpose n0 (length A) A))).

(** [np.linalg.cholesky]: works on the lower triangle and raises LinAlgError when a pivot is not positive.
    The pivots are those of the elimination; the square roots of the factor are not needed for that. *)
Fixpoint cholesky_ok (fuel : nat) (A : mat T) : bool :=
  match fuel, A with
  | S f, row :: rest =>
      let p := hd n0 row in
      (n0 <? p) && cholesky_ok f (map (fun ri => map2 (fun x rj => x - hd n0 ri * hd n0 rj / p) (tl ri) rest) rest)
  | _, _ => true
  end%bool.

(** smooth_level.py:309-332 [is_pos_def] *)
Definition is_pos_def (A : mat T) : bool := (allclose_sym A && cholesky_ok (length A) A)%bool.

(** [G + np.diag(np.ones(m) * c)] *)
Definition add_diag (c : T) (G : mat T) : mat T :=
  map (fun ir => upd (snd ir) (fst ir) (nth (fst ir) (snd ir) n0 + c)) (combine (seq 0 (length G)) G).

(** the amount added in retry number k (smooth_level.py:420-431, 694-702); [eps] is np.finfo(float).eps *)
Definition lift_amount (eps : T) (k : nat) : T :=
  match k with
  | O => n1 * eps * nof 1000
  | S j => n1 * eps * nof 1000 * (npow (n1 + n1) k - npow (n1 + n1) j)
  end.

(** the retry loops: [attempt G] is None when the attempt has to be repeated with a lifted diagonal.
    [RecursionError] stands for "not finished after [fuel] retries". *)
Fixpoint retry {A} (fuel : nat) (attempt : mat T -> option A) (eps : T) (k : nat) (G : mat T) : result (mat T * A) :=
  match attempt G with
  | Some r => Ok (G, r)
  | None => match fuel with
            | O => Err RecursionError
            | S f => retry f attempt eps (S k) (add_diag (lift_amount eps k) G)
            end
  end.

(** smooth_level.py:385-431 [update_til_psd] *)
Definition update_til_psd (fuel : nat) (eps : T) (G : mat T) : result (mat T) :=
  if negb (allclose_sym G) then Err ValueError
  else do '(G1, _) <- retry fuel (fun M => if is_pos_def M then Some tt else None) eps 0 G; Ok G1.

(** ** smooth_all *)

(** smooth_level.py:335-383 [process_tuning_leaf_attributes_tree]: shares (eps for leaves without
    tuning data) and mean responses per leaf *)
Definition process_tuning_leaf_attributes_tree t (eps : T) (X : mat T) (y : list T) : result (list T * list T) :=
  do V <- obs_V_leaf t X;
  if negb (Nat.eqb (length y) (length X)) then Err ValueError
  else
    let cols := transpose n0 (num_leaf t) V in
    let cnt := map nsum cols in
    let w := map (fun c => c / nsum cnt) cnt in
    Ok (map (fun x => if x =? n0 then eps else x) w, map2 (fun cl d => dot cl y / d) cols (fill1 cnt)).

(** the arguments of smooth_all (smooth_level.py:485-491); sanity_check as a boolean *)
Record all_opts := {
  a_X : mat T; a_y : list T; a_X_tune : option (mat T); a_y_tune : option (list T);
  a_no_constraint : bool; a_sanity : bool; a_resample : bool; a_parents_all : bool; a_inner_assess : bool
}.

(** smooth_level.py:548-551, 593-609: tuning data of tree q *)
Definition all_tuning (o : all_opts) (oob boot : nat -> list nat) (q : nat) : result (mat T * list T) :=
  if a_resample o then
    do Xt <- take_rows (a_X o) (boot q); do yt <- take_rows (a_y o) (boot q); Ok (Xt, yt)
  else match a_X_tune o, a_y_tune o with
       | Some X, Some y => Ok (X, y)
       | _, _ => do Xt <- take_rows (a_X o) (oob q); do yt <- take_rows (a_y o) (oob q); Ok (Xt, yt)
       end.

(** smooth_level.py:585-621 *)
Definition all_leaf_targets (o : all_opts) (oob boot : nat -> list nat) (ts : list (tree T)) : result (list T * list T) :=
  foldM (fun acc it =>
    do '(X, y) <- all_tuning o oob boot (fst it);
    do '(w, yl) <- process_tuning_leaf_attributes_tree (snd it) (- n1) X y;
    Ok (fst acc ++ w, snd acc ++ yl)) (combine (seq 0 (length ts)) ts) ([], []).

(** smooth_level.py:627-632: [ga/et] with et == 0 replaced by eps; the assertion *)
Definition ratio_rows (eps : T) (Ga Et : mat T) : mat T :=
  map2 (map2 (fun g e => g / (if e =? n0 then eps else e))) Ga Et.
Definition ratio_ok (Ga Et : mat T) : bool :=
  forallb (fun p => if snd p =? n0 then fst p =? n0 else true) (combine (concat Ga) (concat Et)).

(** smooth_level.py:634-655: [Gamma.T @ diag(w) @ Gamma] made symmetric, and [Gamma.T @ diag(w) @ y] *)
Definition gram_w (K : nat) (M : mat T) (w : list T) : mat T :=
  map (fun i => map (fun j => dot (map2 nmul (col i M) w) (col j M)) (seq 0 K)) (seq 0 K).
Definition symmetrise (G : mat T) : mat T :=
  map2 (map2 (fun a b => (a + b) / (n1 + n1))) G (transpose n0 (length G) G).
Definition rhs_w (K : nat) (M : mat T) (w y : list T) : list T :=
  map (fun i => dot (map2 nmul (col i M) w) y) (seq 0 K).

(** smooth_level.py:706: [1/2 lamb.T @ G @ lamb - a.T @ lamb] *)
Definition qp_cost (G : mat T) (a lamb : list T) : T := n1 / (n1 + n1) * dot lamb (mv G lamb) - dot a lamb.

(** smooth_level.py:485-733 [smooth_all] for a regression forest.  [solve no_constraint G a] is the call of
    quadprog.solve_qp (minimise the cost over weights that sum to 1 and are not negative) or of inv(G) @ a,
    None when it raises; [check] is check_in_null (M_Null).  [feps] is np.finfo(float).eps. *)
Definition smooth_all_with (fuel : nat) (feps : T) (solve : bool -> mat T -> list T -> option (list T))
    (check : mat T -> list T -> result bool) (o : all_opts) (oob boot : nat -> list nat) (ts : list (tree T))
    : result (list (tree T) * list T) :=
  if negb (Nat.eqb (length (a_y o)) (length (a_X o))) then Err ValueError
  else
    do '(w, yl) <- all_leaf_targets o oob boot ts;
    do '(G3, Et, _) <- create_Gamma_eta_forest Reg (a_parents_all o) Standard ts;
    let Ga := concat G3 in
    if negb (ratio_ok Ga Et) then Err AssertionError
    else
      let eps := n1 / nof (length (a_X o)) in
      let Gs := ratio_rows eps Ga Et in
      let K := (snd (calc_depth_for_forest ts) + 1)%nat in
      let seen := map (fun x => negb (x =? - n1)) w in
      let Gm := mask_select seen Gs in
      let wm := mask_select seen w in
      let ym := mask_select seen yl in
      let a := rhs_w K Gm wm ym in
      do G1 <- update_til_psd fuel feps (symmetrise (gram_w K Gm wm));
      do '(G2, lamb) <- retry fuel (fun M => solve (a_no_constraint o) M a) feps 0 G1;
      let base := upd (repeat n0 (length lamb)) 0 n1 in
      let tol := npow (n1 / nof 10) 7 in
      do skip <- (if existsb (fun d => tol <? nabs d) (map2 nsub lamb base) then check G2 (map2 nsub base lamb) else Ok true);
      if (negb skip && a_inner_assess o && (qp_cost G2 a base <? qp_cost G2 a lamb))%bool
      then Err AssertionError
      else
        let lamb' := if a_sanity o then base else lamb in
        do f <- write_forest (map (fun v => [v]) (mv Gs lamb')) 0 ts;
        Ok (f, lamb').
(** the same where check_in_null does not raise *)
Definition smooth_all (fuel : nat) (feps : T) (solve : bool -> mat T -> list T -> option (list T))
    (in_null : mat T -> list T -> bool) :=
  smooth_all_with fuel feps solve (fun G v => Ok (in_null G v)).

End Model.
Arguments all_opts T : clear implicits.
