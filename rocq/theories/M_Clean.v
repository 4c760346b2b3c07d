(** M_Clean: model of smooth_clean.py:15-1060 (smoothing with the out-of-bag prediction error
    as loss; regression only). *)
From Verif Require Import Base TreeSpec M_Tree M_Gamma M_Levels M_Prox M_Grad M_Sgd M_Smooth.

Section Model.
Context {T : Type} {NT : Num T}.
Local Open Scope num_scope.
Implicit Type t : tree T.

(** ** generate_oob_info *)

(** smooth_clean.py:75-76 [d_path_leaf], one row: 1 at the leaf the observation visits *)
Definition leaf_hit t (x : list T) : list nat :=
  leaf_select t (map (fun v => if existsb (Nat.eqb v) (path_nodes (size t) t x 0) then 1%nat else O) (seq 0 (size t))).

(** smooth_clean.py:78-80, one entry of idx_mat_prime *)
Definition leaf_number t (x : list T) : nat := dotn (leaf_hit t x) (seq 0 (num_leaf t)).

(** smooth_clean.py:15-92 [generate_oob_info].  [oob q] are the rows that
    _generate_unsampled_indices returns for tree q; an index outside the data raises IndexError
    (line 72), an array without rows is refused by scikit-learn (line 75).  With an empty forest
    nothing raises. *)
Definition generate_oob_info (ts : list (tree T)) (oob : nat -> list nat) (X : mat T)
    : result (list (list nat) * list T) :=
  let nt := length ts in
  let n := length X in
  if existsb (fun q => existsb (fun o => Nat.leb n o) (oob q)) (seq 0 nt) then Err IndexError
  else if (Nat.ltb 0 nt && Nat.eqb n 0)%bool then Err ValueError
  else
    let prime := map (fun o => map (fun q => if existsb (Nat.eqb o) (oob q) then 1%nat else O) (seq 0 nt)) (seq 0 n) in
    let cum := offsets 0 (map num_leaf ts) in
    let idx := map (fun x => map2 Nat.add (map (fun t => leaf_number t x) ts) cum) X in
    let w := map (fun r => let c := sumn r in
                           let c1 := if Nat.eqb c 0 then 1%nat else c in
                           map (fun e => nof e / nof c1) r) prime in
    Ok (idx, concat w).

(** ** predictions *)

(** smooth_clean.py:189-195 [create_G_H] (indices are not negative) *)
Definition create_G_H (Gamma eta : mat T) (idx : list (list nat)) (obs : list nat) : result (mat T * mat T) :=
  do cur <- take_rows idx obs;
  do G <- take_rows Gamma (concat cur);
  do H <- take_rows eta (concat cur);
  Ok (G, H).

(** smooth_clean.py:339-344 [calc_G_H_fill] *)
Definition calc_G_H_fill (lamb : list T) (Gamma eta : mat T) (idx : list (list nat)) (obs : list nat)
    : result (list T * list T) :=
  do '(G, H) <- create_G_H Gamma eta idx obs;
  Ok (mv G lamb, mv H lamb).

(** [idx_mat.shape[1]] *)
Definition n_trees (idx : list (list nat)) : nat := length (hd [] idx).

(** smooth_clean.py:279-281, 428-430 [oob_weights_inner_first] *)
Definition obs_weights (idx : list (list nat)) (w : list T) (obs : list nat) : result (mat T) :=
  mapM (fun ob => take_rows w (seq (n_trees idx * ob) (n_trees idx))) obs.

(** smooth_clean.py:283, 432 [ever_oob] in exact arithmetic *)
Definition ever_oob (ws : mat T) : list bool := map (fun item => nsum item =? n1) ws.

(** scipy.sparse.kron(identity(n), ones((k,))): row i is 1 on the i-th block of k columns *)
Definition kron_ones (n k : nat) : mat T :=
  map (fun i => map (fun j => if Nat.eqb (Nat.div j k) i then n1 else n0) (seq 0 (n * k))) (seq 0 n).

(** smooth_clean.py:241-303 [calc_y_oob].  Line 293 replaces the denominator only where the
    numerator is 0; x/0 with x <> 0 (numpy: inf) is not modelled, the theorems assume
    non-zero denominators. *)
Definition calc_y_oob (lamb : list T) (Gamma eta : mat T) (idx : list (list nat)) (w : list T) (obs : list nat)
    : result (list T * list bool) :=
  do ws <- obs_weights idx w obs;
  do '(Gf, Hf) <- calc_G_H_fill lamb Gamma eta idx obs;
  let H1 := map2 (fun g h => if g =? n0 then n1 else h) Gf Hf in
  let left_part := map2 ndiv Gf H1 in
  Ok (mv (kron_ones (length obs) (n_trees idx)) (map2 nmul (concat ws) left_part), ever_oob ws).

(** scipy.sparse.block_diag of one-row blocks *)
Definition block_diag (bs : mat T) : mat T :=
  map (fun i => concat (map (fun jb => if Nat.eqb (fst jb) i then snd jb else repeat n0 (length (snd jb)))
                            (combine (seq 0 (length bs)) bs))) (seq 0 (length bs)).

(** the i-th block of k entries (lines 441, 447, 450: fancy indexing, a copy) *)
Definition slice (i k : nat) (l : list T) : list T := firstn k (skipn (i * k) l).

(** smooth_clean.py:440-444 [get_G_fill] *)
Definition get_G_fill (Gf : list T) (k i : nat) : list T := map (fun x => n1 / x) (fill1 (slice i k Gf)).
(** smooth_clean.py:446-454 [get_G_over_H2_fill] *)
Definition get_G_over_H2_fill (Gf Hf : list T) (k i : nat) : list T :=
  map2 (fun g h => g / (h * h)) (slice i k Gf) (fill1 (slice i k Hf)).

(** [M1 @ diags(w) @ M2] with K columns in M2 *)
Definition weighted_prod (K : nat) (M1 : mat T) (w : list T) (M2 : mat T) : mat T :=
  map (fun r => map (fun k => dot (map2 nmul r w) (col k M2)) (seq 0 K)) M1.

(** smooth_clean.py:388-463 [calc_y_oob_grad]: one row per observation, one column per weight *)
Definition calc_y_oob_grad (lamb : list T) (Gamma eta : mat T) (idx : list (list nat)) (w : list T) (obs : list nat)
    : result (mat T) :=
  do ws <- obs_weights idx w obs;
  do '(Gf, Hf) <- calc_G_H_fill lamb Gamma eta idx obs;
  do '(G, H) <- create_G_H Gamma eta idx obs;
  let k := n_trees idx in
  let star := block_diag (map (get_G_fill Gf k) (seq 0 (length obs))) in
  let star2 := block_diag (map (get_G_over_H2_fill Gf Hf k) (seq 0 (length obs))) in
  let K := length lamb in
  Ok (map2 (map2 nsub) (weighted_prod K star (concat ws) G) (weighted_prod K star2 (concat ws) H)).

Definition countb (l : list bool) : nat := length (filter (fun b => b) l).

(** smooth_clean.py:505-547 [calc_l2_grad]; 2/n_oob with n_oob = 0 (numpy: inf) is not modelled *)
Definition calc_l2_grad (lamb : list T) (Gamma eta : mat T) (idx : list (list nat)) (w : list T) (obs : list nat)
    (y : list T) : result (list T) :=
  do yi <- take_rows y obs;
  do '(yo, ever) <- calc_y_oob lamb Gamma eta idx w obs;
  do g <- calc_y_oob_grad lamb Gamma eta idx w obs;
  let f := map2 (fun a b => (n1 + n1) / nof (countb ever) * (a - b)) yo yi in
  Ok (map (fun k => dot f (col k g)) (seq 0 (length lamb))).

(** smooth_clean.py:590-594 [calc_cost_l2_straight]: a boolean index of the wrong length raises
    IndexError; the mean of no numbers (numpy: nan) is not modelled *)
Definition calc_cost_l2_straight (yo y : list T) (ever : list bool) : result T :=
  if (Nat.eqb (length yo) (length ever) && Nat.eqb (length y) (length ever))%bool then
    let d := map2 nsub (mask_select ever yo) (mask_select ever y) in
    Ok (nsum (map (fun x => x * x) d) / nof (countb ever))
  else Err IndexError.

(** ** descent *)

(** everything the loss is computed from *)
Record clean_problem := { c_Gamma : mat T; c_eta : mat T; c_idx : list (list nat); c_w : list T; c_y : list T }.

(** smooth_clean.py:787-792, 826-832: cost over all observations *)
Definition full_cost (P : clean_problem) (lamb : list T) : result T :=
  do '(yo, ever) <- calc_y_oob lamb (c_Gamma P) (c_eta P) (c_idx P) (c_w P) (seq 0 (length (c_idx P)));
  calc_cost_l2_straight yo (c_y P) ever.
(** smooth_clean.py:796-801, 838-843: cost over the drawn observations *)
Definition part_cost (P : clean_problem) (lamb : list T) (obs : list nat) : result T :=
  do '(yo, ever) <- calc_y_oob lamb (c_Gamma P) (c_eta P) (c_idx P) (c_w P) obs;
  do yi <- take_rows (c_y P) obs;
  calc_cost_l2_straight yo yi ever.

(** loop state; [cs_best] is None while lamb_best and cost_best are unbound *)
Record clean_state := { cs_lamb : list T; cs_iv : option (adam_iv T);
                        cs_best : option (list T * T); cs_costs : list T }.

(** smooth_clean.py:804-824: step from [lamb], then projection *)
Definition clean_move (constrained : bool) (t_fix : T) (adam : option (adam_par T)) (P : clean_problem)
    (lamb : list T) (iv : option (adam_iv T)) (obs : list nat) : result (list T * option (adam_iv T)) :=
  let gradf := fun l => calc_l2_grad l (c_Gamma P) (c_eta P) (c_idx P) (c_w P) obs (c_y P) in
  do '(lamb1, iv1) <-
    match adam with
    | None => do grad <- gradf lamb; Ok (map2 (fun l g => l - t_fix * g) lamb grad, None)
    | Some p => do r <- adam_step gradf (Some lamb) p iv; Ok (fst r, Some (snd r))
    end;
  do lamb2 <- (if constrained then prox_value lamb1 else Ok lamb1);
  Ok (lamb2, iv1).

(** smooth_clean.py:777-843: one pass; [first] is s_step == 0; [obs] is what np.random.choice
    returns, which raises ValueError when n_obs exceeds the number of observations.  The
    improvement test of line 834 is [cost_new < cost_new]. *)
Definition clean_step (use_full : bool) (constrained : bool) (t_fix : T) (adam : option (adam_par T))
    (P : clean_problem) (n_obs : nat) (st : clean_state) (it : nat * list nat) : result clean_state :=
  let '(s, obs) := it in
  if Nat.ltb (length (c_idx P)) n_obs then Err ValueError
  else
    do st0 <- (if Nat.eqb s 0 then
                 if use_full then
                   do c <- full_cost P (cs_lamb st);
                   Ok {| cs_lamb := cs_lamb st; cs_iv := None; cs_best := Some (cs_lamb st, c);
                         cs_costs := cs_costs st ++ [c] |}
                 else
                   do c <- part_cost P (cs_lamb st) obs;
                   Ok {| cs_lamb := cs_lamb st; cs_iv := None; cs_best := cs_best st; cs_costs := cs_costs st ++ [c] |}
               else Ok st);
    do '(lamb2, iv1) <- clean_move constrained t_fix adam P (cs_lamb st0) (cs_iv st0) obs;
    if use_full then
      do c <- full_cost P lamb2;
      Ok {| cs_lamb := lamb2; cs_iv := iv1;
            cs_best := if c <? c then Some (lamb2, c) else cs_best st0; cs_costs := cs_costs st0 ++ [c] |}
    else
      do c <- part_cost P lamb2 obs;
      Ok {| cs_lamb := lamb2; cs_iv := iv1; cs_best := cs_best st0; cs_costs := cs_costs st0 ++ [c] |}.

(** [np.allclose(x, 1)]: |x - 1| <= 1e-8 + 1e-5 *)
Definition allclose1 (x : T) : bool :=
  let tenth := n1 / nof 10 in
  let tol := npow tenth 8 + npow tenth 5 in
  (nleb (x - n1) tol && nleb (n1 - x) tol)%bool.

(** smooth_clean.py:687-851 [stocastic_grad_descent_clean]; one element of [draws] per step
    (num_steps = its length) *)
Definition stocastic_grad_descent_clean (P : clean_problem) (lamb_init : list T) (n_obs : nat) (use_full : bool)
    (t_fix : T) (constrained : bool) (adam : option (adam_par T)) (draws : list (list nat))
    : result (list T * list T * list T) :=
  if negb (Nat.eqb (ncols (c_Gamma P)) (length lamb_init)) then Err TypeError
  else if (constrained && (negb (allclose1 (nsum lamb_init)) || existsb (fun x => x <? n0) lamb_init))%bool then Err TypeError
  else
    do st <- foldM (clean_step use_full constrained t_fix adam P n_obs) (combine (seq 0 (length draws)) draws)
               {| cs_lamb := lamb_init; cs_iv := None; cs_best := None; cs_costs := [] |};
    if use_full then
      match cs_best st with
      | Some (b, _) => Ok (b, cs_lamb st, cs_costs st)
      | None => Err UnboundLocalError
      end
    else Ok (cs_lamb st, cs_lamb st, cs_costs st).

(** ** smooth_clean *)

(** the arguments of smooth_clean (smooth_clean.py:863-874); [k_lamb_draws] as in M_Smooth *)
Record clean_opts := {
  k_X : mat T; k_y : list T; k_no_constraint : bool; k_sanity : bool; k_t_fix : T;
  k_all_obs : bool; k_use_full : bool; k_n_obs : nat; k_lamb_draws : option (nat -> T);
  k_style : dstyle; k_dist : dist_choice T; k_adam : option (adam_par T)
}.

(** smooth_clean.py:975-981 *)
Definition clean_matrices (o : clean_opts) (ts : list (tree T)) : result (list (mat T) * mat T * list nat) :=
  match k_dist o with
  | DDepth pa => create_Gamma_eta_forest Reg pa (k_style o) ts
  | DImp lv => create_Gamma_eta_forest_imp Reg (k_style o) lv ts
  end.

(** smooth_clean.py:988-994 *)
Definition clean_start (o : clean_opts) (K : nat) : list T :=
  match k_lamb_draws o with
  | None => upd (repeat n0 K) 0 n1
  | Some u => normalise (map u (seq 0 K))
  end.

(** smooth_clean.py:863-1060 [smooth_clean]: the forest, its .lamb and the costs.  [oob q] is as in
    generate_oob_info, [draws] the observations drawn for each step.  Writing the leaf values
    (lines 1030-1056) is the code of smooth (M_Smooth). *)
Definition smooth_clean (rf : rf_object T) (o : clean_opts) (oob : nat -> list nat) (draws : list (list nat))
    : result (list (tree T) * list T * list T) :=
  match rf with
  | OtherObject => Err ValueError
  | Forest (Class _) _ => Err ValueError
  | Forest Reg ts =>
      do '(G, E, _) <- clean_matrices o ts;
      do '(idx, w) <- generate_oob_info ts oob (k_X o);
      let Gm := concat G in
      let lamb0 := clean_start o (ncols Gm) in
      let n_obs := if k_all_obs o then length (k_X o) else k_n_obs o in
      let full := (k_all_obs o || k_use_full o)%bool in
      let P := {| c_Gamma := Gm; c_eta := E; c_idx := idx; c_w := w; c_y := k_y o |} in
      do '(lamb, c) <-
        (if k_sanity o then Ok (upd (repeat n0 (ncols Gm)) 0 n1, [])
         else do '(b, _, c) <- stocastic_grad_descent_clean P lamb0 n_obs full (k_t_fix o) (negb (k_no_constraint o))
                                 (k_adam o) draws;
              Ok (b, c));
      do f <- write_forest (unflatten 1 (length E) (new_values Gm E lamb)) 0 ts;
      Ok (f, lamb, c)
  end.

End Model.
Arguments clean_problem T : clear implicits.
Arguments clean_state T : clear implicits.
Arguments clean_opts T : clear implicits.
