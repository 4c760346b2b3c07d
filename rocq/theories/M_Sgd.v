(** M_Sgd: model of stocastic_grad_descent and stocastic_grad_descent_ce
    (smooth_base.py:1424-1698). *)
From Verif Require Import Base M_Gamma M_Prox M_Grad.

Section Model.
Context {T : Type} {NT : Num T}.
Local Open Scope num_scope.

(** the tuning problem: targets, weights, Gamma, eta, tree_idx_vec *)
Record problem := { p_y : list T; p_w : list T; p_Gamma : mat T; p_eta : mat T; p_tidx : list nat }.

(** smooth_base.py:1519-1522, 1664-1667: the rows of one tree ([x[tree_idx_vec == tree_idx]]) *)
Definition restrict (P : problem) (q : nat) : problem :=
  let m := map (fun i => Nat.eqb i q) (p_tidx P) in
  {| p_y := mask_select m (p_y P); p_w := mask_select m (p_w P);
     p_Gamma := mask_select m (p_Gamma P); p_eta := mask_select m (p_eta P);
     p_tidx := mask_select m (p_tidx P) |}.

(** a loss: its cost and gradient, each a function of the problem and lamb *)
Record loss := { l_cost : problem -> list T -> result T;
                 l_grad : problem -> list T -> result (list T) }.

Definition l2_loss : loss :=
  {| l_cost := fun P lamb => calc_cost (p_y P) (p_Gamma P) (p_eta P) (p_w P) lamb;
     l_grad := fun P lamb => take_gradient (p_y P) (p_Gamma P) (p_eta P) (p_w P) lamb |}.

(** [lg] is np.log *)
Definition ce_loss (lg : T -> T) : loss :=
  {| l_cost := fun P lamb => Ok (calc_cost_ce lg (p_y P) (p_Gamma P) (p_eta P) (p_w P) lamb);
     l_grad := fun P lamb => take_gradient_ce (p_y P) (p_Gamma P) (p_eta P) (p_w P) lamb |}.

(** loop state: lamb, adam's iv (None before the first step), lamb_best,
    cost_best, cost_all *)
Record sgd_state := { g_lamb : list T; g_iv : option (adam_iv T);
                      g_best : list T; g_cbest : T; g_costs : list T }.

(** smooth_base.py:1515-1551 (l2) and 1660-1696 (ce): one pass through the loop.
    [draw] is the random number behind np.random.choice(num_trees): the tree is
    [draw mod num_trees], so every tree can be drawn and only trees are. *)
Definition sgd_step (L : loss) (proj : list T -> result (list T)) (constrained : bool)
    (t_fix : T) (adam : option (adam_par T)) (P : problem) (num_trees : nat)
    (st : sgd_state) (draw : nat) : result sgd_state :=
  let Pq := restrict P (Nat.modulo draw num_trees) in
  do '(lamb1, iv1) <-
    match adam with
    | None => do grad <- l_grad L Pq (g_lamb st);
              Ok (map2 (fun l g => l - t_fix * g) (g_lamb st) grad, None)
    | Some p => do r <- adam_step (l_grad L Pq) (Some (g_lamb st)) p (g_iv st);
                Ok (fst r, Some (snd r))
    end;
  do lamb2 <- (if constrained then proj lamb1 else Ok lamb1);
  do cost_new <- l_cost L P lamb2;
  Ok {| g_lamb := lamb2; g_iv := iv1;
        g_best := if cost_new <? g_cbest st then lamb2 else g_best st;
        g_cbest := if cost_new <? g_cbest st then cost_new else g_cbest st;
        g_costs := g_costs st ++ [cost_new] |}.

(** [np.int(np.max(tree_idx_vec) + 1)]; ValueError on an empty array
    (smooth_base.py:1511, 1656) *)
Definition count_trees (tidx : list nat) : result nat :=
  match tidx with [] => Err ValueError | _ => Ok (list_maxn tidx + 1)%nat end.

(** smooth_base.py:1495-1553 / 1640-1698 after the argument checks; the schedule [draws] has
    one entry per step (num_steps = its length) *)
Definition sgd_run (L : loss) (proj : list T -> result (list T)) (constrained : bool)
    (t_fix : T) (adam : option (adam_par T)) (P : problem) (lamb_init : list T)
    (draws : list nat) : result (list T * list T * list T) :=
  do c0 <- l_cost L P lamb_init;
  do nt <- count_trees (p_tidx P);
  do st <- foldM (sgd_step L proj constrained t_fix adam P nt) draws
                 {| g_lamb := lamb_init; g_iv := None; g_best := lamb_init;
                    g_cbest := c0; g_costs := [c0] |};
  Ok (g_best st, g_lamb st, g_costs st).

(** smooth_base.py:1543: [lamb = prox_project(lamb)].  The overwritten argument
    is a temporary (or iv["lamb"], which the next adam_step replaces because
    lamb_init is passed), so only the returned value is used. *)
Definition prox_value (y : list T) : result (list T) :=
  do r <- prox_project y; Ok (fst r).

(** [np.sum(lamb_init)!=1 or np.any(lamb_init < 0)] (smooth_base.py:1490) *)
Definition off_simplex (lamb : list T) : bool :=
  negb (nsum lamb =? n1) || existsb (fun x => x <? n0) lamb.

(** smooth_base.py:1424-1553 [stocastic_grad_descent] *)
Definition stocastic_grad_descent (P : problem) (lamb_init : list T) (t_fix : T)
    (constrained : bool) (adam : option (adam_par T)) (draws : list nat)
    : result (list T * list T * list T) :=
  if negb (Nat.eqb (ncols (p_Gamma P)) (length lamb_init)) then Err TypeError
  else if (constrained && off_simplex lamb_init)%bool then Err TypeError
  else sgd_run l2_loss prox_value constrained t_fix adam P lamb_init draws.

(** smooth_base.py:1557-1698 [stocastic_grad_descent_ce].  The feasibility test
    of lines 1630-1638 sits in a try whose handler only opens the debugger; it
    has no other effect and is left out. *)
Definition stocastic_grad_descent_ce (lg : T -> T) (P : problem) (lamb_init : list T) (t_fix : T)
    (constrained : bool) (class_eps : T) (adam : option (adam_par T)) (draws : list nat)
    : result (list T * list T * list T) :=
  if negb (Nat.eqb (ncols (p_Gamma P)) (length lamb_init)) then Err TypeError
  else sgd_run (ce_loss lg) (fun y => prox_project_ce y class_eps) constrained t_fix adam P
               lamb_init draws.

End Model.
Arguments problem T : clear implicits.
Arguments loss T : clear implicits.
Arguments sgd_state T : clear implicits.
