(** M_Prune: model of tune_prune.py. *)
From Verif Require Import Base TreeSpec.

(** values of the column g1: floats including NaN and infinities *)
Inductive gval (T : Type) := GNaN | GFin (x : T) | GInf (negative : bool).
Arguments GNaN {T}. Arguments GFin {T}. Arguments GInf {T}.

(** a row of prune_df (tune_prune.py:241-263).  The column idx is np.arange(n) and is
    never changed, so the mask [prune_df.idx == v] selects the row at position v;
    |T_t| is a natural number. *)
Record prow (T : Type) := mkRow {
  pr_single : T;      (* R({t}) *)
  pr_sub : T;         (* R(T_t) *)
  pr_cl : Z; pr_cr : Z;  (* c_left, c_right *)
  pr_nl : nat;        (* |T_t| *)
  pr_par : Z;         (* parent *)
  pr_n : T;           (* n_obs *)
  pr_g1 : gval T      (* g1 *)
}.
Arguments mkRow {T}. Arguments pr_single {T}. Arguments pr_sub {T}. Arguments pr_cl {T}.
Arguments pr_cr {T}. Arguments pr_nl {T}. Arguments pr_par {T}. Arguments pr_n {T}. Arguments pr_g1 {T}.

(** the argument [tree]: a regressor, a classifier or something else *)
Inductive tree_object (T : Type) := TreeObj (kd : kind) (t : tree T) | OtherTree (t : tree T).
Arguments TreeObj {T}. Arguments OtherTree {T}.

Section Model.
Context {T : Type} {NT : Num T}.
Local Open Scope num_scope.
Implicit Type t : tree T.
Notation table := (list (prow T)).

(** [np.argmax] of one row: the first position of the maximum *)
Definition argmax (l : list T) : nat :=
  match l with
  | [] => O
  | x :: r => snd (fold_left (fun '(m, b) '(y, k) => if m <? y then (y, k) else (m, b))
                             (combine r (seq 1 (length r))) (x, O))
  end.

(** tune_prune.py:551-590 [r_single_t].  [tree.tree_.value] has the node's class counts *)
Definition r_single_t (o : tree_object T) : result (list T) :=
  match o with
  | TreeObj Reg t => Ok (t_imp t)
  | TreeObj (Class _) t =>
      Ok (map2 (fun v n => nsum (upd v (argmax v) n0) / n) (t_value t) (t_weight t))
  | OtherTree _ => Err ValueError
  end.

(** tune_prune.py:614-619: [parents[c.c] = c.idx] for the rows with c != -1 *)
Definition scatter_parents (c : list Z) (parents : list Z) : list Z :=
  fold_left (fun ps '(p, ch) => if Z.eqb ch (-1) then ps else upd ps (Z.to_nat ch) (Z.of_nat p))
            (combine (seq 0 (length c)) c) parents.

(** tune_prune.py:593-621 [calc_parent] *)
Definition calc_parent t : list Z :=
  scatter_parents (t_right t) (scatter_parents (t_left t) (repeat (-1)%Z (size t))).

(** the row whose idx is [z], if there is one *)
Definition row_at (df : table) (z : Z) : option (prow T) :=
  if Z.ltb z 0 then None else nth_error df (Z.to_nat z).
(** [.values[0]] of a selection: IndexError when it is empty *)
Definition get (df : table) (z : Z) : result (prow T) :=
  match row_at df z with Some r => Ok r | None => Err IndexError end.
Definition put (df : table) (z : Z) (r : prow T) : table := upd df (Z.to_nat z) r.

(** float division *)
Definition gdiv (a b : T) : gval T :=
  if b =? n0 then (if a =? n0 then GNaN else GInf (a <? n0)) else GFin (a / b).

(** row updates *)
Definition set_leaf1 (r : prow T) : prow T := (* |T_t| = 1 *)
  mkRow (pr_single r) (pr_sub r) (pr_cl r) (pr_cr r) 1 (pr_par r) (pr_n r) (pr_g1 r).
(** tune_prune.py:539-547 and 140-149: |T_t| and R(T_t) from the rows of the children *)
Definition from_children (r l rr : prow T) : prow T :=
  mkRow (pr_single r) ((pr_sub l * pr_n l + pr_sub rr * pr_n rr) / pr_n r) (pr_cl r) (pr_cr r)
        (pr_nl l + pr_nl rr) (pr_par r) (pr_n r) (pr_g1 r).
(** tune_prune.py:398-399 and 152-155 *)
Definition set_g1 (r : prow T) : prow T :=
  mkRow (pr_single r) (pr_sub r) (pr_cl r) (pr_cr r) (pr_nl r) (pr_par r) (pr_n r)
        (gdiv (pr_single r - pr_sub r) (nof (pr_nl r) - n1)).
(** tune_prune.py:198-201: the pruned node becomes a leaf; g1 is not touched *)
Definition set_pruned (r : prow T) : prow T :=
  mkRow (pr_single r) (pr_single r) (-1) (-1) 1 (pr_par r) (pr_n r) (pr_g1 r).
(** tune_prune.py:216-221: a node below the pruned one; [x] is its R({t}) in the table
    before the prune *)
Definition set_removed (x : T) (r : prow T) : prow T :=
  mkRow (pr_single r) x (-2) (-2) 0 (pr_par r) (pr_n r) GNaN.

(** tune_prune.py:511-549 [_recursive_initial_prune_df]; the data frame is updated in
    place, so the second recursive call sees the first one's changes *)
Fixpoint recursive_initial (fuel : nat) (df : table) (v : Z) : result table :=
  match fuel with
  | O => Err RecursionError
  | S f =>
      do r <- get df v;
      if Z.eqb (pr_cl r) (-1) then Ok (put df v (set_leaf1 r))
      else
        do df1 <- recursive_initial f df (pr_cl r);
        do r1 <- get df1 v;
        do df2 <- recursive_initial f df1 (pr_cr r1);
        do r2 <- get df2 v;
        do l <- get df2 (pr_cl r2);
        do rr <- get df2 (pr_cr r2);
        Ok (put df2 v (from_children r2 l rr))
  end.

(** tune_prune.py:374-399 [_append_g1] (the guard against an existing column g1 is
    not modelled: the table it is called on never has one) *)
Definition append_g1 (df : table) : table := map set_g1 df.

(** tune_prune.py:266-284: the data frame before the recursion; g1 does not exist yet
    (its entries here are overwritten by append_g1) *)
Definition start_table (rs : list T) t : table :=
  map (fun v => let x := nth v rs n0 in
         mkRow x x (lc t v) (rc t v) 0 (nth v (calc_parent t) (-1)%Z) (nth v (t_weight t) n0) GNaN)
      (seq 0 (size t)).

(** tune_prune.py:225-290 [_initialize_prune_df] *)
Definition initialize_prune_df (o : tree_object T) : result table :=
  do rs <- r_single_t o;
  let t := match o with TreeObj _ t => t | OtherTree t => t end in
  do df <- recursive_initial (size t) (start_table rs t) 0;
  Ok (append_g1 df).

(** tune_prune.py:210-223 [_recursive_inner_prune]: [df] is the table before the prune,
    [out] the one being written.  If no row has this idx the comparison in line 212 is
    an empty array (false) and every assignment is to an empty selection. *)
Fixpoint recursive_inner_prune (fuel : nat) (df out : table) (v : Z) : result table :=
  match fuel with
  | O => Err RecursionError
  | S f =>
      match row_at df v with
      | None => Ok out
      | Some r =>
          do out1 <- (if Z.eqb (pr_cl r) (-1) then Ok out
                      else do o1 <- recursive_inner_prune f df out (pr_cl r);
                           recursive_inner_prune f df o1 (pr_cr r));
          do ro <- get out1 v;
          Ok (put out1 v (set_removed (pr_single r) ro))
      end
  end.

(** tune_prune.py:169-207 [_inner_prune_down] *)
Definition inner_prune_down (df : table) (v : Z) : result table :=
  do r <- get df v;
  let out := put df v (set_pruned r) in
  if Z.eqb (pr_cl r) (-1) then Ok out
  else do o1 <- recursive_inner_prune (length df) df out (pr_cl r);
       recursive_inner_prune (length df) df o1 (pr_cr r).

(** tune_prune.py:138-165: the while loop; the queue holds at most one node *)
Fixpoint update_loop (fuel : nat) (df : table) (cur : Z) : result table :=
  match fuel with
  | O => Err RecursionError
  | S f =>
      do r <- get df cur;
      do l <- get df (pr_cl r);
      do rr <- get df (pr_cr r);
      let df1 := put df cur (set_g1 (from_children r l rr)) in
      if Z.eqb (pr_par r) (-1) then Ok df1 else update_loop f df1 (pr_par r)
  end.

(** tune_prune.py:110-167 [_inner_prune_update_upward] *)
Definition inner_prune_update_upward (df : table) (v : Z) : result table :=
  do r <- get df v;
  if Z.eqb (pr_par r) (-1) then Ok df else update_loop (length df) df (pr_par r).

(** tune_prune.py:79-108 [_inner_prune] *)
Definition inner_prune (df : table) (v : Z) : result table :=
  do r <- get df v;
  if (Z.eqb (pr_cl r) (-1) || Z.eqb (pr_cl r) (-2))%bool then Err ValueError
  else do d <- inner_prune_down df v; inner_prune_update_upward d v.

(** tune_prune.py:60-76 [prune_tree]: prune_df_full is not defined anywhere *)
Definition prune_tree (o : tree_object T) : result table :=
  do _ <- initialize_prune_df o; Err NameError.

End Model.
