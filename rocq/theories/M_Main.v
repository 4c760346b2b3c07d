(** M_Main: model of the functions of the experiment scripts
    main/1.0-depth_run_adam.py (called 1.0 below), main/1.1-depth_run_class_adam.py (1.1),
    main/1.2-compare_depth_vs_smooth.py (1.2) and of average_depth
    (main_old/understanding_smoothing_moons.py).  Fitting, data generation and scoring are
    arguments; plots, progress bars and files are left out.  The scripts write
    [NameError(...)] without raise, which has no effect. *)
From Verif Require Import Base TreeSpec M_Tree M_Gamma M_Levels M_Prox M_Grad M_Sgd M_Smooth.

Section Model.
Context {T : Type} {NT : Num T}.
Local Open Scope num_scope.
Implicit Type t : tree T.

(** ** Searches over one tuning parameter *)

(** the string [type] (1.2:17, 84): "reg", "class" or another one *)
Inductive rf_type := TReg | TClass | TOther.

(** 1.2:42-61, one pass of the loop; state (best_depth, best_oob_score, oob_cost), None
    for np.inf.  [score d] is rf.oob_score_ of the forest fitted with parameter [d]. *)
Definition search_step (score : nat -> T) (st : option nat * option T * list T) (d : nat)
    : option nat * option T * list T :=
  let '(bd, bs, cost) := st in
  let s := n1 - score d in
  let better := match bs with None => true | Some b => s <? b end in
  (if better then Some d else bd, if better then Some s else bs, cost ++ [s]).

(** 1.2:15-63 [depth_search]: best_depth, best_oob_score, oob_cost, depth_range.  With
    another [type] the name [model] is unbound when the loop first uses it. *)
Definition depth_search (score : rf_type -> nat -> T) (type : rf_type) (range : list nat)
    : result (option nat * option T * list T * list nat) :=
  match type, range with
  | TOther, _ :: _ => Err UnboundLocalError
  | _, _ => Ok (fold_left (search_step (score type)) range (None, None, []), range)
  end.

(** 1.2:82-130 [node_size_search]: the same loop over min_samples_split *)
Definition node_size_search (score : rf_type -> nat -> T) (type : rf_type) (range : list nat)
    : result (option nat * option T * list T * list nat) :=
  match type, range with
  | TOther, _ :: _ => Err UnboundLocalError
  | _, _ => Ok (fold_left (search_step (score type)) range (None, None, []), range)
  end.

(** 1.2:235-241: the kind of forest the comparison fits; any string but "class" takes the
    second branch *)
Definition compare_model (type : rf_type) : rf_type :=
  match type with TClass => TReg | _ => TClass end.

(** the string distance_style handed to smooth, with parents_all and levels=None:
    smooth_base.py:654-686 raises ValueError for impurity without levels and for a string that is
    neither "depth" nor "impurity" *)
Inductive dist_string := SDepth | SImpurity | SOtherDist.
Definition dist_arg (s : dist_string) (parents_all : bool) : result (dist_choice T) :=
  match s with SDepth => Ok (DDepth parents_all) | SImpurity => Err ValueError | SOtherDist => Err ValueError end.

(** ** Depth of observations *)

(** main_old/understanding_smoothing_moons.py:25-56 [average_depth]; decision_path rejects data without rows *)
Definition average_depth (ts : list (tree T)) (X : mat T) : result (list T) :=
  match X, ts with
  | [], _ :: _ => Err ValueError
  | _, _ =>
    let depth := fold_left (fun acc t => map2 nadd acc (map (fun x => nsum (path_row t x)) X)) ts
                           (repeat n0 (length X)) in
    Ok (map (fun d => d / nof (length ts)) depth)
  end.

(** ** Arrays with three axes *)

(** an array as its shape and its entries *)
Record arr3 := { d_0 : nat; d_1 : nat; d_2 : nat; at3 : nat -> nat -> nat -> T }.

(** [np.zeros((a, b, c))] *)
Definition zeros3 (a b c : nat) : arr3 := {| d_0 := a; d_1 := b; d_2 := c; at3 := fun _ _ _ => n0 |}.

(** [A[i,j,k] = v] *)
Definition set3 (A : arr3) (i j k : nat) (v : T) : result arr3 :=
  if (Nat.ltb i (d_0 A) && Nat.ltb j (d_1 A) && Nat.ltb k (d_2 A))%bool then
    Ok {| d_0 := d_0 A; d_1 := d_1 A; d_2 := d_2 A;
          at3 := fun a b c => if (Nat.eqb a i && Nat.eqb b j && Nat.eqb c k)%bool then v else at3 A a b c |}
  else Err IndexError.

(** [A[i,j,:] = l]: one value is broadcast, another wrong number is a ValueError *)
Definition set_row (A : arr3) (i j : nat) (l : list T) : result arr3 :=
  if negb (Nat.ltb i (d_0 A) && Nat.ltb j (d_1 A)) then Err IndexError
  else if Nat.eqb (length l) (d_2 A) then
    Ok {| d_0 := d_0 A; d_1 := d_1 A; d_2 := d_2 A;
          at3 := fun a b c => if (Nat.eqb a i && Nat.eqb b j)%bool then nth c l n0 else at3 A a b c |}
  else match l with
       | [v] => Ok {| d_0 := d_0 A; d_1 := d_1 A; d_2 := d_2 A;
                      at3 := fun a b c => if (Nat.eqb a i && Nat.eqb b j)%bool then v else at3 A a b c |}
       | _ => Err ValueError
       end.

(** ** Tables for the plots *)

(** np.mean, np.std of a row *)
Definition mean (l : list T) : T := nsum l / nof (length l).
Definition std (l : list T) : T := nsqrt (mean (map (fun x => (x - mean l) * (x - mean l)) l)).

(** a row of the table of depth_error_vis (1.0:353-357) *)
Record err_row := { e_mu : T; e_lower : T; e_upper : T; e_idx : nat; e_model : nat }.

(** 1.0:332-370, 1.1:352-390 [depth_error_vis], the returned table.  The array has the axes (model, depth,
    draw); line 342 takes n_sim from axis 1. *)
Definition depth_error_vis (cv : arr3) (idx_range : option (list nat)) : result (list err_row) :=
  let n_sim := d_1 cv in
  let idx := match idx_range with None => seq 0 (d_1 cv) | Some l => l end in
  foldM (fun acc m =>
    if negb (Nat.eqb (length idx) (d_1 cv)) then Err ValueError
    else Ok (acc ++ map (fun i =>
      let row := map (at3 cv m i) (seq 0 (d_2 cv)) in
      {| e_mu := mean row; e_lower := mean row + std row / nsqrt (nof n_sim);
         e_upper := mean row - std row / nsqrt (nof n_sim); e_idx := nth i idx O; e_model := m |})
      (seq 0 (d_1 cv)))) (seq 0 (d_0 cv)) [].

(** a row of the table of cost_vis (1.0:388-394) *)
Record cost_row := { k_depth : nat; k_sim : nat; k_step : nat; k_c : T }.

(** 1.0:373-405, 1.1:393-425 [cost_vis], the returned table.  The array has the axes (depth, draw, step); line
    381 takes the default range from axis 1. *)
Definition cost_vis (c : arr3) (depth_range : option (list nat)) : result (list cost_row) :=
  let range := match depth_range with None => seq 0 (d_1 c) | Some l => l end in
  foldM (fun acc (it : nat * nat) =>
    foldM (fun acc s =>
      if Nat.ltb (fst it) (d_0 c) then
        Ok (acc ++ map (fun k => {| k_depth := snd it; k_sim := s; k_step := k; k_c := at3 c (fst it) s k |}) (seq 0 (d_2 c)))
      else Err IndexError) (seq 0 (d_1 c)) acc)
    (combine (seq 0 (length range)) range) [].

(** ** The simulation *)

(** options of check_rf_grow given as strings; the last constructor is any other string *)
Inductive data_opt := Generated | SplitData | OtherData.
Inductive tuning_opt := TuneResample | TuneOob | TuneOracle.
Inductive style_opt := LevelBase | ElementBased | OtherStyle.
Inductive batch_opt := SingleTree | AllTrees | OtherBatch.
Inductive init_opt := RfInit | RandomInit | OtherInit.

(** the arguments of check_rf_grow (1.0:157-168; 1.1:169-181 adds loss_class); n_data and n_large are inside
    the cells *)
Record grow_args := {
  w_type : rf_type; w_depths : list nat; w_draws : nat; w_data : data_opt; w_tuning : tuning_opt;
  w_constrained : bool; w_style : style_opt; w_parents : bool; w_batch : batch_opt; w_init : init_opt;
  w_max_iter : nat; w_t : T; w_loss : loss_choice
}.

(** what one pass of the loops gets from outside: three calls of the generator or one
    train_test_split (training and test part), the fitted trees, the number of classes, the out-of-bag and
    bootstrap rows, the draws of the descent, the uniform draws after the seed *)
Record cell := {
  x_gen : mat T * list T; x_gen_tune : mat T * list T; x_gen_test : mat T * list T;
  x_split : (mat T * list T) * (mat T * list T);
  x_fit : nat -> mat T * list T -> list (tree T); x_classes : nat;
  x_oob : nat -> list nat; x_boot : nat -> list nat; x_draws : nat -> nat; x_lamb : nat -> T
}.

(** 1.0:252-281, 1.1:272-300: (data, y), (data_tune, y_tune), (data_test, y_test) *)
Definition cell_data (w : grow_args) (x : cell)
    : result ((mat T * list T) * option (mat T * list T) * (mat T * list T)) :=
  let up (d : mat T * list T) := (fst d, map (fun v => v + nof 100) (snd d)) in
  match w_data w with
  | SplitData => Ok (fst (x_split x), None, snd (x_split x))
  | Generated =>
      Ok (up (x_gen x), match w_tuning w with TuneOracle => Some (up (x_gen_tune x)) | _ => None end,
          up (x_gen_test x))
  | OtherData => Err UnboundLocalError
  end.

Definition grow_kind (w : grow_args) (x : cell) : kind :=
  match w_type w with TReg => Reg | _ => Class (x_classes x) end.

(** 1.0:304-319, 1.1:324-339: the call of smooth.  dist_mat_style, distance_style, class_eps (1e-4) and class_loss (["ce","l2"],
    of which smooth takes the first) are left at their defaults.  y_tune is raveled: rows of one entry.  For classification smooth wants a
    one-hot matrix; labels make it divide an array of L by a matrix of L rows (L leaves) and concatenate the L x L result with arrays of C
    columns, a ValueError as in the model unless every tree has as many leaves as there are classes (not modelled). *)
Definition grow_opts (w : grow_args) (x : cell) (train : mat T * list T) (tune : option (mat T * list T))
    (all_trees : bool) (seeded : bool) : smooth_opts T :=
  {| o_X_trained := Some (fst train); o_y_trained := Some (snd train);
     o_X_tune := match tune with Some d => Some (fst d) | None => None end;
     o_y_tune := match tune with Some d => Some (map (fun v => [v]) (snd d)) | None => None end;
     o_no_constraint := negb (w_constrained w); o_sanity := false;
     o_resample := match w_tuning w with TuneResample => true | _ => false end;
     o_t_fix := w_t w; o_all_trees := all_trees;
     o_lamb_draws := if seeded then Some (x_lamb x) else None;
     o_style := Standard; o_dist := DDepth (w_parents w);
     o_class_eps := npow (n1 / nof 10) 4; o_class_loss := CE;
     o_adam := Some {| ad_alpha := n1 / nof 1000; ad_b1 := nof 9 / nof 10; ad_b2 := nof 999 / nof 1000;
                       ad_eps := npow (n1 / nof 10) 8 |} |}.

(** 1.0:283-327, 1.1:302-347: one pass; the scores in the order of axis 0 of score_mat, and the costs.
    [score] is scoring(y_test, forest.predict(data_test)); [level] is the call of smooth_all (1.0:288-297) with data, y,
    data_tune/y_tune, resample_tune, no_constraint, parents_all.  smooth_rf_last is the second returned forest. *)
Definition grow_cell (lg : T -> T) (score : kind -> list (tree T) -> mat T * list T -> T)
    (level : mat T * list T -> option (mat T * list T) -> bool -> bool -> bool -> list (tree T) -> result (list (tree T)))
    (w : grow_args) (depth : nat) (x : cell) : result (list T * list T) :=
  do '(train, tune, test) <- cell_data w x;
  let ts := x_fit x depth train in
  let kd := grow_kind w x in
  match w_style w with
  | LevelBase =>
      do f <- level train tune (match w_tuning w with TuneResample => true | _ => false end)
                    (negb (w_constrained w)) (w_parents w) ts;
      Ok ([score kd ts test; score kd f test], [])
  | ElementBased =>
      do all_trees <- match w_batch w with SingleTree => Ok false | AllTrees => Ok true | OtherBatch => Err UnboundLocalError end;
      do seeded <- match w_init w with RfInit => Ok false | RandomInit => Ok true | OtherInit => Err UnboundLocalError end;
      do r <- smooth lg (Forest kd ts) (grow_opts w x train tune all_trees seeded)
                {| r_oob := x_oob x; r_boot := x_boot x; r_draws := map (x_draws x) (seq 0 (w_max_iter w)) |};
      Ok ([score kd ts test; score kd (s_forest r) test; score kd (s_forest2 r) test], s_costs r)
  | OtherStyle => Ok ([], [])
  end.

(** 1.0:298-327: [score_mat[k,i,j] = ...] for the scores in order *)
Definition set_scores (Sm : arr3) (i j : nat) (l : list T) : result arr3 :=
  foldM (fun A (it : nat * T) => set3 A (fst it) i j (snd it)) (combine (seq 0 (length l)) l) Sm.

(** 1.0:157-329, 1.1:169-349 [check_rf_grow]: score_mat and c_mat (None for None).  [cells i j] is the outside of pass (i, j). *)
Definition check_rf_grow (lg : T -> T) (score : kind -> list (tree T) -> mat T * list T -> T)
    (level : mat T * list T -> option (mat T * list T) -> bool -> bool -> bool -> list (tree T) -> result (list (tree T)))
    (w : grow_args) (cells : nat -> nat -> cell) : result (arr3 * option arr3) :=
  match w_type w with
  | TOther => Err ValueError
  | _ =>
    let nd := length (w_depths w) in
    let S0 := match w_style w with LevelBase => zeros3 2 nd (w_draws w) | _ => zeros3 3 nd (w_draws w) end in
    let C0 := zeros3 nd (w_draws w) (w_max_iter w + 1) in
    do '(Sm, C) <- foldM (fun st (it : nat * nat) =>
        foldM (fun (st : arr3 * arr3) j =>
          do '(sc, c) <- grow_cell lg score level w (snd it) (cells (fst it) j);
          do C' <- match w_style w with ElementBased => set_row (snd st) (fst it) j c | _ => Ok (snd st) end;
          do Sm' <- set_scores (fst st) (fst it) j sc;
          Ok (Sm', C')) (seq 0 (w_draws w)) st)
      (combine (seq 0 nd) (w_depths w)) (S0, C0);
    match w_style w with
    | LevelBase => Ok (Sm, None)
    | ElementBased => Ok (Sm, Some C)
    | OtherStyle => Err UnboundLocalError
    end
  end.

(** 1.2:262-329, one simulation up to the first call of smooth, and the scores the rest would store.  [fit kd p] is the fit of a forest of
    that kind with no parameter, a max_depth or a min_samples_split; it may raise.  Lines 318-329 hand smooth
    distance_style="standard". *)
Inductive fit_par := NoPar | MaxDepth (d : nat) | MinSplit (k : nat).
Definition compare_sim (lg : T -> T) (oob : rf_type -> fit_par -> T) (fit : rf_type -> fit_par -> result (rf_object T))
    (train : mat T * list T) (rd : randomness) (range : list nat) (type : rf_type) : result (smooth_out T) :=
  do '(dd, _) <- depth_search (fun ty d => oob ty (MaxDepth d)) type range;
  do _ <- fit (compare_model type) (match fst (fst dd) with Some d => MaxDepth d | None => NoPar end);
  do '(nn, _) <- node_size_search (fun ty k => oob ty (MinSplit k)) TReg range;
  do _ <- fit (compare_model type) (match fst (fst nn) with Some k => MinSplit k | None => NoPar end);
  do rf <- fit (compare_model type) NoPar;
  do dist <- dist_arg SOtherDist true;
  smooth lg rf
    {| o_X_trained := Some (fst train); o_y_trained := Some (snd train); o_X_tune := None; o_y_tune := None;
       o_no_constraint := false; o_sanity := false; o_resample := false; o_t_fix := n1; o_all_trees := false;
       o_lamb_draws := None; o_style := Standard; o_dist := dist; o_class_eps := npow (n1 / nof 10) 4; o_class_loss := CE;
       o_adam := Some {| ad_alpha := n1 / nof 1000; ad_b1 := nof 9 / nof 10; ad_b2 := nof 999 / nof 1000;
                         ad_eps := npow (n1 / nof 10) 8 |} |} rd.

End Model.
Arguments arr3 T : clear implicits.
Arguments err_row T : clear implicits.
Arguments cost_row T : clear implicits.
Arguments grow_args T : clear implicits.
Arguments cell T : clear implicits.
