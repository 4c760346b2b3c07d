(** M_OldCmp: model of main_old/depth_vs_smooth_full.py (called "old 1.2" below), the older version of main/1.2-compare_depth_vs_smooth.py.
    Reading the data file, generating, splitting and fitting are arguments; plots and progress bars are left out.  [NameError(...)] without
    raise has no effect. *)
From Coq Require Import Ascii.
From Coq Require Strings.String.
From Verif Require Import Base TreeSpec M_Tree M_Gamma M_Levels M_Prox M_Grad M_Sgd M_Smooth M_Analysis M_Main M_Predict M_Prelim M_Cmd.
Import Coq.Strings.String.StringSyntax.
Local Open Scope string_scope.
Local Open Scope list_scope.

Section Model.
Context {T : Type} {NT : Num T}.
Local Open Scope num_scope.

(** a float that may be infinite: best_oob_score *)
Inductive ext := PInf | NInf | Fin (x : T).

(** old 1.2:55, 117: [oob_score < best_oob_score] *)
Definition below (s : T) (b : ext) : bool := match b with PInf => true | NInf => false | Fin x => s <? x end.

(** old 1.2:42-61, 104-123: one pass of the loop; state (best_depth, best_oob_score, oob_cost), None for a best_depth of np.inf.  The condition
    of line 54 (116) is True, so the else branch is never taken. *)
Definition old_step (score : nat -> T) (st : option nat * ext * list T) (d : nat) : option nat * ext * list T :=
  let '(bd, bs, cost) := st in
  let s := n1 - score d in
  (if below s bs then Some d else bd, if below s bs then Fin s else bs, cost ++ [s]).

(** old 1.2:35-38, 97-100: best_oob_score before the loop *)
Definition old_start (type : rf_type) : ext := match type with TReg => PInf | _ => NInf end.

(** old 1.2:15-63 [depth_search].  With another [type] the name [model] is unbound when the loop first uses it. *)
Definition old_depth_search (score : rf_type -> nat -> T) (type : rf_type) (range : list nat)
    : result (option nat * ext * list T * list nat) :=
  match type, range with
  | TOther, _ :: _ => Err UnboundLocalError
  | _, _ => Ok (fold_left (old_step (score type)) range (None, old_start type, []), range)
  end.

(** old 1.2:77-125 [node_size_search]: the same loop over min_samples_split *)
Definition old_node_size_search (score : rf_type -> nat -> T) (type : rf_type) (range : list nat)
    : result (option nat * ext * list T * list nat) :=
  match type, range with
  | TOther, _ :: _ => Err UnboundLocalError
  | _, _ => Ok (fold_left (old_step (score type)) range (None, old_start type, []), range)
  end.

(** everything from outside one simulation uses: the data [u_split] of the split (old 1.2:189-192), [u_gen n] of the generator (194, 198; the
    two calls draw different data), rf.oob_score_ of the candidates, the trees of the three fitted forests and what the two calls of smooth draw *)
Record outside := {
  u_split : frame (T := T) * frame (T := T); u_gen : nat -> nat -> frame (T := T);
  u_oob : fit_par -> T; u_fit : fit_par -> result (list (tree T)); u_rand : nat -> randomness
}.

(** old 1.2:240-249, 254-261: the call of smooth, with distance_style = "standard" *)
Definition old_smooth (lg : T -> T) (ts : list (tree T)) (train : frame (T := T)) (rd : randomness) : result (smooth_out T) :=
  do dist <- dist_arg SOtherDist true;
  smooth lg (Forest Reg ts)
    {| o_X_trained := Some (fst train); o_y_trained := Some (snd train); o_X_tune := None; o_y_tune := None;
       o_no_constraint := false; o_sanity := false; o_resample := false; o_t_fix := n1; o_all_trees := false;
       o_lamb_draws := None; o_style := Standard; o_dist := dist; o_class_eps := npow (n1 / nof 10) 4; o_class_loss := CE;
       o_adam := None |} rd.

(** old 1.2:188-201: the data of a simulation; without a data_generator a NameError *)
Definition old_data (data_set : str) (u : outside) : result (frame (T := T) * frame (T := T)) :=
  let plus f := (fst f, map (fun v => v + nof 100) (snd f)) in
  if str_eqb data_set (lit "online_news") then Ok (u_split u)
  else if str_eqb data_set (lit "microsoft") then Ok (plus (u_gen u 0 650), plus (u_gen u 1 10000))
  else Err NameError.

(** old 1.2:185-273: one simulation: the new row of oob_mat, of n_oob_mat and of sim_info *)
Definition old_sim (lg : T -> T) (data_set : str) (u : outside) : result (list T * list T * list T) :=
  let par f (b : option nat) := match b with Some k => f k | None => NoPar end in
  do '(train, test) <- old_data data_set u;
  let predict ts := predict_rows Reg [] ts (fst test) in
  do '(dd, _) <- old_depth_search (fun _ d => u_oob u (MaxDepth d)) TReg cmd_depths;
  do d_ts <- u_fit u (par MaxDepth (fst (fst dd)));
  do p_depth <- predict d_ts;
  do '(nn, _) <- old_node_size_search (fun _ k => u_oob u (MinSplit k)) TReg cmd_depths;
  do n_ts <- u_fit u (par MinSplit (fst (fst nn)));
  do p_node <- predict n_ts;
  do ts <- u_fit u NoPar;
  do p_base <- predict ts;
  do sm <- old_smooth lg ts train (u_rand u 0);
  do p_sm <- predict (s_forest sm);
  do p_smb <- predict (s_forest2 sm);
  do dsm <- old_smooth lg d_ts train (u_rand u 1);
  do p_dsm <- predict (s_forest dsm);
  do p_dsmb <- predict (s_forest2 dsm);
  do row <- mapM (mean_squared_error (snd test)) [p_depth; p_base; p_sm; p_dsm; p_smb; p_dsmb; p_node];
  Ok (snd dd, snd nn, row).

(** old 1.2:151-279: the script up to its two text files.  [news] is the reading of the file of "online_news" (153-158), [us k] the outside of
    simulation [k]. *)
Definition old_compare (lg : T -> T) (news : result unit) (us : nat -> outside) (argv : list str) : result (list (str * list (list T))) :=
  do data_set <- arg argv 1;
  do _ <- (if str_eqb data_set (lit "online_news") then news else Ok tt);
  do rows <- mapM (fun k => old_sim lg data_set (us k)) (seq 0 20);
  Ok [(lit "../images/" ++ data_set ++ lit ".csv", map (fun r => snd r) rows);
      (lit "../images/" ++ data_set ++ lit "_oob" ++ lit ".csv", map (fun r => fst (fst r)) rows)].

End Model.
Arguments ext T : clear implicits.
Arguments outside T : clear implicits.
