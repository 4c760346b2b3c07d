(** M_Job: model of the analysis scripts from the command line to the files (main/analysis.py, main/analysis_both.py,
    main/analysis_both_clean.py).  The jobs and dictionaries are those of M_Analysis.  Timing (entry "time" of the files), printing and the part
    under "if False" are left out. *)
From Coq Require Import Ascii.
From Coq Require Strings.String.
From Verif Require Import Base TreeSpec M_Tree M_Gamma M_Levels M_Grad M_Sgd M_Smooth M_Clean M_Depth M_Level M_Analysis M_Main M_Predict.
Import Coq.Strings.String.StringSyntax.
Local Open Scope string_scope.
Local Open Scope list_scope.

(** analysis.py, analysis_both.py, analysis_both_clean.py *)
Inductive ascript := AOne | ABoth | AClean.

(** the arguments as the scripts read them; [c_style] is read by analysis.py only *)
Record acmd := { c_data : str; c_type : str; c_trees : nat; c_style : str; c_levels : option nat }.

(** analysis.py:29-47, analysis_both.py:29-39, analysis_both_clean.py:34-44.  [int_of] is np.int of a string.  The bare except takes a missing
    number of levels and one that cannot be read for None. *)
Definition read_job (int_of : str -> option nat) (sc : ascript) (argv : list str) : result acmd :=
  let arg k := match nth_error argv k with Some s => Ok s | None => Err IndexError end in
  do data <- arg 1;
  do type <- arg 2;
  do n <- arg 3;
  do trees <- match int_of n with Some n => Ok n | None => Err ValueError end;
  do style <- match sc with
              | AOne =>
                  let s := match arg 4 with Ok s => s | Err _ => lit "depth" end in
                  if (str_eqb s (lit "impurity") || str_eqb s (lit "depth"))%bool then Ok s else Err ValueError
              | _ => Ok []
              end;
  let levels := match arg (match sc with AOne => 5 | _ => 4 end) with Ok s => int_of s | Err _ => None end in
  Ok {| c_data := data; c_type := type; c_trees := trees; c_style := style; c_levels := levels |}.

Definition type_of (s : str) : rf_type := if str_eqb s (lit "reg") then TReg else if str_eqb s (lit "class") then TClass else TOther.

Section Model.
Context {T : Type} {NT : Num T}.
Local Open Scope num_scope.

(** what the scripts get from outside: the data sets before the shift, the random seed, the split into training and test data, fitted forests
    (the second with their number of classes and labels), the random choices of each call ([u_oob] are the forest's out-of-bag rows), the solver, the
    machine epsilon and the null space test of smooth_all,
    today's date and what the call of smooth_clean that is not modelled does *)
Record world := {
  u_raw : str -> result (mat T * list T);
  u_seed : nat;
  u_split : mat T * list T -> result ((mat T * list T) * (mat T * list T));
  u_fit_reg : nat -> mat T * list T -> result (list (tree T));
  u_fit_class : nat -> mat T * list T -> result (nat * list T * list (tree T));
  u_depth : randomness;
  u_fuel : nat; u_feps : T; u_solve : bool -> mat T -> list T -> option (list T); u_check : mat T -> list T -> result bool;
  u_rng : nat -> nat -> T;
  u_rd : params T -> randomness;
  u_oob : nat -> list nat; u_clean : params T -> list (list nat);
  u_other : params T -> result (list (tree T) * list T * list T);
  u_date : str
}.
(** analysis.py:52-121, analysis_both.py:44-113, analysis_both_clean.py:48-138 [pull_data].  For another name it returns None, which cannot be
    unpacked; the ValueErrors for the other type are not raised. *)
Definition pull_data (w : world) (data type : str) : result (mat T * list T) :=
  if (str_eqb data (lit "microsoft") || str_eqb data (lit "moon"))%bool then
    do '(X, y) <- u_raw w data;
    Ok (X, if str_eqb type (lit "reg") then map (fun v => v + nof 100) y else y)
  else if (str_eqb data (lit "prgeng") || str_eqb data (lit "titantic"))%bool then u_raw w data
  else Err TypeError.

(** [generate_rf] of M_Predict, with the kind of the forest and its labels *)
Definition fit_rf (w : world) (type : rf_type) (n : nat) (train : mat T * list T) : result (kind * list T * list (tree T)) :=
  match type with
  | TReg => do ts <- u_fit_reg w n train; Ok (Reg, [], ts)
  | TClass => do '(k, cl, ts) <- u_fit_class w n train; Ok (Class k, cl, ts)
  | TOther => Err UnboundLocalError
  end.

(** the grids (analysis.py:287-290, analysis_both.py:279-282, analysis_both_clean.py:290-293) *)
Definition g_alphas : list T := [npow (n1 / nof 10) 3; npow (n1 / nof 10) 2; n1 / nof 10; nof 3 / nof 10].
Definition g_beta1 : list T := [n1 / nof 10; nof 3 / nof 10; nof 5 / nof 10; nof 9 / nof 10; nof 999 / nof 1000].
Definition g_beta0 : list T := [nof 9 / nof 10; nof 95 / nof 100; nof 99 / nof 100].
Definition g_eps : list T := [npow (n1 / nof 10) 8; npow (n1 / nof 10) 4].

(** what a script wrote, in order, and the exception it ended with *)
Definition outcome : Type := list (str * (sdict (list T) * sdict (list T))) * option exn.
Definition andthen {A} (r : result A) (k : A -> outcome) : outcome := match r with Ok a => k a | Err e => ([], Some e) end.

(** the names of the files (analysis.py:262-263 and 436-443, analysis_both.py:254-255 and 431-438, analysis_both_clean.py:454-463) *)
Definition early_file (c : acmd) (seed : nat) : str :=
  lit "data/" ++ c_data c ++ lit "_" ++ c_type c ++ lit "_" ++ str_nat (c_trees c) ++ lit "_" ++ str_nat seed ++ lit ".pkl".
Definition late_file (sc : ascript) (c : acmd) (seed : nat) (date : str) : str :=
  lit "data/" ++ c_data c ++ lit "_" ++
  match sc with AOne => c_style c | ABoth => lit "both " | AClean => lit "both_clean" end ++ lit "_" ++
  match c_levels c with Some n => lit "levels_" ++ str_nat n | None => [] end ++
  c_type c ++ lit "_" ++ str_nat (c_trees c) ++ lit "_" ++ str_nat seed ++
  match sc with AClean => lit "_" ++ date | _ => [] end ++ lit ".pkl".

(** analysis.py:233-238, analysis_both.py:225-230 [smooth_all_wrapper]: score and weights *)
Definition wols_job (w : world) (ts : list (tree T)) (train test : mat T * list T) (pn : bool * bool) : result (T * list T) :=
  let '(pa, nc) := pn in
  do '(f, lamb) <- smooth_all_with (u_fuel w) (u_feps w) (u_solve w) (u_check w) {| a_X := fst train; a_y := snd train; a_X_tune := None; a_y_tune := None; a_no_constraint := nc; a_sanity := false;
                                    a_resample := false; a_parents_all := pa; a_inner_assess := false |} (u_oob w) (fun _ => []) ts;
  do s <- assess_rf (Forest Reg f) [] (fst test) (snd test);
  Ok (s, lamb).

(** the whole script.  A score that could be computed for the forest (first call of assess_rf) can be for the other forests of the same kind, so the
    score of a job is never the default; the same for the four calls of smooth_all after all have returned. *)
Definition run_job (int_of : str -> option nat) (fs : T -> str) (lg : T -> T) (w : world) (sc : ascript) (argv : list str) : outcome :=
  andthen (read_job int_of sc argv) (fun c =>
  andthen (pull_data w (c_data c) (c_type c)) (fun Xy =>
  andthen (u_split w Xy) (fun '(train, test) =>
  andthen (fit_rf w (type_of (c_type c)) (c_trees c) train) (fun '(kd, cl, ts) =>
  let score f := assess_rf (Forest kd f) cl (fst test) (snd test) in
  andthen (score ts) (fun _ =>
  andthen (depth_tune (Forest kd ts) {| d_X_trained := Some (fst train); d_y_trained := Some (snd train); d_X_tune := None; d_y_tune := None; d_resample := false |} (u_depth w))
    (fun '(dts, dl) =>
  andthen (score dts) (fun dsc =>
  let assess f := match score f with Ok s => s | Err _ => n0 end in
  let late := late_file sc c (u_seed w) (u_date w) in
  match sc with
  | AClean =>
      andthen (analysis_clean (u_other w) fs kd ts (fst train) (snd train) (c_levels c) (u_rng w) (u_oob w) (u_clean w) (u_seed w) g_alphas g_beta1 g_beta0 g_eps
               assess dsc dl) (fun d => ([(late, d)], None))
  | _ =>
      let wols pa nc := match wols_job w ts train test (pa, nc) with Ok r => r | Err _ => (n0, []) end in
      let jobs := analysis_old (match sc with ABoth => true | _ => false end) lg fs (match sc with ABoth => opt_styles | _ => [c_style c] end) kd ts
                    (fst train) (snd train) (c_levels c) (u_rng w) (u_rd w) (u_seed w) g_alphas g_beta1 g_beta0 g_eps assess dsc dl wols in
      match kd with
      | Reg =>
          andthen (mapM (wols_job w ts train test) [(true, true); (true, false); (false, true); (false, false)]) (fun _ =>
          let '(fl, ex) := andthen jobs (fun d => ([(late, d)], None)) in
          ((early_file c (u_seed w), add_wols Reg wols (start_scoring (assess ts) dsc, start_info (u_seed w) dl)) :: fl, ex))
      | Class _ => andthen jobs (fun d => ([(late, d)], None))
      end
  end))))))).

End Model.
Arguments world T : clear implicits.
Arguments outcome T : clear implicits.
