(** M_Calls: how Python binds the arguments of a call, the parameters of the functions of smooth_rf that the
    scripts of main/ and main_old/ call, and those calls.  main_old/depth_examples*.py, which import
    modules of the package by themselves, are left out.  The package has no parameters of the forms [*args], [**kw],
    [/] or [*]. *)
From Coq Require Import Ascii.
From Coq Require Strings.String.
From Verif Require Import Base M_Analysis.
Import Coq.Strings.String.StringSyntax.
Local Open Scope string_scope.
Local Open Scope list_scope.

(** the place of a name in a list *)
Fixpoint place (n : str) (l : list str) : option nat :=
  match l with
  | [] => None
  | m :: r => if str_eqb n m then Some O else match place n r with Some i => Some (S i) | None => None end
  end.

Section Bind.
Context {V : Type}.

(** filling slot [i] *)
Definition fill_slot (sl : list (option V)) (i : nat) (v : V) : list (option V) := firstn i sl ++ Some v :: skipn (S i) sl.

(** Python reference 6.3.4 (Calls): the positional arguments fill the first slots; each keyword fills the slot of its name, and
    an unknown name or a slot that is filled already is a TypeError, as are too many positional arguments; slots still empty take the
    default value, and a missing one is a TypeError.  [params] are the names with their default values. *)
Definition bind_args (params : list (str * option V)) (pos : list V) (kw : list (str * V)) : result (list V) :=
  if Nat.ltb (length params) (length pos) then Err TypeError
  else
    do slots <- foldM (fun sl (a : str * V) =>
        match place (fst a) (map fst params) with
        | None => Err TypeError
        | Some i => match nth i sl None with Some _ => Err TypeError | None => Ok (fill_slot sl i (snd a)) end
        end) kw (map Some pos ++ repeat None (length params - length pos));
    mapM (fun (it : option V * (str * option V)) =>
        match fst it with
        | Some v => Ok v
        | None => match snd (snd it) with Some d => Ok d | None => Err TypeError end
        end) (combine slots params).

End Bind.

(** the names of the parameters, with whether they have a default value *)
Definition signature : Type := list (str * bool).
Definition params_of (l : list (String.string * bool)) : signature := map (fun p : String.string * bool => (lit (fst p), snd p)) l.
(** a signature with default values [dflt] *)
Definition with_defaults {V} (dflt : str -> V) (s : signature) : list (str * option V) :=
  map (fun p : str * bool => (fst p, if snd p then Some (dflt (fst p)) else None)) s.

(** a call in a script: the line, the parameters of the function, the number of positional arguments, the keywords in order *)
Record call_site := { cl_file : str; cl_line : nat; cl_sig : signature; cl_pos : nat; cl_kw : list str }.
Definition call (f : String.string) (line : nat) (s : signature) (pos : nat) (kw : list String.string) : call_site :=
  {| cl_file := lit f; cl_line := line; cl_sig := s; cl_pos := pos; cl_kw := map lit kw |}.

(** tune_depth.py:63-65 *)
Definition sig_depth_tune : signature := params_of [("random_forest", false); ("X_trained", true); ("y_trained", true); ("X_tune", true); ("y_tune", true); ("verbose", true); ("resample_tune", true)].
(** generate_data.py:13-13 *)
Definition sig_generate_data : signature := params_of [("large_n", true)].
(** generate_data.py:108-108 *)
Definition sig_generate_data_knn : signature := params_of [("n", true); ("p", true)].
(** smooth_pytorch.py:683-683 *)
Definition sig_l2_np : signature := params_of [("y", false); ("y_pred", false)].
(** smooth_base.py:1057-1070 *)
Definition sig_smooth : signature := params_of [("random_forest", false); ("X_trained", true); ("y_trained", true); ("X_tune", true); ("y_tune", true); ("verbose", true); ("no_constraint", true); ("sanity_check", true); ("resample_tune", true); ("sgd_max_num", true); ("sgd_t_fix", true); ("all_trees", true); ("initial_lamb_seed", true); ("parents_all", true); ("dist_mat_style", true); ("distance_style", true); ("levels", true); ("class_eps", true); ("class_loss", true); ("adam", true)].
(** smooth_level.py:485-490 *)
Definition sig_smooth_all : signature := params_of [("random_forest", false); ("X_trained", false); ("y_trained", false); ("X_tune", true); ("y_tune", true); ("verbose", true); ("no_constraint", true); ("sanity_check", true); ("resample_tune", true); ("parents_all", true); ("inner_assess", true)].
(** smooth_clean.py:863-875 *)
Definition sig_smooth_clean : signature := params_of [("random_forest", false); ("X_trained", false); ("y_trained", false); ("verbose", true); ("no_constraint", true); ("sanity_check", true); ("sgd_max_num", true); ("sgd_t_fix", true); ("all_obs", true); ("use_full_loss", true); ("sgd_n_obs", true); ("initial_lamb_seed", true); ("parents_all", true); ("dist_mat_style", true); ("distance_style", true); ("levels", true); ("adam", true)].
(** smooth_pytorch.py:817-826 *)
Definition sig_smooth_pytorch : signature := params_of [("random_forest", false); ("X_trained", false); ("y_trained", false); ("X_tune", true); ("y_tune", true); ("resample_tune", true); ("sgd_max_num", true); ("all_trees", true); ("parents_all", true); ("distance_style", true); ("which_dicts", true); ("x_dicts", true); ("init", true); ("verbose", true); ("adam", true)].
(** generate_data.py:281-281 *)
Definition sig_spirals : signature := params_of [("n_total", true); ("n_classes", true); ("noise_sd", true); ("t_shift", true)].

(** the calls, file by file, the line being the first one of the call *)
Definition accepted_calls : list call_site :=
  [
   call "main/1.0-depth_run_adam.py" 205 sig_generate_data_knn 0 ["n"; "p"];
   call "main/1.0-depth_run_adam.py" 288 sig_smooth_all 1 ["X_trained"; "y_trained"; "X_tune"; "y_tune"; "resample_tune"; "no_constraint"; "parents_all"; "verbose"];
   call "main/1.0-depth_run_adam.py" 304 sig_smooth 1 ["X_trained"; "y_trained"; "X_tune"; "y_tune"; "resample_tune"; "no_constraint"; "sgd_max_num"; "sgd_t_fix"; "parents_all"; "verbose"; "all_trees"; "initial_lamb_seed"; "adam"];
   call "main/1.1-depth_run_class_adam.py" 218 sig_generate_data_knn 0 ["n"; "p"];
   call "main/1.1-depth_run_class_adam.py" 307 sig_smooth_all 1 ["X_trained"; "y_trained"; "X_tune"; "y_tune"; "resample_tune"; "no_constraint"; "parents_all"; "verbose"];
   call "main/1.1-depth_run_class_adam.py" 324 sig_smooth 1 ["X_trained"; "y_trained"; "X_tune"; "y_tune"; "resample_tune"; "no_constraint"; "sgd_max_num"; "sgd_t_fix"; "parents_all"; "verbose"; "all_trees"; "initial_lamb_seed"; "adam"];
   call "main/1.2-compare_depth_vs_smooth.py" 318 sig_smooth 0 ["random_forest"; "X_trained"; "y_trained"; "sgd_max_num"; "verbose"; "parents_all"; "distance_style"; "no_constraint"; "adam"];
   call "main/1.2-compare_depth_vs_smooth.py" 333 sig_smooth 1 ["X_trained"; "y_trained"; "sgd_max_num"; "verbose"; "parents_all"; "distance_style"; "no_constraint"; "adam"];
   call "main/analysis.py" 196 sig_depth_tune 1 ["X_trained"; "y_trained"];
   call "main/analysis.py" 359 sig_smooth 1 ["X_trained"; "y_trained"; "no_constraint"; "sgd_max_num"; "all_trees"; "initial_lamb_seed"; "parents_all"; "dist_mat_style"; "distance_style"; "class_eps"; "class_loss"; "adam"; "verbose"; "levels"];
   call "main/analysis.py" 55 sig_generate_data 0 ["large_n"];
   call "main/analysis.py" 239 sig_smooth_all 1 ["X_trained"; "y_trained"; "no_constraint"; "parents_all"; "verbose"];
   call "main/analysis.py" 476 sig_smooth_pytorch 1 ["X_trained"; "y_trained"; "sgd_max_num"; "all_trees"; "init"; "parents_all"; "distance_style"; "adam"; "verbose"];
   call "main/analysis_both.py" 188 sig_depth_tune 1 ["X_trained"; "y_trained"];
   call "main/analysis_both.py" 351 sig_smooth 1 ["X_trained"; "y_trained"; "no_constraint"; "sgd_max_num"; "all_trees"; "initial_lamb_seed"; "parents_all"; "dist_mat_style"; "distance_style"; "class_eps"; "class_loss"; "adam"; "verbose"; "levels"];
   call "main/analysis_both.py" 47 sig_generate_data 0 ["large_n"];
   call "main/analysis_both.py" 231 sig_smooth_all 1 ["X_trained"; "y_trained"; "no_constraint"; "parents_all"; "verbose"];
   call "main/analysis_both.py" 471 sig_smooth_pytorch 1 ["X_trained"; "y_trained"; "sgd_max_num"; "all_trees"; "init"; "parents_all"; "distance_style"; "adam"; "verbose"];
   call "main/analysis_both_clean.py" 279 sig_depth_tune 1 ["X_trained"; "y_trained"];
   call "main/analysis_both_clean.py" 373 sig_smooth_clean 1 ["X_trained"; "y_trained"; "no_constraint"; "sgd_max_num"; "all_obs"; "use_full_loss"; "sgd_n_obs"; "initial_lamb_seed"; "parents_all"; "dist_mat_style"; "distance_style"; "adam"; "verbose"; "levels"];
   call "main/analysis_both_clean.py" 71 sig_generate_data 0 ["large_n"];
   call "main/pytorch_example.py" 34 sig_generate_data 1 [];
   call "main/pytorch_example.py" 37 sig_generate_data 1 [];
   call "main/pytorch_example.py" 50 sig_smooth 0 ["random_forest"; "X_trained"; "y_trained"; "X_tune"; "y_tune"; "resample_tune"; "sgd_max_num"; "all_trees"; "parents_all"; "distance_style"; "verbose"; "adam"];
   call "main/pytorch_example.py" 64 sig_smooth_pytorch 0 ["random_forest"; "X_trained"; "y_trained"; "X_tune"; "y_tune"; "resample_tune"; "sgd_max_num"; "all_trees"; "parents_all"; "distance_style"; "which_dicts"; "x_dicts"; "init"; "verbose"];
   call "main/pytorch_example.py" 81 sig_l2_np 2 [];
   call "main/pytorch_example.py" 82 sig_l2_np 2 [];
   call "main/pytorch_example.py" 83 sig_l2_np 2 [];
   call "main_old/depth_run.py" 188 sig_generate_data_knn 0 ["n"; "p"];
   call "main_old/depth_run.py" 266 sig_smooth_all 1 ["X_trained"; "y_trained"; "X_tune"; "y_tune"; "resample_tune"; "no_constraint"; "parents_all"; "verbose"];
   call "main_old/depth_run_class.py" 170 sig_generate_data_knn 0 ["n"; "p"];
   call "main_old/depth_run_class.py" 255 sig_smooth_all 1 ["X_trained"; "y_trained"; "X_tune"; "y_tune"; "resample_tune"; "no_constraint"; "parents_all"; "verbose"];
   call "main_old/depth_vs_smooth_full.py" 240 sig_smooth 0 ["random_forest"; "X_trained"; "y_trained"; "sgd_max_num"; "verbose"; "parents_all"; "distance_style"; "no_constraint"];
   call "main_old/depth_vs_smooth_full.py" 254 sig_smooth 1 ["X_trained"; "y_trained"; "sgd_max_num"; "verbose"; "parents_all"; "distance_style"; "no_constraint"];
   call "main_old/prelim_examination_microsoft.py" 131 sig_generate_data 0 ["large_n"];
   call "main_old/prelim_examination_microsoft.py" 177 sig_generate_data 0 ["large_n"];
   call "main_old/prelim_examination_microsoft_class.py" 136 sig_generate_data 0 ["large_n"];
   call "main_old/prelim_examination_microsoft_class.py" 182 sig_generate_data 0 ["large_n"];
   call "main_old/prelim_examination_spiral.py" 131 sig_spirals 0 ["n_total"; "noise_sd"];
   call "main_old/prelim_examination_spiral.py" 178 sig_spirals 0 ["n_total"; "noise_sd"];
   call "main_old/prelim_examination_splice.py" 157 sig_generate_data 0 ["large_n"];
   call "main_old/prelim_examination_splice.py" 203 sig_generate_data 0 ["large_n"];
   call "main_old/understanding_smoothing_microsoft_class.py" 59 sig_generate_data 0 ["large_n"];
   call "main_old/understanding_smoothing_microsoft_class.py" 112 sig_generate_data 0 ["large_n"]
  ].
(** calls with the names subgrad_max_num, subgrad_t_fix of an earlier smooth *)
Definition stale_calls : list call_site :=
  [
   call "main_old/depth_run.py" 282 sig_smooth 1 ["X_trained"; "y_trained"; "X_tune"; "y_tune"; "resample_tune"; "no_constraint"; "subgrad_max_num"; "subgrad_t_fix"; "parents_all"; "verbose"; "all_trees"; "initial_lamb_seed"];
   call "main_old/depth_run_class.py" 272 sig_smooth 1 ["X_trained"; "y_trained"; "X_tune"; "y_tune"; "resample_tune"; "no_constraint"; "subgrad_max_num"; "subgrad_t_fix"; "parents_all"; "verbose"; "all_trees"; "initial_lamb_seed"];
   call "main_old/understanding_smoothing_microsoft_class.py" 76 sig_smooth 1 ["X_trained"; "y_trained"; "X_tune"; "y_tune"; "resample_tune"; "no_constraint"; "subgrad_max_num"; "subgrad_t_fix"; "parents_all"; "verbose"; "all_trees"; "initial_lamb_seed"; "class_eps"; "class_loss"];
   call "main_old/understanding_smoothing_microsoft_class.py" 94 sig_smooth 1 ["X_trained"; "y_trained"; "X_tune"; "y_tune"; "resample_tune"; "no_constraint"; "subgrad_max_num"; "subgrad_t_fix"; "parents_all"; "verbose"; "all_trees"; "initial_lamb_seed"; "class_eps"; "class_loss"];
   call "main_old/understanding_smoothing_moons.py" 80 sig_smooth 1 ["X_trained"; "y_trained"; "X_tune"; "y_tune"; "resample_tune"; "no_constraint"; "subgrad_max_num"; "subgrad_t_fix"; "parents_all"; "verbose"; "all_trees"; "initial_lamb_seed"; "class_eps"; "class_loss"];
   call "main_old/understanding_smoothing_moons.py" 98 sig_smooth 1 ["X_trained"; "y_trained"; "X_tune"; "y_tune"; "resample_tune"; "no_constraint"; "subgrad_max_num"; "subgrad_t_fix"; "parents_all"; "verbose"; "all_trees"; "initial_lamb_seed"; "class_eps"; "class_loss"];
   call "main_old/understanding_smoothing_splice.py" 83 sig_smooth 1 ["X_trained"; "y_trained"; "X_tune"; "y_tune"; "resample_tune"; "no_constraint"; "subgrad_max_num"; "subgrad_t_fix"; "parents_all"; "verbose"; "all_trees"; "initial_lamb_seed"; "class_eps"; "class_loss"];
   call "main_old/understanding_smoothing_splice.py" 101 sig_smooth 1 ["X_trained"; "y_trained"; "X_tune"; "y_tune"; "resample_tune"; "no_constraint"; "subgrad_max_num"; "subgrad_t_fix"; "parents_all"; "verbose"; "all_trees"; "initial_lamb_seed"; "class_eps"; "class_loss"]
  ].
