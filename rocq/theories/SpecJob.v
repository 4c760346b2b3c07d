(** SpecJob: what can be asked of the analysis scripts on the command line, and the files that result. *)
From Coq Require Import Ascii Reals.
From Coq Require Strings.String.
From Verif Require Import Base TreeSpec M_Tree M_Gamma M_Levels M_Smooth M_Depth M_Level M_Analysis M_Main M_Predict M_Job SpecAnalysis.
Import Coq.Strings.String.StringSyntax.
Local Open Scope string_scope.
Local Open Scope list_scope.

Inductive aset := AMicrosoft | AMoon | APrgeng | ATitantic.
Definition aset_str (d : aset) : str :=
  match d with AMicrosoft => lit "microsoft" | AMoon => lit "moon" | APrgeng => lit "prgeng" | ATitantic => lit "titantic" end.
(** a request; [j_impurity] for analysis.py only, which handles one distance style per run *)
Record request := { j_data : aset; j_class : bool; j_trees : nat; j_impurity : bool; j_levels : option nat }.
Definition type_str (class : bool) : str := if class then lit "class" else lit "reg".
Definition style_str (imp : bool) : str := if imp then lit "impurity" else lit "depth".

(** the arguments [l] begin with the number of levels, or do not begin with a number *)
Definition gives_levels (int_of : str -> option nat) (l : list str) (n : option nat) : Prop :=
  match l with [] => n = None | s :: _ => n = int_of s end.
Definition asks_job (int_of : str -> option nat) (sc : ascript) (argv : list str) (j : request) : Prop :=
  exists s0 n rest, argv = s0 :: aset_str (j_data j) :: type_str (j_class j) :: n :: rest /\ int_of n = Some (j_trees j) /\
  match sc with
  | AOne => (rest = [] /\ j_impurity j = false /\ j_levels j = None) \/
            exists rest', rest = style_str (j_impurity j) :: rest' /\ gives_levels int_of rest' (j_levels j)
  | _ => j_impurity j = false /\ gives_levels int_of rest (j_levels j)
  end.

(** the distance styles of the jobs *)
Definition uses_impurity (sc : ascript) (j : request) : Prop := match sc with AOne => j_impurity j = true | _ => True end.
Definition job_styles (sc : ascript) (j : request) : list str := match sc with AOne => [style_str (j_impurity j)] | _ => [lit "depth"; lit "impurity"] end.
(** number of styles *)
Definition n_styles (sc : ascript) : nat := match sc with AOne => 1 | _ => 2 end.

(** the file written before the jobs, and the one written after them *)
Definition name_early (j : request) (seed : nat) : str :=
  lit "data/" ++ aset_str (j_data j) ++ lit "_" ++ type_str (j_class j) ++ lit "_" ++ str_nat (j_trees j) ++ lit "_" ++ str_nat seed ++ lit ".pkl".
Definition name_late (sc : ascript) (j : request) (seed : nat) (date : str) : str :=
  lit "data/" ++ aset_str (j_data j) ++ lit "_" ++
  match sc with AOne => style_str (j_impurity j) | ABoth => lit "both " | AClean => lit "both_clean" end ++ lit "_" ++
  match j_levels j with Some n => lit "levels_" ++ str_nat n | None => [] end ++
  type_str (j_class j) ++ lit "_" ++ str_nat (j_trees j) ++ lit "_" ++ str_nat seed ++
  match sc with AClean => lit "_" ++ date | _ => [] end ++ lit ".pkl".

Local Open Scope R_scope.
(** the floats of the grids *)
Definition alphas_R : list R := [1/1000; 1/100; 1/10; 3/10].
Definition betas1_R : list R := [1/10; 3/10; 5/10; 9/10; 999/1000].
Definition betas0_R : list R := [9/10; 95/100; 99/100].
Definition epss_R : list R := [1/100000000; 1/10000].

(** the data of the run: microsoft and moon are shifted by 100 for a regression *)
Definition shifted (j : request) (raw data : list (list R) * list R) : Prop :=
  fst data = fst raw /\
  match j_data j, j_class j with
  | (AMicrosoft | AMoon), false => snd data = map (fun v => v + 100) (snd raw)
  | _, _ => snd data = snd raw
  end.
(** the stages up to the jobs: data, training and test part, forest, its depth-tuned version (losses [dl]) and the scores of both *)
Definition reaches_jobs (w : world R) (j : request) (train test : list (list R) * list R) (kd : kind) (cl : list R) (ts : list (tree R))
    (base : R) (dts : list (tree R)) (dl : list R) (dsc : R) : Prop :=
  exists raw data, u_raw w (aset_str (j_data j)) = Ok raw /\ shifted j raw data /\ u_split w data = Ok (train, test) /\
  (if j_class j then exists k, kd = Class k /\ u_fit_class w (j_trees j) train = Ok (k, cl, ts)
   else kd = Reg /\ cl = [] /\ u_fit_reg w (j_trees j) train = Ok ts) /\
  assess_rf (Forest kd ts) cl (fst test) (snd test) = Ok base /\
  depth_tune (Forest kd ts) {| d_X_trained := Some (fst train); d_y_trained := Some (snd train); d_X_tune := None; d_y_tune := None; d_resample := false |} (u_depth w) = Ok (dts, dl) /\
  assess_rf (Forest kd dts) cl (fst test) (snd test) = Ok dsc.

(** the entries made before the jobs *)
Definition has_start (d : list (str * list R) * list (str * list R)) (base dsc : R) (seed : nat) (dl : list R) : Prop :=
  holds (fst d) (lit "rf_base") [base] /\ holds (fst d) (lit "depth_tune") [dsc] /\ holds (snd d) (lit "seed") [INR seed] /\ holds (snd d) (lit "depth_tune") dl.
(** the entries of the four calls of smooth_all *)
Definition name_wols (pa nc : bool) : str :=
  lit "wOLs_opt_parents:" ++ (if pa then lit "True" else lit "False") ++ lit ",constraints:" ++ (if nc then lit "False" else lit "True").
Definition has_wols (w : world R) (ts : list (tree R)) (train test : list (list R) * list R) (d : list (str * list R) * list (str * list R)) : Prop :=
  forall pa nc, exists f lamb s,
    smooth_all_with (u_fuel w) (u_feps w) (u_solve w) (u_check w)
      {| a_X := fst train; a_y := snd train; a_X_tune := None; a_y_tune := None; a_no_constraint := nc; a_sanity := false; a_resample := false;
         a_parents_all := pa; a_inner_assess := false |} (u_oob w) (fun _ => []) ts = Ok (f, lamb) /\
    assess_rf (Forest Reg f) [] (fst test) (snd test) = Ok s /\ holds (fst d) (name_wols pa nc) [s] /\ holds (snd d) (name_wols pa nc) lamb.
(** the entries of the jobs: [job] says what a job is, [run] what it returns, [key] where it is stored *)
Definition has_jobs (job : params R -> Prop) (run : params R -> result (list (tree R) * list R * list R)) (key : params R -> str)
    (test : list (list R) * list R) (d : list (str * list R) * list (str * list R)) : Prop :=
  forall p, job p -> exists f lamb c m s, run p = Ok (f, lamb, c) /\ (In m c /\ forall x, In x c -> m <= x) /\
    assess_rf (Forest Reg f) [] (fst test) (snd test) = Ok s /\ holds (fst d) (key p) [s; m] /\ holds (snd d) (key p) lamb.
Definition has_length (d : list (str * list R) * list (str * list R)) (n : nat) : Prop := length (fst d) = n /\ length (snd d) = n.
