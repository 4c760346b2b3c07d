(** SpecBash: what the shell scripts ask for. *)
From Coq Require Import Ascii.
From Coq Require Strings.String.
From Verif Require Import Base TreeSpec M_Analysis M_Main M_Cmd M_Job M_Bash.
Import Coq.Strings.String.StringSyntax.
Local Open Scope string_scope.
Local Open Scope list_scope.

(** the shell scripts whose lines find their script *)
Definition working : list str :=
  map lit ["analysis_block.sh"; "analysis_block2.sh"; "analysis_block2_moon.sh"; "analysis_block2_moon_impurity.sh"; "analysis_block_moon.sh"; "depth_run_prgeng_adam.sh"].

(** a line of a shell script that calls a script *)
Definition calls_words (h : shell) (w : list str) : Prop := In (Ipython w) (h_lines h).

(** the scripts the lines of the depth simulations mean: those of main_old, and those of main under their names of today *)
Definition means (f : str) (sc : script) : Prop :=
  (f = lit "depth_run.py" /\ sc = Old10) \/ (f = lit "depth_run_class.py" /\ sc = Old11) \/
  ((f = lit "depth_run_adam.py" \/ f = lit "1.0-depth_run_adam.py") /\ sc = Adam10) \/ (f = lit "depth_run_class_adam.py" /\ sc = Adam11).

(** the numbers of the lines are read as such *)
Definition reads_numbers {T} {NT : Num T} (x : surroundings T) : Prop :=
  x_int x (lit "10") = Some 10 /\ x_int x (lit "300") = Some 300 /\ x_int x (lit "45") = Some 45 /\
  (exists n, x_int x (lit "10000") = Some (S n)) /\ exists t, x_float x (lit "1") = Some t.
