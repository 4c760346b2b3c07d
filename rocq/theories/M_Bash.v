(** M_Bash: model of the shell scripts in bash_scripts/ (the *.sh files, depth_run_moon_test.py, which is a shell script by its contents, and old_bash/*.sh).
    They change the directory and call scripts by name.  Each is run in the directory it lies in; empty lines and comments are left out. *)
From Coq Require Import Ascii.
From Coq Require Strings.String.
From Verif Require Import Base TreeSpec M_Tree M_Gamma M_Levels M_Grad M_Sgd M_Smooth M_Clean M_Analysis M_Main M_Cmd M_Job.
Import Coq.Strings.String.StringSyntax.
Local Open Scope string_scope.
Local Open Scope list_scope.

(** a path from the root of the repository *)
Definition path := list str.
(** bash_scripts/analysis_block.sh:3-5 and the like; a line: cd with its argument cut at the slashes, or ipython with its arguments *)
Inductive sline := Cd (to : path) | Ipython (words : list str).
Record shell := { h_dir : path; h_name : str; h_lines : list sline }.
Definition cd (l : list String.string) : sline := Cd (map lit l).
(** words without their spaces (bash_scripts/analysis_block.sh:5) *)
Fixpoint cut_words (s : str) (w : str) : list str :=
  match s with
  | [] => [w]
  | c :: s => if ascii_dec c " " then w :: cut_words s [] else cut_words s (w ++ [c])
  end.
Definition ip (s : String.string) : sline := Ipython (cut_words (lit s) []).

(** the python and shell files of main/, main_old/, bash_scripts/ and bash_scripts/old_bash/, the directories that are passed through *)
Definition listing (d : path) : option (list str) :=
  let is l := if list_eq_dec str_eq_dec d (map lit l) then true else false in
  if is ["main"] then Some (map lit [
    "1.0-depth_run_adam.py"; "1.1-depth_run_class_adam.py"; "1.2-compare_depth_vs_smooth.py"; "analysis.py"; "analysis_both.py";
    "analysis_both_clean.py"; "pytorch_example.py"])
  else
  if is ["main_old"] then Some (map lit [
    "depth_examples2.py"; "depth_examples_oracle.py"; "depth_examples_random_init.py"; "depth_run.py"; "depth_run_class.py";
    "depth_vs_smooth_full.py"; "prelim_examination.py"; "prelim_examination_arabic_char.py"; "prelim_examination_glass.py";
    "prelim_examination_microsoft.py"; "prelim_examination_microsoft_class.py"; "prelim_examination_moons.py"; "prelim_examination_online_news.py";
    "prelim_examination_preeng.py"; "prelim_examination_prgeng.py"; "prelim_examination_spiral.py"; "prelim_examination_splice.py";
    "prelim_examination_tania.py"; "prelim_examination_titantic.py"; "understanding_smoothing_microsoft.py";
    "understanding_smoothing_microsoft_class.py"; "understanding_smoothing_moons.py"; "understanding_smoothing_splice.py"])
  else
  if is ["bash_scripts"] then Some (map lit [
    "analysis_block.sh"; "analysis_block2.sh"; "analysis_block2_moon.sh"; "analysis_block2_moon_impurity.sh"; "analysis_block_moon.sh";
    "depth_run_class_moon_microsft_adam.sh"; "depth_run_class_moon_microsft_adam_300.sh"; "depth_run_eb_10_ob_c_l_diff_depth.sh";
    "depth_run_eb_10_ob_c_p_diff_depth.sh"; "depth_run_microsoft_adam.sh"; "depth_run_microsoft_adam_300.sh"; "depth_run_prgeng_adam.sh";
    "depth_run_moon_test.py"])
  else
  if is ["bash_scripts"; "old_bash"] then Some (map lit [
    "depth_run_check_t_eb_10_ob_c.sh"; "depth_run_check_t_eb_300_ob_c.sh"; "depth_run_eb_10_ob_c.sh"; "depth_run_eb_10_ob_nc.sh";
    "depth_run_eb_10_or_c.sh"; "depth_run_eb_10_or_nc.sh"; "depth_run_eb_10_re_c.sh"; "depth_run_eb_10_re_nc.sh"; "depth_run_eb_300_ob_c.sh";
    "depth_run_eb_300_ob_nc.sh"; "depth_run_eb_300_or_c.sh"; "depth_run_eb_300_or_nc.sh"; "depth_run_eb_300_re_c.sh"; "depth_run_eb_300_re_nc.sh";
    "depth_run_lb_ob.sh"; "depth_run_lb_or.sh"; "depth_run_lb_re.sh"; "depth_run_online_eb_ob_c.sh"])
  else
  None.

(** bash_scripts/analysis_block.sh:3-25 *)
Definition b_analysis_block_sh : shell :=
  {| h_dir := map lit ["bash_scripts"]; h_name := lit "analysis_block.sh"; h_lines := [cd [".."; "main"]] ++ repeat (ip "analysis.py microsoft reg 10") 21 |}.

(** bash_scripts/analysis_block2.sh:3-25 *)
Definition b_analysis_block2_sh : shell :=
  {| h_dir := map lit ["bash_scripts"]; h_name := lit "analysis_block2.sh"; h_lines := [cd [".."; "main"]] ++ repeat (ip "analysis.py microsoft class 10") 21 |}.

(** bash_scripts/analysis_block2_moon.sh:3-25 *)
Definition b_analysis_block2_moon_sh : shell :=
  {| h_dir := map lit ["bash_scripts"]; h_name := lit "analysis_block2_moon.sh"; h_lines := [cd [".."; "main"]] ++ repeat (ip "analysis.py moon class 10") 21 |}.

(** bash_scripts/analysis_block2_moon_impurity.sh:3-24 *)
Definition b_analysis_block2_moon_impurity_sh : shell :=
  {| h_dir := map lit ["bash_scripts"]; h_name := lit "analysis_block2_moon_impurity.sh"; h_lines := [cd [".."; "main"]] ++ repeat (ip "analysis.py moon class 10 impurity 45") 20 |}.

(** bash_scripts/analysis_block_moon.sh:3-24 *)
Definition b_analysis_block_moon_sh : shell :=
  {| h_dir := map lit ["bash_scripts"]; h_name := lit "analysis_block_moon.sh"; h_lines := [cd [".."; "main"]] ++ repeat (ip "analysis_both.py moon class 10 45") 20 |}.

(** bash_scripts/depth_run_class_moon_microsft_adam.sh:1-5 *)
Definition b_depth_run_class_moon_microsft_adam_sh : shell :=
  {| h_dir := map lit ["bash_scripts"]; h_name := lit "depth_run_class_moon_microsft_adam.sh"; h_lines := [
    cd [".."; "main"];
    ip "depth_run_class_adam.py moon 10 oob c eb p standard l2 rf tree 10000 1";
    ip "depth_run_class_adam.py microsoft 10 oob c eb p standard ce rf tree 10000 1";
    ip "depth_run_class_adam.py microsoft 10 oob c eb p standard l2 rf tree 10000 1"] |}.

(** bash_scripts/depth_run_class_moon_microsft_adam_300.sh:1-7 *)
Definition b_depth_run_class_moon_microsft_adam_300_sh : shell :=
  {| h_dir := map lit ["bash_scripts"]; h_name := lit "depth_run_class_moon_microsft_adam_300.sh"; h_lines := [
    cd [".."; "main"];
    ip "depth_run_class_adam.py moon 300 oob c eb p standard l2 rf tree 10000 1";
    ip "depth_run_class_adam.py moon 300 oob c eb p standard ce rf tree 10000 1";
    ip "depth_run_class_adam.py microsoft 300 oob c eb p standard ce rf tree 10000 1";
    ip "depth_run_class_adam.py microsoft 300 oob c eb p standard l2 rf tree 10000 1"] |}.

(** bash_scripts/depth_run_eb_10_ob_c_l_diff_depth.sh:3-7 *)
Definition b_depth_run_eb_10_ob_c_l_diff_depth_sh : shell :=
  {| h_dir := map lit ["bash_scripts"]; h_name := lit "depth_run_eb_10_ob_c_l_diff_depth.sh"; h_lines := [
    cd [".."; "main"];
    ip "depth_run.py microsoft 10 oob c eb l standard rf tree 10000 1";
    ip "depth_run.py microsoft 10 oob c eb l max rf tree 10000 1";
    ip "depth_run.py microsoft 10 oob c eb l min rf tree 10000 1"] |}.

(** bash_scripts/depth_run_eb_10_ob_c_p_diff_depth.sh:3-7 *)
Definition b_depth_run_eb_10_ob_c_p_diff_depth_sh : shell :=
  {| h_dir := map lit ["bash_scripts"]; h_name := lit "depth_run_eb_10_ob_c_p_diff_depth.sh"; h_lines := [
    cd [".."; "main"];
    ip "depth_run.py microsoft 10 oob c eb p standard rf tree 10000 1";
    ip "depth_run.py microsoft 10 oob c eb p max rf tree 10000 1";
    ip "depth_run.py microsoft 10 oob c eb p min rf tree 10000 1"] |}.

(** bash_scripts/depth_run_microsoft_adam.sh:1-3 *)
Definition b_depth_run_microsoft_adam_sh : shell :=
  {| h_dir := map lit ["bash_scripts"]; h_name := lit "depth_run_microsoft_adam.sh"; h_lines := [
    cd [".."; "main"];
    ip "depth_run_adam.py microsoft 10 ob c eb p standard rf tree 10000 1"] |}.

(** bash_scripts/depth_run_microsoft_adam_300.sh:1-3 *)
Definition b_depth_run_microsoft_adam_300_sh : shell :=
  {| h_dir := map lit ["bash_scripts"]; h_name := lit "depth_run_microsoft_adam_300.sh"; h_lines := [
    cd [".."; "main"];
    ip "depth_run_adam.py microsoft 300 ob c eb p standard rf tree 10000 1"] |}.

(** bash_scripts/depth_run_prgeng_adam.sh:1-3 *)
Definition b_depth_run_prgeng_adam_sh : shell :=
  {| h_dir := map lit ["bash_scripts"]; h_name := lit "depth_run_prgeng_adam.sh"; h_lines := [
    cd [".."; "main"];
    ip "1.0-depth_run_adam.py prgeng 10 ob c eb p standard rf tree 10000 1"] |}.

(** bash_scripts/depth_run_moon_test.py:3-8 *)
Definition b_depth_run_moon_test_py : shell :=
  {| h_dir := map lit ["bash_scripts"]; h_name := lit "depth_run_moon_test.py"; h_lines := [
    cd [".."; "main"];
    ip "depth_run_class.py moon 10 oob c eb p standard ce rf tree 10000 .01";
    ip "depth_run_class.py moon 10 oob c eb p standard ce rf tree 10000 .1";
    ip "depth_run_class.py moon 10 oob c eb p standard ce rf tree 10000 10"] |}.

(** bash_scripts/old_bash/depth_run_check_t_eb_10_ob_c.sh:3-8 *)
Definition b_old_depth_run_check_t_eb_10_ob_c_sh : shell :=
  {| h_dir := map lit ["bash_scripts"; "old_bash"]; h_name := lit "depth_run_check_t_eb_10_ob_c.sh"; h_lines := [
    cd [".."];
    ip "depth_run.py microsoft 10 oob c eb p rf tree 10000 .1";
    ip "depth_run.py microsoft 10 oob c eb p rf tree 10000 1";
    ip "depth_run.py microsoft 10 oob c eb p rf tree 10000 10";
    ip "depth_run.py microsoft 10 oob c eb p rf tree 10000 100"] |}.

(** bash_scripts/old_bash/depth_run_check_t_eb_300_ob_c.sh:3-8 *)
Definition b_old_depth_run_check_t_eb_300_ob_c_sh : shell :=
  {| h_dir := map lit ["bash_scripts"; "old_bash"]; h_name := lit "depth_run_check_t_eb_300_ob_c.sh"; h_lines := [
    cd [".."];
    ip "depth_run.py microsoft 300 oob c eb p rf tree 10000 .1";
    ip "depth_run.py microsoft 300 oob c eb p rf tree 10000 1";
    ip "depth_run.py microsoft 300 oob c eb p rf tree 10000 10";
    ip "depth_run.py microsoft 300 oob c eb p rf tree 10000 100"] |}.

(** bash_scripts/old_bash/depth_run_eb_10_ob_c.sh:3-12 *)
Definition b_old_depth_run_eb_10_ob_c_sh : shell :=
  {| h_dir := map lit ["bash_scripts"; "old_bash"]; h_name := lit "depth_run_eb_10_ob_c.sh"; h_lines := [
    cd [".."];
    ip "depth_run.py microsoft 10 oob c eb l rf tree 10000 1";
    ip "depth_run.py microsoft 10 oob c eb l rf all 10000 1";
    ip "depth_run.py microsoft 10 oob c eb l r tree 10000 1";
    ip "depth_run.py microsoft 10 oob c eb l r all 10000 1";
    ip "depth_run.py microsoft 10 oob c eb p rf tree 10000 1";
    ip "depth_run.py microsoft 10 oob c eb p rf all 10000 1";
    ip "depth_run.py microsoft 10 oob c eb p r tree 10000 1";
    ip "depth_run.py microsoft 10 oob c eb p r all 10000 1"] |}.

(** bash_scripts/old_bash/depth_run_eb_10_ob_nc.sh:3-12 *)
Definition b_old_depth_run_eb_10_ob_nc_sh : shell :=
  {| h_dir := map lit ["bash_scripts"; "old_bash"]; h_name := lit "depth_run_eb_10_ob_nc.sh"; h_lines := [
    cd [".."];
    ip "depth_run.py microsoft 10 oob nc eb l rf tree 10000 1";
    ip "depth_run.py microsoft 10 oob nc eb l rf all 10000 1";
    ip "depth_run.py microsoft 10 oob nc eb l r tree 10000 1";
    ip "depth_run.py microsoft 10 oob nc eb l r all 10000 1";
    ip "depth_run.py microsoft 10 oob nc eb p rf tree 10000 1";
    ip "depth_run.py microsoft 10 oob nc eb p rf all 10000 1";
    ip "depth_run.py microsoft 10 oob nc eb p r tree 10000 1";
    ip "depth_run.py microsoft 10 oob nc eb p r all 10000 1"] |}.

(** bash_scripts/old_bash/depth_run_eb_10_or_c.sh:3-12 *)
Definition b_old_depth_run_eb_10_or_c_sh : shell :=
  {| h_dir := map lit ["bash_scripts"; "old_bash"]; h_name := lit "depth_run_eb_10_or_c.sh"; h_lines := [
    cd [".."];
    ip "depth_run.py microsoft 10 oracle c eb l rf tree 10000 1";
    ip "depth_run.py microsoft 10 oracle c eb l rf all 10000 1";
    ip "depth_run.py microsoft 10 oracle c eb l r tree 10000 1";
    ip "depth_run.py microsoft 10 oracle c eb l r all 10000 1";
    ip "depth_run.py microsoft 10 oracle c eb p rf tree 10000 1";
    ip "depth_run.py microsoft 10 oracle c eb p rf all 10000 1";
    ip "depth_run.py microsoft 10 oracle c eb p r tree 10000 1";
    ip "depth_run.py microsoft 10 oracle c eb p r all 10000 1"] |}.

(** bash_scripts/old_bash/depth_run_eb_10_or_nc.sh:3-12 *)
Definition b_old_depth_run_eb_10_or_nc_sh : shell :=
  {| h_dir := map lit ["bash_scripts"; "old_bash"]; h_name := lit "depth_run_eb_10_or_nc.sh"; h_lines := [
    cd [".."];
    ip "depth_run.py microsoft 10 oracle nc eb l rf tree 10000 1";
    ip "depth_run.py microsoft 10 oracle nc eb l rf all 10000 1";
    ip "depth_run.py microsoft 10 oracle nc eb l r tree 10000 1";
    ip "depth_run.py microsoft 10 oracle nc eb l r all 10000 1";
    ip "depth_run.py microsoft 10 oracle nc eb p rf tree 10000 1";
    ip "depth_run.py microsoft 10 oracle nc eb p rf all 10000 1";
    ip "depth_run.py microsoft 10 oracle nc eb p r tree 10000 1";
    ip "depth_run.py microsoft 10 oracle nc eb p r all 10000 1"] |}.

(** bash_scripts/old_bash/depth_run_eb_10_re_c.sh:3-12 *)
Definition b_old_depth_run_eb_10_re_c_sh : shell :=
  {| h_dir := map lit ["bash_scripts"; "old_bash"]; h_name := lit "depth_run_eb_10_re_c.sh"; h_lines := [
    cd [".."];
    ip "depth_run.py microsoft 10 resample c eb l rf tree 10000 1";
    ip "depth_run.py microsoft 10 resample c eb l rf all 10000 1";
    ip "depth_run.py microsoft 10 resample c eb l r tree 10000 1";
    ip "depth_run.py microsoft 10 resample c eb l r all 10000 1";
    ip "depth_run.py microsoft 10 resample c eb p rf tree 10000 1";
    ip "depth_run.py microsoft 10 resample c eb p rf all 10000 1";
    ip "depth_run.py microsoft 10 resample c eb p r tree 10000 1";
    ip "depth_run.py microsoft 10 resample c eb p r all 10000 1"] |}.

(** bash_scripts/old_bash/depth_run_eb_10_re_nc.sh:3-12 *)
Definition b_old_depth_run_eb_10_re_nc_sh : shell :=
  {| h_dir := map lit ["bash_scripts"; "old_bash"]; h_name := lit "depth_run_eb_10_re_nc.sh"; h_lines := [
    cd [".."];
    ip "depth_run.py microsoft 10 resample nc eb l rf tree 10000 1";
    ip "depth_run.py microsoft 10 resample nc eb l rf all 10000 1";
    ip "depth_run.py microsoft 10 resample nc eb l r tree 10000 1";
    ip "depth_run.py microsoft 10 resample nc eb l r all 10000 1";
    ip "depth_run.py microsoft 10 resample nc eb p rf tree 10000 1";
    ip "depth_run.py microsoft 10 resample nc eb p rf all 10000 1";
    ip "depth_run.py microsoft 10 resample nc eb p r tree 10000 1";
    ip "depth_run.py microsoft 10 resample nc eb p r all 10000 1"] |}.

(** bash_scripts/old_bash/depth_run_eb_300_ob_c.sh:3-12 *)
Definition b_old_depth_run_eb_300_ob_c_sh : shell :=
  {| h_dir := map lit ["bash_scripts"; "old_bash"]; h_name := lit "depth_run_eb_300_ob_c.sh"; h_lines := [
    cd [".."];
    ip "depth_run.py microsoft 300 oob c eb l rf tree 10000 1";
    ip "depth_run.py microsoft 300 oob c eb l rf all 10000 1";
    ip "depth_run.py microsoft 300 oob c eb l r tree 10000 1";
    ip "depth_run.py microsoft 300 oob c eb l r all 10000 1";
    ip "depth_run.py microsoft 300 oob c eb p rf tree 10000 1";
    ip "depth_run.py microsoft 300 oob c eb p rf all 10000 1";
    ip "depth_run.py microsoft 300 oob c eb p r tree 10000 1";
    ip "depth_run.py microsoft 300 oob c eb p r all 10000 1"] |}.

(** bash_scripts/old_bash/depth_run_eb_300_ob_nc.sh:3-12 *)
Definition b_old_depth_run_eb_300_ob_nc_sh : shell :=
  {| h_dir := map lit ["bash_scripts"; "old_bash"]; h_name := lit "depth_run_eb_300_ob_nc.sh"; h_lines := [
    cd [".."];
    ip "depth_run.py microsoft 300 oob nc eb l rf tree 10000 1";
    ip "depth_run.py microsoft 300 oob nc eb l rf all 10000 1";
    ip "depth_run.py microsoft 300 oob nc eb l r tree 10000 1";
    ip "depth_run.py microsoft 300 oob nc eb l r all 10000 1";
    ip "depth_run.py microsoft 300 oob nc eb p rf tree 10000 1";
    ip "depth_run.py microsoft 300 oob nc eb p rf all 10000 1";
    ip "depth_run.py microsoft 300 oob nc eb p r tree 10000 1";
    ip "depth_run.py microsoft 300 oob nc eb p r all 10000 1"] |}.

(** bash_scripts/old_bash/depth_run_eb_300_or_c.sh:3-12 *)
Definition b_old_depth_run_eb_300_or_c_sh : shell :=
  {| h_dir := map lit ["bash_scripts"; "old_bash"]; h_name := lit "depth_run_eb_300_or_c.sh"; h_lines := [
    cd [".."];
    ip "depth_run.py microsoft 300 oracle c eb l rf tree 10000 1";
    ip "depth_run.py microsoft 300 oracle c eb l rf all 10000 1";
    ip "depth_run.py microsoft 300 oracle c eb l r tree 10000 1";
    ip "depth_run.py microsoft 300 oracle c eb l r all 10000 1";
    ip "depth_run.py microsoft 300 oracle c eb p rf tree 10000 1";
    ip "depth_run.py microsoft 300 oracle c eb p rf all 10000 1";
    ip "depth_run.py microsoft 300 oracle c eb p r tree 10000 1";
    ip "depth_run.py microsoft 300 oracle c eb p r all 10000 1"] |}.

(** bash_scripts/old_bash/depth_run_eb_300_or_nc.sh:3-12 *)
Definition b_old_depth_run_eb_300_or_nc_sh : shell :=
  {| h_dir := map lit ["bash_scripts"; "old_bash"]; h_name := lit "depth_run_eb_300_or_nc.sh"; h_lines := [
    cd [".."];
    ip "depth_run.py microsoft 300 oracle nc eb l rf tree 10000 1";
    ip "depth_run.py microsoft 300 oracle nc eb l rf all 10000 1";
    ip "depth_run.py microsoft 300 oracle nc eb l r tree 10000 1";
    ip "depth_run.py microsoft 300 oracle nc eb l r all 10000 1";
    ip "depth_run.py microsoft 300 oracle nc eb p rf tree 10000 1";
    ip "depth_run.py microsoft 300 oracle nc eb p rf all 10000 1";
    ip "depth_run.py microsoft 300 oracle nc eb p r tree 10000 1";
    ip "depth_run.py microsoft 300 oracle nc eb p r all 10000 1"] |}.

(** bash_scripts/old_bash/depth_run_eb_300_re_c.sh:3-12 *)
Definition b_old_depth_run_eb_300_re_c_sh : shell :=
  {| h_dir := map lit ["bash_scripts"; "old_bash"]; h_name := lit "depth_run_eb_300_re_c.sh"; h_lines := [
    cd [".."];
    ip "depth_run.py microsoft 300 resample c eb l rf tree 10000 1";
    ip "depth_run.py microsoft 300 resample c eb l rf all 10000 1";
    ip "depth_run.py microsoft 300 resample c eb l r tree 10000 1";
    ip "depth_run.py microsoft 300 resample c eb l r all 10000 1";
    ip "depth_run.py microsoft 300 resample c eb p rf tree 10000 1";
    ip "depth_run.py microsoft 300 resample c eb p rf all 10000 1";
    ip "depth_run.py microsoft 300 resample c eb p r tree 10000 1";
    ip "depth_run.py microsoft 300 resample c eb p r all 10000 1"] |}.

(** bash_scripts/old_bash/depth_run_eb_300_re_nc.sh:3-12 *)
Definition b_old_depth_run_eb_300_re_nc_sh : shell :=
  {| h_dir := map lit ["bash_scripts"; "old_bash"]; h_name := lit "depth_run_eb_300_re_nc.sh"; h_lines := [
    cd [".."];
    ip "depth_run.py microsoft 300 resample nc eb l rf tree 10000 1";
    ip "depth_run.py microsoft 300 resample nc eb l rf all 10000 1";
    ip "depth_run.py microsoft 300 resample nc eb l r tree 10000 1";
    ip "depth_run.py microsoft 300 resample nc eb l r all 10000 1";
    ip "depth_run.py microsoft 300 resample nc eb p rf tree 10000 1";
    ip "depth_run.py microsoft 300 resample nc eb p rf all 10000 1";
    ip "depth_run.py microsoft 300 resample nc eb p r tree 10000 1";
    ip "depth_run.py microsoft 300 resample nc eb p r all 10000 1"] |}.

(** bash_scripts/old_bash/depth_run_lb_ob.sh:3-12 *)
Definition b_old_depth_run_lb_ob_sh : shell :=
  {| h_dir := map lit ["bash_scripts"; "old_bash"]; h_name := lit "depth_run_lb_ob.sh"; h_lines := [
    cd [".."];
    ip "depth_run.py microsoft 10 oob c lb l";
    ip "depth_run.py microsoft 10 oob c lb p";
    ip "depth_run.py microsoft 10 oob nc lb l";
    ip "depth_run.py microsoft 10 oob nc lb p";
    ip "depth_run.py microsoft 300 oob c lb l";
    ip "depth_run.py microsoft 300 oob c lb p";
    ip "depth_run.py microsoft 300 oob nc lb l";
    ip "depth_run.py microsoft 300 oob nc lb p"] |}.

(** bash_scripts/old_bash/depth_run_lb_or.sh:3-12 *)
Definition b_old_depth_run_lb_or_sh : shell :=
  {| h_dir := map lit ["bash_scripts"; "old_bash"]; h_name := lit "depth_run_lb_or.sh"; h_lines := [
    cd [".."];
    ip "depth_run.py microsoft 10 oracle c lb l";
    ip "depth_run.py microsoft 10 oracle c lb p";
    ip "depth_run.py microsoft 10 oracle nc lb l";
    ip "depth_run.py microsoft 10 oracle nc lb p";
    ip "depth_run.py microsoft 300 oracle c lb l";
    ip "depth_run.py microsoft 300 oracle c lb p";
    ip "depth_run.py microsoft 300 oracle nc lb l";
    ip "depth_run.py microsoft 300 oracle nc lb p"] |}.

(** bash_scripts/old_bash/depth_run_lb_re.sh:3-12 *)
Definition b_old_depth_run_lb_re_sh : shell :=
  {| h_dir := map lit ["bash_scripts"; "old_bash"]; h_name := lit "depth_run_lb_re.sh"; h_lines := [
    cd [".."];
    ip "depth_run.py microsoft 10 resample c lb l";
    ip "depth_run.py microsoft 10 resample c lb p";
    ip "depth_run.py microsoft 10 resample nc lb l";
    ip "depth_run.py microsoft 10 resample nc lb p";
    ip "depth_run.py microsoft 300 resample c lb l";
    ip "depth_run.py microsoft 300 resample c lb p";
    ip "depth_run.py microsoft 300 resample nc lb l";
    ip "depth_run.py microsoft 300 resample nc lb p"] |}.

(** bash_scripts/old_bash/depth_run_online_eb_ob_c.sh:3-6 *)
Definition b_old_depth_run_online_eb_ob_c_sh : shell :=
  {| h_dir := map lit ["bash_scripts"; "old_bash"]; h_name := lit "depth_run_online_eb_ob_c.sh"; h_lines := [
    cd [".."];
    ip "depth_run.py online_news 10 oob c eb p rf tree 10000 1";
    ip "depth_run.py online_news 300 oob c eb p rf tree 10000 1"] |}.

(** all of bash_scripts/ and bash_scripts/old_bash/ *)
Definition shells : list shell := [
  b_analysis_block_sh;
  b_analysis_block2_sh;
  b_analysis_block2_moon_sh;
  b_analysis_block2_moon_impurity_sh;
  b_analysis_block_moon_sh;
  b_depth_run_class_moon_microsft_adam_sh;
  b_depth_run_class_moon_microsft_adam_300_sh;
  b_depth_run_eb_10_ob_c_l_diff_depth_sh;
  b_depth_run_eb_10_ob_c_p_diff_depth_sh;
  b_depth_run_microsoft_adam_sh;
  b_depth_run_microsoft_adam_300_sh;
  b_depth_run_prgeng_adam_sh;
  b_depth_run_moon_test_py;
  b_old_depth_run_check_t_eb_10_ob_c_sh;
  b_old_depth_run_check_t_eb_300_ob_c_sh;
  b_old_depth_run_eb_10_ob_c_sh;
  b_old_depth_run_eb_10_ob_nc_sh;
  b_old_depth_run_eb_10_or_c_sh;
  b_old_depth_run_eb_10_or_nc_sh;
  b_old_depth_run_eb_10_re_c_sh;
  b_old_depth_run_eb_10_re_nc_sh;
  b_old_depth_run_eb_300_ob_c_sh;
  b_old_depth_run_eb_300_ob_nc_sh;
  b_old_depth_run_eb_300_or_c_sh;
  b_old_depth_run_eb_300_or_nc_sh;
  b_old_depth_run_eb_300_re_c_sh;
  b_old_depth_run_eb_300_re_nc_sh;
  b_old_depth_run_lb_ob_sh;
  b_old_depth_run_lb_or_sh;
  b_old_depth_run_lb_re_sh;
  b_old_depth_run_online_eb_ob_c_sh].

(** ** Running *)

(** the directory after cd (bash_scripts/analysis_block.sh:3); a directory that does not exist leaves the shell where it is *)
Definition step_dir (d : path) (c : str) : path := if str_eq_dec c (lit "..") then removelast d else d ++ [c].
Definition change (d to : path) : path :=
  let d' := fold_left step_dir to d in
  match listing d' with Some _ => d' | None => d end.

(** the scripts of main/ and main_old/ whose command lines are modelled (M_Cmd, M_Job) *)
Inductive program := PDepth (sc : script) | PJob (sc : ascript) | POther.
Definition program_of (d : path) (f : str) : program :=
  let is l s := ((if list_eq_dec str_eq_dec d (map lit l) then true else false) && str_eqb f (lit s))%bool in
  if is ["main"] "1.0-depth_run_adam.py" then PDepth Adam10
  else if is ["main"] "1.1-depth_run_class_adam.py" then PDepth Adam11
  else if is ["main_old"] "depth_run.py" then PDepth Old10
  else if is ["main_old"] "depth_run_class.py" then PDepth Old11
  else if is ["main"] "analysis.py" then PJob AOne
  else if is ["main"] "analysis_both.py" then PJob ABoth
  else if is ["main"] "analysis_both_clean.py" then PJob AClean
  else POther.

Section Model.
Context {T : Type} {NT : Num T}.

(** the outside of all runs: reading and printing numbers, logarithm, scoring, level-base smoothing and passes of the depth scripts, and for
    each line the outside of the analysis scripts (each run draws another seed) *)
Record surroundings := {
  x_int : str -> option nat; x_float : str -> option T; x_print : T -> str; x_log : T -> T;
  x_score : kind -> list (tree T) -> mat T * list T -> T;
  x_level : mat T * list T -> option (mat T * list T) -> bool -> bool -> bool -> list (tree T) -> result (list (tree T));
  x_cells : str -> nat -> nat -> nat -> cell T;
  x_world : nat -> world T
}.

(** what a line comes to: ipython does not find the script, or runs it; another script than the seven is not modelled *)
Inductive line_out := NoScript | RunsDepth (r : result (list (str * file T))) | RunsJob (r : outcome T) | RunsOther.
Definition run_words (x : surroundings) (d : path) (i : nat) (words : list str) : line_out :=
  match words with
  | [] => RunsOther
  | f :: _ =>
      if match listing d with Some l => if in_dec str_eq_dec f l then true else false | None => false end then
        match program_of d f with
        | PDepth sc => RunsDepth (run_script (x_int x) (x_float x) (x_print x) (x_log x) (x_score x) (x_level x) (x_cells x) sc words)
        | PJob sc => RunsJob (run_job (x_int x) (x_print x) (x_log x) (x_world x i) sc words)
        | POther => RunsOther
        end
      else NoScript
  end.

(** the lines one after the other, whatever the one before came to; [i] counts them *)
Fixpoint run_lines (x : surroundings) (d : path) (i : nat) (l : list sline) : list line_out :=
  match l with
  | [] => []
  | Cd to :: l => run_lines x (change d to) (S i) l
  | Ipython w :: l => run_words x d i w :: run_lines x d (S i) l
  end.
Definition run_shell (x : surroundings) (h : shell) : list line_out := run_lines x (h_dir h) 0 (h_lines h).

End Model.
Arguments surroundings T : clear implicits.
Arguments line_out T : clear implicits.
