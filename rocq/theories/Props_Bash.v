(** Props_Bash: C123, the shell scripts of bash_scripts/. *)
From Coq Require Import Ascii Lia Reals.
From Coq Require Strings.String.
From Verif Require Import Base TreeSpec M_Tree M_Gamma M_Grad M_Smooth M_Analysis M_Main M_Cmd M_Job M_Bash SpecAnalysis SpecCmd SpecJob SpecBash.
From Verif Require Import L_Bash L_Job L_Cmd Props_Cmd Props_Job.
Import Coq.Strings.String.StringSyntax.
Local Open Scope nat_scope.
Local Open Scope string_scope.
Local Open Scope list_scope.

(** ** C123 *)

(** C123: every line of five shell scripts for the analyses and of depth_run_prgeng_adam.sh finds the script it calls, no line of the other 25 does; *)
Theorem C123_found : forall (x : surroundings R) h, In h shells ->
  run_shell x h <> [] /\ forall o, In o (run_shell x h) -> (o = NoScript <-> ~ In (h_name h) working).
Proof. exact p_found. Qed.
Print Assumptions C123_found.

(** ... four of the five ask for classifications only, so that none of their lines finishes or writes a file; *)
Theorem C123_class : forall x : surroundings R, reads_numbers x -> (forall i p, r_draws (u_rd (x_world x i) p) <> []) ->
  forall h o, In h [b_analysis_block2_sh; b_analysis_block2_moon_sh; b_analysis_block2_moon_impurity_sh; b_analysis_block_moon_sh] -> In o (run_shell x h) ->
  exists e, o = RunsJob ([], Some e).
Proof. exact p_class_shells. Qed.
Print Assumptions C123_class.

(** ... the 21 lines of analysis_block.sh each write at most these two files, which two lines share when they draw the same seed; *)
Theorem C123_reg : forall x : surroundings R, reads_numbers x -> prints (x_print x) (alphas_R ++ betas1_R ++ betas0_R ++ epss_R) ->
  length (run_shell x b_analysis_block_sh) = 21 /\
  forall k o, nth_error (run_shell x b_analysis_block_sh) k = Some o -> exists files ex, o = RunsJob (files, ex) /\
    let seed := str_nat (u_seed (x_world x (S k))) in
    let first := lit "data/microsoft_reg_10_" ++ seed ++ lit ".pkl" in
    let second := lit "data/microsoft_depth_reg_10_" ++ seed ++ lit ".pkl" in
    (map fst files = [] /\ ex <> None) \/ (map fst files = [first] /\ ex <> None) \/ (map fst files = [first; second] /\ ex = None).
Proof.
  intros x HN HP. destruct (p_reg_shell x HN) as [-> HA]. split; [reflexivity|].
  intros k o Ho. rewrite nth_error_map in Ho. destruct (nth_error (seq 1 21) k) as [i|] eqn:Ei; [|discriminate].
  assert (EO : o = RunsJob (run_job (x_int x) (x_print x) (x_log x) (x_world x i) AOne (map lit ["analysis.py"; "microsoft"; "reg"; "10"]))) by (cbn [option_map] in Ho; congruence). clear Ho.
  assert (E : i = S k) by (assert (L : k < 21) by (rewrite <- (seq_length 21 1); apply nth_error_Some; congruence); apply (nth_error_nth _ _ 0) in Ei; rewrite seq_nth in Ei by auto; lia).
  subst i. destruct (run_job (x_int x) (x_print x) (x_log x) (x_world x (S k)) AOne (map lit ["analysis.py"; "microsoft"; "reg"; "10"])) as [files ex] eqn:ER. subst o. exists files, ex. split; [reflexivity|]. cbv zeta.
  destruct (C122_old (x_int x) (x_print x) (x_log x) (x_world x (S k)) HP AOne _ _ ltac:(discriminate) HA eq_refl) as [(e&H)|(train&test&ts&base&dts&dl&dsc&d0&_&_&_&_&[(e&H)|(d&H&_)])];
    rewrite H in ER; injection ER as <- <-; cbn [map fst].
  - left. split; [reflexivity|discriminate].
  - right. left. split; [|discriminate]. reflexivity.
  - right. right. split; reflexivity.
Qed.
Print Assumptions C123_reg.


(** ... depth_run_prgeng_adam.sh runs 1.0-depth_run_adam.py, asks for the tuning "ob" and gets what "oob" asks for, in files with "ob" in their names; *)
Theorem C123_prgeng : forall x : surroundings R, reads_numbers x ->
  exists r, run_shell x b_depth_run_prgeng_adam_sh = [RunsDepth r] /\
  (exists w g, asks (x_int x) (x_float x) Adam10 w g /\ g_data g = Prgeng /\ g_trees g = 10 /\ g_tuning g = TuneOob /\
     same_contents r (run_script (x_int x) (x_float x) (x_print x) (x_log x) (x_score x) (x_level x) (x_cells x) Adam10 w)) /\
  forall n t files, x_int x (lit "10000") = Some n -> x_float x (lit "1") = Some t -> r = Ok files ->
    map fst files = map (fun se => lit "../images/" ++ lit (fst se) ++ lit "prgeng_trees10_ob_c_element-based_distance-p_tree_depth_dist-standard_init_lamb-rf-init_fix_t-" ++
       x_print x t ++ lit "_single-tree_" ++ str_nat n ++ lit "_adam" ++ lit (snd se))
      [("data_vis_depth_", ".csv"); ("depth_vis_", ".pdf"); ("data_vis_cost_", ".csv"); ("cost_vis_", ".pdf")].
Proof.
  intros x HN. eexists. split; [apply p_prgeng|]. split.
  - apply (p_prgeng_oob x HN).
  - intros n t files EN ET ER. apply (p_prgeng_names x HN n t files EN ET). rewrite p_prgeng, ER. reflexivity.
Qed.
Print Assumptions C123_prgeng.

(** ... had the lines of the depth simulations found the scripts they mean, those with the older scripts (all of old_bash) and the class script would
    still have failed, and the others tune as for "oob". *)
Theorem C123_meant : forall x : surroundings R, reads_numbers x -> forall h w f r sc, In h shells -> calls_words h w -> w = f :: r -> means f sc ->
  let run := run_script (x_int x) (x_float x) (x_print x) (x_log x) (x_score x) (x_level x) (x_cells x) sc in
  match sc with
  | Adam10 => nth_error w 3 = Some (lit "ob") /\ exists w' g, same_but 3 w w' /\ asks (x_int x) (x_float x) sc w' g /\ g_tuning g = TuneOob /\ same_contents (run w) (run w')
  | _ => exists e, run w = Err e
  end.
Proof.
  intros x HN h w f r sc Hh Hw -> HM run. unfold run. destruct sc.
  - eapply p_meant_adam; eauto.
  - eapply p_meant_class; eauto.
  - eapply p_meant_old; eauto. left. reflexivity.
  - eapply p_meant_old; eauto. right. reflexivity.
Qed.
Print Assumptions C123_meant.

(** Examples *)
Example C123_ex_count : length shells = 31 /\ length (concat (map (fun h => filter (fun l => match l with Ipython _ => true | Cd _ => false end) (h_lines h)) shells)) = 252.
Proof. split; vm_compute; reflexivity. Qed.
Definition bash_int (s : str) : option nat := if str_eqb s (lit "10") then Some 10 else if str_eqb s (lit "300") then Some 300 else if str_eqb s (lit "45") then Some 45 else Some 1.
Definition bash_x : surroundings R :=
  {| x_int := bash_int; x_float := fun _ => Some 1%R; x_print := fun x => str_nat (ex_place x (alphas_R ++ betas1_R ++ betas0_R ++ epss_R)); x_log := fun x => x;
     x_score := fun _ _ _ => 0%R; x_level := fun _ _ _ _ _ ts => Ok ts; x_cells := @Props_Cmd.ex_cells R _;
     x_world := fun i => {| u_raw := fun _ => Ok ([], []); u_seed := i; u_split := fun d => Ok (d, d); u_fit_reg := fun _ _ => Ok []; u_fit_class := fun _ _ => Ok (2, [], []);
       u_depth := {| r_oob := fun _ => []; r_boot := fun _ => []; r_draws := [] |}; u_fuel := 1; u_feps := 0%R; u_solve := fun _ _ _ => None; u_check := fun _ _ => Ok true;
       u_rng := fun _ _ => 0%R; u_rd := fun _ => {| r_oob := fun _ => []; r_boot := fun _ => []; r_draws := [0] |}; u_oob := fun _ => []; u_clean := fun _ => [];
       u_other := fun _ => Err ValueError; u_date := [] |} |}.
Example C123_ex : reads_numbers bash_x /\ (forall i p, r_draws (u_rd (x_world bash_x i) p) <> []) /\ prints (x_print bash_x) (alphas_R ++ betas1_R ++ betas0_R ++ epss_R).
Proof.
  split; [|split; [discriminate|exact C122_ex_prints]].
  split; [reflexivity|]. split; [reflexivity|]. split; [reflexivity|]. split; eexists; reflexivity.
Qed.
(** a line of old_bash, and what it means *)
Example C123_ex_meant : let w := lit "depth_run.py" :: map lit ["microsoft"; "10"; "oob"; "c"; "lb"; "l"] in
  In b_old_depth_run_lb_ob_sh shells /\ calls_words b_old_depth_run_lb_ob_sh w /\ means (lit "depth_run.py") Old10 /\ run_shell bash_x b_old_depth_run_lb_ob_sh = repeat NoScript 8.
Proof.
  split; [unfold shells; cbn [In]; auto 40|]. split; [unfold calls_words; vm_compute; auto 20|]. split; [left; auto|]. reflexivity.
Qed.
