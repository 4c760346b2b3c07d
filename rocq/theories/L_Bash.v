(** L_Bash: lemmas on the shell scripts (C123). *)
From Coq Require Import Ascii Lia Reals.
From Coq Require Strings.String.
From Verif Require Import Base TreeSpec M_Tree M_Gamma M_Grad M_Smooth M_Analysis M_Main M_Cmd M_Job M_Bash SpecAnalysis SpecCmd SpecJob SpecBash.
From Verif Require Import L_Base L_Analysis L_Cmd L_Job.
Import Coq.Strings.String.StringSyntax.
Local Open Scope nat_scope.
Local Open Scope string_scope.
Local Open Scope list_scope.

(** the calls with their directories and numbers *)
Fixpoint calls (d : path) (i : nat) (l : list sline) : list (path * nat * list str) :=
  match l with
  | [] => []
  | Cd to :: l => calls (change d to) (S i) l
  | Ipython w :: l => (d, i, w) :: calls d (S i) l
  end.
Definition shell_calls (h : shell) := calls (h_dir h) 0 (h_lines h).
Definition found (c : path * nat * list str) : bool :=
  match snd c with f :: _ => match listing (fst (fst c)) with Some l => if in_dec str_eq_dec f l then true else false | None => false end | [] => true end.
Definition do_call {T} {NT : Num T} (x : surroundings T) (c : path * nat * list str) : line_out T := run_words x (fst (fst c)) (snd (fst c)) (snd c).

Section Run.
Context {T : Type} {NT : Num T}.
Variable x : surroundings T.
Lemma run_calls : forall h, run_shell x h = map (do_call x) (shell_calls h).
Proof.
  intros h. unfold run_shell, shell_calls. generalize (h_dir h) as d. generalize 0 as i. induction (h_lines h) as [|[to|w] l IH]; intros i d; cbn [run_lines calls map]; auto.
  rewrite IH. reflexivity.
Qed.
Lemma not_found : forall c, do_call x c = NoScript <-> found c = false.
Proof.
  intros [[d i] w]. unfold do_call, run_words, found. cbn [fst snd]. destruct w as [|f w]; [split; discriminate|].
  destruct (listing d) as [l|]; [destruct (in_dec str_eq_dec f l)|]; try (split; [discriminate|congruence]); try tauto.
  destruct (program_of d f); split; discriminate.
Qed.
Lemma shells_check : forallb (fun h => Bool.eqb (if in_dec str_eq_dec (h_name h) working then true else false) (forallb found (shell_calls h)) &&
   ((if in_dec str_eq_dec (h_name h) working then true else false) || forallb (fun c => negb (found c)) (shell_calls h)) && negb (Nat.eqb (length (shell_calls h)) 0))%bool shells = true.
Proof. vm_compute. reflexivity. Qed.
Lemma p_found : forall h, In h shells -> run_shell x h <> [] /\ forall o, In o (run_shell x h) -> (o = NoScript <-> ~ In (h_name h) working).
Proof.
  intros h Hh. pose proof shells_check as C. rewrite forallb_forall in C. specialize (C h Hh). apply andb_prop in C. destruct C as [C C3]. apply andb_prop in C. destruct C as [C1 C2].
  rewrite run_calls. split.
  - intros E. apply map_eq_nil in E. rewrite E in C3. discriminate.
  - intros o Ho. apply in_map_iff in Ho. destruct Ho as (c&<-&Hc). rewrite not_found. destruct (in_dec str_eq_dec (h_name h) working) as [Y|N].
    + apply Bool.eqb_prop in C1. symmetry in C1. rewrite forallb_forall in C1. rewrite (C1 c Hc). split; [discriminate|contradiction].
    + cbn [orb] in C2. rewrite forallb_forall in C2. specialize (C2 c Hc). apply Bool.negb_true_iff in C2. tauto.
Qed.
End Run.

(** the lines of the depth simulations with the older scripts *)
Lemma old_check : forallb (fun h => forallb (fun l => match l with
    | Ipython (f :: w) => if (str_eqb f (lit "depth_run.py") || str_eqb f (lit "depth_run_class.py"))%bool
                          then (match nth_error w 4 with Some s => str_eqb s (lit "eb") | None => false end ||
                                (str_eqb f (lit "depth_run.py") && Nat.leb (length w) 6 && match nth_error w 1 with Some n => str_eqb n (lit "10") || str_eqb n (lit "300") | None => true end))%bool else true
    | _ => true end) (h_lines h)) shells = true.
Proof. vm_compute. reflexivity. Qed.
Lemma eqb_yes : forall s u, str_eqb s u = true -> s = u.
Proof. intros s u. unfold str_eqb. destruct (str_eq_dec s u); [auto|discriminate]. Qed.
Section Meant.
Variable x : surroundings R.
Hypothesis HN : reads_numbers x.
Notation run := (run_script (x_int x) (x_float x) (x_print x) (x_log x) (x_score x) (x_level x) (x_cells x)).
Lemma p_meant_old : forall h w sc, In h shells -> calls_words h w -> (exists f r, w = f :: r /\ means f sc) -> old_script sc -> exists e, run sc w = Err e.
Proof.
  intros h w sc Hh Hw (f&r&->&HM) HO. pose proof old_check as C. rewrite forallb_forall in C. specialize (C h Hh). cbv beta in C. rewrite forallb_forall in C. specialize (C _ Hw). cbv beta iota in C.
  assert (HF : (f = lit "depth_run.py" /\ sc = Old10) \/ (f = lit "depth_run_class.py" /\ sc = Old11)).
  { destruct HM as [H|[H|[(_&->)|(_&->)]]]; auto; destruct HO; discriminate. }
  assert (EF : (str_eqb f (lit "depth_run.py") || str_eqb f (lit "depth_run_class.py"))%bool = true) by (destruct HF as [(->&_)|(->&_)]; reflexivity).
  rewrite EF in C. apply Bool.orb_prop in C. destruct C as [C|C].
  - apply p_C121_old_eb; auto. change (nth_error (f :: r) 5) with (nth_error r 4). destruct (nth_error r 4) as [s|]; [|discriminate]. apply eqb_yes in C. subst. reflexivity.
  - apply andb_prop in C. destruct C as [C C3]. apply andb_prop in C. destruct C as [C1 C2]. apply eqb_yes in C1. subst f. destruct HF as [(_&->)|(HF&_)]; [|discriminate].
    exists IndexError. apply p_C121_short.
    + intros n En. change (nth_error r 1 = Some n) in En. rewrite En in C3. apply Bool.orb_prop in C3. destruct HN as (N1&N2&_). destruct C3 as [C3|C3]; apply eqb_yes in C3; subst n; congruence.
    + apply Nat.leb_le in C2. cbn. lia.
Qed.

(** the lines of 1.1 *)
Lemma class_check : forallb (fun h => forallb (fun l => match l with
    | Ipython (f :: w) => if str_eqb f (lit "depth_run_class_adam.py") then
        existsb (fun w' => if list_eq_dec str_eq_dec w w' then true else false)
          (flat_map (fun d => flat_map (fun n => map (fun l => map lit [d; n; "oob"; "c"; "eb"; "p"; "standard"; l; "rf"; "tree"; "10000"; "1"]) ["l2"; "ce"]) ["10"; "300"]) ["moon"; "microsoft"])
        else true
    | _ => true end) (h_lines h)) shells = true.
Proof. vm_compute. reflexivity. Qed.
Lemma p_meant_class : forall h w sc, In h shells -> calls_words h w -> (exists f r, w = f :: r /\ means f sc) -> sc = Adam11 -> exists e, run sc w = Err e.
Proof.
  intros h w sc Hh Hw (f&r&->&HM) ->. pose proof class_check as C. rewrite forallb_forall in C. specialize (C h Hh). cbv beta in C. rewrite forallb_forall in C. specialize (C _ Hw). cbv beta iota in C.
  assert (HF : f = lit "depth_run_class_adam.py") by (destruct HM as [(_&H)|[(_&H)|[(_&H)|(H&_)]]]; auto; discriminate).
  subst f. rewrite str_eqb_refl in C. apply existsb_exists in C. destruct C as (w'&HI&C). destruct (list_eq_dec str_eq_dec r w') as [<-|]; [|discriminate]. clear C.
  destruct HN as (N10&N300&_&(k&NK)&(t&NT)).
  assert (HA : exists d n l, (d = Moon \/ d = Microsoft) /\ (n = 10 \/ n = 300) /\ asks (x_int x) (x_float x) Adam11 (lit "depth_run_class_adam.py" :: r)
    {| g_data := d; g_trees := n; g_tuning := TuneOob; g_con := true; g_parents := true; g_inner := Standard; g_loss := Some l;
       g_element := Some {| b_random := false; b_all := false; b_steps := S k; b_t := t |} |}).
  { cbn [flat_map map app In] in HI.
    destruct HI as [<-|[<-|[<-|[<-|[<-|[<-|[<-|[<-|[]]]]]]]]];
      [exists Moon, 10, L2|exists Moon, 10, CE|exists Moon, 300, L2|exists Moon, 300, CE|exists Microsoft, 10, L2|exists Microsoft, 10, CE|exists Microsoft, 300, L2|exists Microsoft, 300, CE];
      (split; [auto|]); (split; [auto|]); (split; [cbn; auto|]); (split; [cbn; split; [left; auto|congruence]|]);
      eexists; eexists; exists (map lit ["rf"; "tree"; "10000"; "1"]); (split; [first [exact N10|exact N300]|]); (split; [reflexivity|]); exists (lit "10000"), (lit "1"), []; auto. }
  destruct HA as (d&n&l&_&_&HA). eapply p_C121_class; [exact HA|left; left; reflexivity|reflexivity|cbn; lia].
Qed.

(** the lines of 1.0 *)
Lemma adam_check : forallb (fun h => forallb (fun l => match l with
    | Ipython (f :: w) => if (str_eqb f (lit "depth_run_adam.py") || str_eqb f (lit "1.0-depth_run_adam.py"))%bool then
        existsb (fun w' => if list_eq_dec str_eq_dec w w' then true else false)
          (flat_map (fun d => map (fun n => map lit [d; n; "ob"; "c"; "eb"; "p"; "standard"; "rf"; "tree"; "10000"; "1"]) ["10"; "300"]) ["prgeng"; "microsoft"])
        else true
    | _ => true end) (h_lines h)) shells = true.
Proof. vm_compute. reflexivity. Qed.
Lemma p_meant_adam : forall h w sc, In h shells -> calls_words h w -> (exists f r, w = f :: r /\ means f sc) -> sc = Adam10 ->
  nth_error w 3 = Some (lit "ob") /\ exists w' g, same_but 3 w w' /\ asks (x_int x) (x_float x) sc w' g /\ g_tuning g = TuneOob /\
    same_contents (run sc w) (run sc w').
Proof.
  intros h w sc Hh Hw (f&r&->&HM) ->. pose proof adam_check as C. rewrite forallb_forall in C. specialize (C h Hh). cbv beta in C. rewrite forallb_forall in C. specialize (C _ Hw). cbv beta iota in C.
  assert (HF : (str_eqb f (lit "depth_run_adam.py") || str_eqb f (lit "1.0-depth_run_adam.py"))%bool = true) by (destruct HM as [(_&H)|[(_&H)|[([->| ->]&_)|(_&H)]]]; try discriminate; reflexivity).
  rewrite HF in C. apply existsb_exists in C. destruct C as (w'&HI&C). destruct (list_eq_dec str_eq_dec r w') as [<-|]; [|discriminate]. clear C.
  destruct HN as (N10&N300&_&(k&NK)&(t&NT)).
  assert (HA : exists d n, nth_error r 2 = Some (lit "ob") /\ same_but 3 (f :: r) (f :: firstn 2 r ++ lit "oob" :: skipn 3 r) /\ asks (x_int x) (x_float x) Adam10 (f :: firstn 2 r ++ lit "oob" :: skipn 3 r)
    {| g_data := d; g_trees := n; g_tuning := TuneOob; g_con := true; g_parents := true; g_inner := Standard; g_loss := None;
       g_element := Some {| b_random := false; b_all := false; b_steps := S k; b_t := t |} |}).
  { cbn [flat_map map app In] in HI.
    destruct HI as [<-|[<-|[<-|[<-|[]]]]];
      [exists Prgeng, 10|exists Prgeng, 300|exists Microsoft, 10|exists Microsoft, 300];
      (split; [reflexivity|]); (split; [split; [reflexivity|]; intros i Hi; do 4 (destruct i as [|i]; [try reflexivity; congruence|]); reflexivity|]);
      (split; [cbn; auto 8|]); (split; [cbn; split; [congruence|intros [X|X]; discriminate X]|]);
      eexists; eexists; exists (map lit ["rf"; "tree"; "10000"; "1"]); (split; [first [exact N10|exact N300]|]); (split; [reflexivity|]); exists (lit "10000"), (lit "1"), []; auto. }
  destruct HA as (d&n&E2&SB&HA). split; [exact E2|]. eexists. eexists. split; [exact SB|]. split; [exact HA|]. split; [reflexivity|].
  apply p_C121_tuning; auto.
  - intros s E. unfold arg in E. change (nth_error (f :: r) 3) with (nth_error r 2) in E. rewrite E2 in E. injection E as <-. split; discriminate.
  - intros s E. unfold arg in E. cbn [flat_map map app In] in HI. destruct HI as [<-|[<-|[<-|[<-|[]]]]]; cbn in E; injection E as <-; split; discriminate.
Qed.
End Meant.

(** ** the analyses *)
Lemma read_twelve : forall (io : str -> option nat) (fo : str -> option R) a0 a1 a2 a3 a4 a6 a7 a8 a9 a10 a11 n m t, io a2 = Some n -> io a10 = Some m -> fo a11 = Some t ->
  read_args io fo Adam10 [a0; a1; a2; a3; a4; lit "eb"; a6; a7; a8; a9; a10; a11] =
  Ok {| q_data := a1; q_trees := n; q_tuning := a3; q_cin := a4; q_s := lit "eb"; q_d := a6; q_inner := a7; q_loss := []; q_eb := Some (a8, a9, m, t) |}.
Proof.
  intros * E1 E2 E3. unfold read_args, arg. cbn [nth_error bind has_loss]. rewrite E1. cbn [bind]. change (str_eqb (lit "eb") (lit "eb")) with true. cbn [nth_error bind Nat.add]. rewrite E2. cbn [bind]. rewrite E3. reflexivity.
Qed.
Section Analyses.
Variable x : surroundings R.
Hypothesis HN : reads_numbers x.
Definition class_shells : list shell := [b_analysis_block2_sh; b_analysis_block2_moon_sh; b_analysis_block2_moon_impurity_sh; b_analysis_block_moon_sh].
Lemma class_calls : forall h, In h class_shells -> exists sc w n, (forall c, In c (shell_calls h) -> fst (fst c) = map lit ["main"] /\ snd c = w) /\
  (exists f r, w = f :: r /\ listing (map lit ["main"]) <> None /\ found (map lit ["main"], n, w) = true /\ program_of (map lit ["main"]) f = PJob sc) /\
  exists j, asks_job (x_int x) sc w j /\ j_class j = true.
Proof.
  destruct HN as (N10&_&N45&_).
  assert (F : forall h w, forallb (fun c => if list_eq_dec str_eq_dec (fst (fst c)) (map lit ["main"]) then if list_eq_dec str_eq_dec (snd c) w then true else false else false) (shell_calls h) = true ->
    forall c, In c (shell_calls h) -> fst (fst c) = map lit ["main"] /\ snd c = w).
  { intros h w H c Hc. rewrite forallb_forall in H. specialize (H c Hc). cbv beta in H. destruct (list_eq_dec _ _ _); [|discriminate]. destruct (list_eq_dec _ _ _); [auto|discriminate]. }
  intros h Hh. destruct Hh as [<-|[<-|[<-|[<-|[]]]]].
  - exists AOne, (map lit ["analysis.py"; "microsoft"; "class"; "10"]), 0. split; [apply F; vm_compute; reflexivity|].
    split; [eexists; eexists; split; [reflexivity|]; split; [discriminate|]; split; vm_compute; reflexivity|].
    exists {| j_data := AMicrosoft; j_class := true; j_trees := 10; j_impurity := false; j_levels := None |}. split; [|reflexivity].
    eexists; eexists; exists []. split; [reflexivity|]. split; [exact N10|]. left. auto.
  - exists AOne, (map lit ["analysis.py"; "moon"; "class"; "10"]), 0. split; [apply F; vm_compute; reflexivity|].
    split; [eexists; eexists; split; [reflexivity|]; split; [discriminate|]; split; vm_compute; reflexivity|].
    exists {| j_data := AMoon; j_class := true; j_trees := 10; j_impurity := false; j_levels := None |}. split; [|reflexivity].
    eexists; eexists; exists []. split; [reflexivity|]. split; [exact N10|]. left. auto.
  - exists AOne, (map lit ["analysis.py"; "moon"; "class"; "10"; "impurity"; "45"]), 0. split; [apply F; vm_compute; reflexivity|].
    split; [eexists; eexists; split; [reflexivity|]; split; [discriminate|]; split; vm_compute; reflexivity|].
    exists {| j_data := AMoon; j_class := true; j_trees := 10; j_impurity := true; j_levels := Some 45 |}. split; [|reflexivity].
    eexists; eexists; exists (map lit ["impurity"; "45"]). split; [reflexivity|]. split; [exact N10|]. right. exists [lit "45"]. split; [reflexivity|]. symmetry. exact N45.
  - exists ABoth, (map lit ["analysis_both.py"; "moon"; "class"; "10"; "45"]), 0. split; [apply F; vm_compute; reflexivity|].
    split; [eexists; eexists; split; [reflexivity|]; split; [discriminate|]; split; vm_compute; reflexivity|].
    exists {| j_data := AMoon; j_class := true; j_trees := 10; j_impurity := false; j_levels := Some 45 |}. split; [|reflexivity].
    eexists; eexists; exists (map lit ["45"]). split; [reflexivity|]. split; [exact N10|]. split; [reflexivity|]. symmetry. exact N45.
Qed.
Lemma run_found : forall i f r sc, found (map lit ["main"], 0, f :: r) = true -> program_of (map lit ["main"]) f = PJob sc ->
  run_words x (map lit ["main"]) i (f :: r) = RunsJob (run_job (x_int x) (x_print x) (x_log x) (x_world x i) sc (f :: r)).
Proof.
  intros i f r sc HF HP. unfold found in HF. cbn [fst snd] in HF. unfold run_words. destruct (listing (map lit ["main"])) as [l|]; [|discriminate].
  destruct (in_dec str_eq_dec f l); [|discriminate]. rewrite HP. reflexivity.
Qed.
Lemma p_class_shells : (forall i p, r_draws (u_rd (x_world x i) p) <> []) -> forall h o, In h class_shells -> In o (run_shell x h) -> exists e, o = RunsJob ([], Some e).
Proof.
  intros HD h o Hh Ho. rewrite run_calls in Ho. apply in_map_iff in Ho. destruct Ho as ([[d i] w']&<-&Hc). destruct (class_calls h Hh) as (sc&w&n&HC&(f&r&->&_&HF&HP)&j&HA&HJ).
  destruct (HC _ Hc) as [E1 E2]. cbn [fst snd] in E1, E2. subst d w'. unfold do_call. cbn [fst snd]. rewrite (run_found i f r sc); auto.
  destruct (p_job_class (x_int x) (x_print x) (x_log x) (x_world x i) sc _ j HA HJ (HD i)) as (e&->). eauto.
Qed.
Definition reg_request : request := {| j_data := AMicrosoft; j_class := false; j_trees := 10; j_impurity := false; j_levels := None |}.
Lemma p_reg_shell : run_shell x b_analysis_block_sh =
  map (fun i => RunsJob (run_job (x_int x) (x_print x) (x_log x) (x_world x i) AOne (map lit ["analysis.py"; "microsoft"; "reg"; "10"]))) (seq 1 21) /\
  asks_job (x_int x) AOne (map lit ["analysis.py"; "microsoft"; "reg"; "10"]) reg_request.
Proof.
  destruct HN as (N10&_). split.
  - rewrite run_calls. assert (E : shell_calls b_analysis_block_sh = map (fun i => (map lit ["main"], i, map lit ["analysis.py"; "microsoft"; "reg"; "10"])) (seq 1 21)) by (vm_compute; reflexivity).
    rewrite E, map_map. apply map_ext. intros i. unfold do_call. cbn [fst snd]. change (map lit ["analysis.py"; "microsoft"; "reg"; "10"]) with (lit "analysis.py" :: map lit ["microsoft"; "reg"; "10"]).
    apply run_found; vm_compute; reflexivity.
  - eexists; eexists; exists []. split; [reflexivity|]. split; [exact N10|]. left. auto.
Qed.
Lemma p_prgeng : run_shell x b_depth_run_prgeng_adam_sh =
  [RunsDepth (run_script (x_int x) (x_float x) (x_print x) (x_log x) (x_score x) (x_level x) (x_cells x) Adam10
     (map lit ["1.0-depth_run_adam.py"; "prgeng"; "10"; "ob"; "c"; "eb"; "p"; "standard"; "rf"; "tree"; "10000"; "1"]))].
Proof.
  rewrite run_calls. assert (E : shell_calls b_depth_run_prgeng_adam_sh = [(map lit ["main"], 1, map lit ["1.0-depth_run_adam.py"; "prgeng"; "10"; "ob"; "c"; "eb"; "p"; "standard"; "rf"; "tree"; "10000"; "1"])]) by (vm_compute; reflexivity).
  rewrite E. reflexivity.
Qed.
Lemma p_prgeng_oob : exists w g, asks (x_int x) (x_float x) Adam10 w g /\ g_data g = Prgeng /\ g_trees g = 10 /\ g_tuning g = TuneOob /\
  same_contents (run_script (x_int x) (x_float x) (x_print x) (x_log x) (x_score x) (x_level x) (x_cells x) Adam10
     (map lit ["1.0-depth_run_adam.py"; "prgeng"; "10"; "ob"; "c"; "eb"; "p"; "standard"; "rf"; "tree"; "10000"; "1"]))
    (run_script (x_int x) (x_float x) (x_print x) (x_log x) (x_score x) (x_level x) (x_cells x) Adam10 w).
Proof.
  destruct HN as (N10&_&_&(k&NK)&(t&NT)). exists (map lit ["1.0-depth_run_adam.py"; "prgeng"; "10"; "oob"; "c"; "eb"; "p"; "standard"; "rf"; "tree"; "10000"; "1"]).
  exists {| g_data := Prgeng; g_trees := 10; g_tuning := TuneOob; g_con := true; g_parents := true; g_inner := Standard; g_loss := None;
       g_element := Some {| b_random := false; b_all := false; b_steps := S k; b_t := t |} |}.
  split; [|split; [reflexivity|split; [reflexivity|split; [reflexivity|]]]].
  - split; [cbn; auto 8|]. split; [cbn; split; [congruence|intros [X|X]; discriminate X]|].
    eexists; eexists; exists (map lit ["rf"; "tree"; "10000"; "1"]); (split; [exact N10|]); (split; [reflexivity|]); exists (lit "10000"), (lit "1"), []; auto.
  - apply p_C121_tuning.
    + split; [reflexivity|]. intros i Hi. do 4 (destruct i as [|i]; [try reflexivity; congruence|]). reflexivity.
    + intros s E. cbn in E. injection E as <-. split; discriminate.
    + intros s E. cbn in E. injection E as <-. split; discriminate.
Qed.
Lemma p_prgeng_names : forall n t files, x_int x (lit "10000") = Some n -> x_float x (lit "1") = Some t ->
  run_shell x b_depth_run_prgeng_adam_sh = [RunsDepth (Ok files)] ->
  map fst files = map (fun se => lit "../images/" ++ lit (fst se) ++ lit "prgeng_trees10_ob_c_element-based_distance-p_tree_depth_dist-standard_init_lamb-rf-init_fix_t-" ++
     x_print x t ++ lit "_single-tree_" ++ str_nat n ++ lit "_adam" ++ lit (snd se))
    [("data_vis_depth_", ".csv"); ("depth_vis_", ".pdf"); ("data_vis_cost_", ".csv"); ("cost_vis_", ".pdf")].
Proof.
  intros n t files EN ET. rewrite p_prgeng. intros H. injection H as H. destruct HN as (N10&_).
  match type of H with run_script _ _ _ _ _ _ _ _ ?w = _ => assert (ER : read_args (x_int x) (x_float x) Adam10 w =
    Ok {| q_data := lit "prgeng"; q_trees := 10; q_tuning := lit "ob"; q_cin := lit "c"; q_s := lit "eb"; q_d := lit "p"; q_inner := lit "standard"; q_loss := [];
          q_eb := Some (lit "rf", lit "tree", n, t) |}) end.
  { cbn [map]. apply read_twelve; auto. }
  unfold run_script in H. rewrite ER in H. cbn [bind] in H. apply L_Sgd.bind_ok in H. destruct H as (w&ES&H). apply L_Sgd.bind_ok in H. destruct H as ([Sm C]&EG&H).
  apply L_Sgd.bind_ok in H. destruct H as (tab&ET'&H).
  assert (EW : w_style w = ElementBased). { unfold settings in ES. vm_compute in ES. injection ES as <-. reflexivity. }
  destruct C as [c|].
  - apply L_Sgd.bind_ok in H. destruct H as (ctab&_&H). injection H as <-. cbn [map fst snd]. unfold file_name. cbn [q_data q_trees q_tuning q_cin q_s q_d q_inner q_loss q_eb has_loss].
    change (str_nat 10) with (lit "10"). change (str_eqb (lit "eb") (lit "lb")) with false. change (str_eqb (lit "rf") (lit "rf")) with true. change (str_eqb (lit "tree") (lit "tree")) with true.
    repeat (rewrite <- ?app_assoc; cbn [app lit String.list_ascii_of_string]). reflexivity.
  - exfalso. change (check_rf_grow (x_log x) (x_score x) (x_level x) w (x_cells x (lit "prgeng") 10) = Ok (Sm, None)) in EG. unfold check_rf_grow in EG. rewrite EW in EG.
    destruct (w_type w); [| |discriminate]; apply L_Sgd.bind_ok in EG; destruct EG as ([a b]&_&EG); discriminate.
Qed.
End Analyses.
