(** Props_Cmd: command lines and files of the depth simulations. *)
From Coq Require Import Ascii Lia Reals QArith.
From Coq Require Strings.String.
From Verif Require Import Base TreeSpec Spec M_Tree M_Gamma M_Grad M_Sgd M_Smooth M_Analysis M_Main M_Cmd SpecAnalysis SpecMain SpecCmd.
From Verif Require Import L_Base L_Cmd SpecSmooth  Props_Smooth Props_Clean Props_Main.
Import Coq.Strings.String.StringSyntax.
Local Open Scope nat_scope.
Local Open Scope string_scope.
Local Open Scope list_scope.

(** ** C121: what the four depth scripts do with their command line *)

(** C121: a script asked for one of its data sets runs check_rf_grow with the arguments the command line stands for (24 even depths, 20
    draws) and writes the table and the plot of the scores, for element-based smoothing also those of the costs; it fails exactly when
    check_rf_grow does, with the same exception; *)
Theorem C121_files : forall int_of float_of fs (lg : R -> R) score level cells sc argv (g : choice R),
  asks int_of float_of sc argv g -> ~ (old_script sc /\ g_element g <> None) ->
  exists w, stands_for sc g w /\
  match check_rf_grow lg score level w (cells (dset_str (g_data g)) (g_trees g)) with
  | Err e => run_script int_of float_of fs lg score level cells sc argv = Err e
  | Ok (Sm, C) => exists tab files, depth_error_vis Sm (Some (w_depths w)) = Ok tab /\
      run_script int_of float_of fs lg score level cells sc argv = Ok files /\
      match g_element g with
      | None => map snd files = [ErrTable tab; ErrPlot tab]
      | Some _ => exists c ctab, C = Some c /\ cost_vis c (Some (w_depths w)) = Ok ctab /\
          map snd files = [ErrTable tab; ErrPlot tab; CostTable ctab; CostPlot ctab]
      end
  end.
Proof. exact p_C121_contents. Qed.
Print Assumptions C121_files.

(** ... the old scripts never finish with "eb": a TypeError, as smooth has no subgrad_max_num; *)
Theorem C121_old_element_based : forall int_of float_of fs (lg : R -> R) score level cells sc argv, old_script sc ->
  (nth_error argv 5 = Some (lit "eb") -> exists e, run_script int_of float_of fs lg score level cells sc argv = Err e) /\
  forall g : choice R, asks int_of float_of sc argv g -> g_element g <> None -> run_script int_of float_of fs lg score level cells sc argv = Err TypeError.
Proof.
  intros. split; [apply p_C121_old_eb; auto|]. intros g HA HE. eapply p_C121_old_type; eauto.
Qed.
Print Assumptions C121_old_element_based.

(** ... with classes no script finishes with "eb" and a positive number of steps; *)
Theorem C121_class_element_based : forall int_of float_of fs (lg : R -> R) score level cells sc argv (g : choice R) b,
  asks int_of float_of sc argv g -> is_class sc (g_data g) -> g_element g = Some b -> 0 < b_steps b ->
  exists e, run_script int_of float_of fs lg score level cells sc argv = Err e.
Proof. exact p_C121_class. Qed.
Print Assumptions C121_class_element_based.

(** ... the argument inner distance changes the names of the files only; *)
Theorem C121_inner_ignored : forall int_of float_of fs (lg : R -> R) score level cells sc a b, same_but 7 a b ->
  same_contents (run_script int_of float_of fs lg score level cells sc a) (run_script int_of float_of fs lg score level cells sc b).
Proof. intros. apply p_C121_inner; auto. Qed.
Print Assumptions C121_inner_ignored.

(** ... so does the argument loss, ... *)
Theorem C121_loss_ignored : forall int_of float_of fs (lg : R -> R) score level cells sc a b, class_script sc -> same_but 8 a b ->
  same_contents (run_script int_of float_of fs lg score level cells sc a) (run_script int_of float_of fs lg score level cells sc b).
Proof. intros. apply p_C121_loss; auto. Qed.
Print Assumptions C121_loss_ignored.

(** ... and a misspelt tuning argument: everything but "resample" and "oracle" is taken for "oob"; *)
Theorem C121_tuning_unchecked : forall int_of float_of fs (lg : R -> R) score level cells sc a b, same_but 3 a b ->
  nth_error a 3 <> Some (lit "resample") -> nth_error a 3 <> Some (lit "oracle") ->
  nth_error b 3 <> Some (lit "resample") -> nth_error b 3 <> Some (lit "oracle") ->
  same_contents (run_script int_of float_of fs lg score level cells sc a) (run_script int_of float_of fs lg score level cells sc b).
Proof.
  intros until 1. intros A1 A2 B1 B2. apply p_C121_tuning; auto; intros s E; unfold arg in E;
  match type of E with match ?x with _ => _ end = _ => destruct x eqn:F; [|discriminate E] end; injection E as <-; split; congruence.
Qed.
Print Assumptions C121_tuning_unchecked.

(** ... too few arguments are an IndexError; *)
Theorem C121_too_few : forall int_of float_of fs (lg : R -> R) score level cells sc argv,
  (forall n, nth_error argv 2 = Some n -> int_of n <> None) -> length argv <= (match sc with Adam11 | Old11 => 8 | _ => 7 end) ->
  run_script int_of float_of fs lg score level cells sc argv = Err IndexError.
Proof. intros. apply p_C121_short; auto. destruct sc; auto. Qed.
Print Assumptions C121_too_few.

(** ... once the arguments are read, an unknown constraint, style or distance is a NameError (of an unbound name), like an unknown data set in the class scripts, ... *)
Theorem C121_unknown : forall int_of float_of fs (lg : R -> R) score level cells sc argv q, read_args int_of float_of sc argv = Ok q ->
  (nth_error argv 4 <> Some (lit "c") /\ nth_error argv 4 <> Some (lit "nc")) \/
  (nth_error argv 5 <> Some (lit "lb") /\ nth_error argv 5 <> Some (lit "eb")) \/
  (nth_error argv 6 <> Some (lit "l") /\ nth_error argv 6 <> Some (lit "p")) \/
  (class_script sc /\ forall d, offers sc d -> nth_error argv 1 <> Some (dset_str d)) ->
  run_script int_of float_of fs lg score level cells sc argv = Err NameError.
Proof.
  intros int_of float_of fs lg score level cells sc argv q HQ H. rewrite p_C121_unknown, HQ; auto.
  destruct H as [(A&B)|[(A&B)|[(A&B)|H]]]; [left|right; left|right; right; left|right; right; right; exact H];
    intros s E; rewrite E in A, B; split; congruence.
Qed.
Print Assumptions C121_unknown.

(** ... while the other scripts end in an UnboundLocalError for an unknown data set. *)
Theorem C121_unknown_data : forall int_of float_of fs (lg : R -> R) score level cells sc argv q w, ~ class_script sc ->
  (forall d, offers sc d -> nth_error argv 1 <> Some (dset_str d)) -> read_args int_of float_of sc argv = Ok q -> settings sc q = Ok w ->
  run_script int_of float_of fs lg score level cells sc argv = Err UnboundLocalError.
Proof. intros. eapply p_C121_data; eauto. Qed.
Print Assumptions C121_unknown_data.

(** Runs never overwrite each other's files with other contents: two runs, of one or of two scripts, share a file name only if they made
    the same request, by the same script or by 1.0 and old 1.0 with level-base smoothing, and then they write the same files (for the
    same outside of the passes). *)
Theorem C121_names : forall int_of float_of fs (lg : R -> R) score level cells,
  (forall s s' x y, float_of s = Some x -> float_of s' = Some y -> fs x = fs y -> x = y) ->
  (forall s x, float_of s = Some x -> ~ In "_"%char (fs x)) ->
  forall sc sc' argv argv' (g g' : choice R) files files' nm,
  asks int_of float_of sc argv g -> asks int_of float_of sc' argv' g' ->
  run_script int_of float_of fs lg score level cells sc argv = Ok files -> run_script int_of float_of fs lg score level cells sc' argv' = Ok files' ->
  In nm (map fst files) -> In nm (map fst files') ->
  g = g' /\ (sc = sc' \/ g_element g = None /\ ~ class_script sc /\ ~ class_script sc') /\ files = files'.
Proof. exact p_C121_names. Qed.
Print Assumptions C121_names.

(** Examples: strings of numbers, command lines *)
Definition ex_int (s : str) : option nat := if str_eqb s (lit "300") then Some 300 else if str_eqb s (lit "1") then Some 1 else None.
Definition ex_float {T} {NT : Num T} (s : str) : option T := if str_eqb s (lit "1.0") then Some n1 else None.
Definition ex_fs {T} (x : T) : str := lit "1.0".
Definition ex_line (tail : list str) : list str := lit "depth_run.py" :: lit "prgeng" :: lit "300" :: tail.
Definition ex_lb (inner : str) := ex_line [lit "oob"; lit "c"; lit "lb"; lit "p"; inner].
Definition ex_eb := ex_line [lit "oob"; lit "nc"; lit "eb"; lit "l"; lit "max"; lit "rf"; lit "tree"; lit "1"; lit "1.0"].
Definition ex_cells {T} {NT : Num T} (_ : str) (_ _ _ : nat) : cell T := ex_cell [ex5_reg; ex3_reg] [nof 2; nof 4; nof 8].

Example C121_ex_asks : asks (T := R) ex_int ex_float Adam10 ex_eb
  {| g_data := Prgeng; g_trees := 300; g_tuning := TuneOob; g_con := false; g_parents := false; g_inner := MaxStyle; g_loss := None;
     g_element := Some {| b_random := false; b_all := false; b_steps := 1; b_t := n1 |} |}.
Proof.
  split; [cbn; auto 8|]. split; [cbn; split; [congruence|intros [X|X]; discriminate X]|].
  exists (lit "depth_run.py"), (lit "300"), [lit "rf"; lit "tree"; lit "1"; lit "1.0"]. split; [reflexivity|]. split; [reflexivity|].
  exists (lit "1"), (lit "1.0"), []. auto.
Qed.
Example C121_ex_asks_class : asks (T := R) ex_int ex_float Adam11
  [lit "x.py"; lit "moon"; lit "300"; lit "oracle"; lit "c"; lit "eb"; lit "p"; lit "min"; lit "l2"; lit "r"; lit "all"; lit "1"; lit "1.0"]
  {| g_data := Moon; g_trees := 300; g_tuning := TuneOracle; g_con := true; g_parents := true; g_inner := MinStyle; g_loss := Some L2;
     g_element := Some {| b_random := true; b_all := true; b_steps := 1; b_t := n1 |} |}.
Proof.
  split; [cbn; auto 8|]. split; [cbn; split; [left; auto|congruence]|].
  exists (lit "x.py"), (lit "300"), [lit "r"; lit "all"; lit "1"; lit "1.0"]. split; [reflexivity|]. split; [reflexivity|].
  exists (lit "1"), (lit "1.0"), []. auto.
Qed.
(** the printing of the example meets the hypotheses of C121_names *)
Example C121_ex_printing : (forall s s' (x y : R), ex_float s = Some x -> ex_float s' = Some y -> ex_fs x = ex_fs y -> x = y) /\
  (forall s (x : R), ex_float s = Some x -> ~ In "_"%char (ex_fs x)).
Proof.
  split; intros *; unfold ex_float, ex_fs.
  - destruct (str_eqb s _); [|discriminate]. destruct (str_eqb s' _); [|discriminate]. congruence.
  - intros _ H. cbn in H. intuition discriminate.
Qed.
(** a run with level-base smoothing, the names of its files and one row of the table *)
Example C121_ex_level : exists tab, run_script ex_int ex_float ex_fs (fun x => x) ex_score (fun _ _ _ _ _ ts => Ok (rev ts)) (@ex_cells Q _) Adam10 (ex_lb (lit "standard"))
  = Ok [(lit "../images/data_vis_depth_prgeng_trees300_oob_c_level-base_distance-p_tree_depth_dist-standard.csv", ErrTable tab);
        (lit "../images/depth_vis_prgeng_trees300_oob_c_level-base_distance-p_tree_depth_dist-standard.pdf", ErrPlot tab)] /\ length tab = 48.
Proof. eexists. split; [vm_compute; reflexivity|]. reflexivity. Qed.
(** the old script does the same for a data set both have, the distance argument changes the names only *)
Example C121_ex_inner : same_but 7 (ex_lb (lit "standard")) (ex_lb (lit "anything")).
Proof. split; [reflexivity|]. intros i H. do 8 (destruct i as [|i]; [try reflexivity; congruence|]). reflexivity. Qed.
Example C121_ex_name_adam : forall q, read_args ex_int (@ex_float Q _) Adam10 ex_eb = Ok q ->
  file_name ex_fs Adam10 q (lit "cost_vis_") (lit ".pdf") =
  lit "../images/cost_vis_prgeng_trees300_oob_nc_element-based_distance-l_tree_depth_dist-max_init_lamb-rf-init_fix_t-1.0_single-tree_1_adam.pdf".
Proof. intros q H. vm_compute in H. injection H as <-. vm_compute. reflexivity. Qed.
(** the example over R meets the hypotheses of C121_unknown and C121_unknown_data *)
Example C121_ex_unknown : exists q w, read_args ex_int (@ex_float R _) Old10 (ex_lb (lit "standard")) = Ok q /\ settings Old10 q = Ok w /\
  (forall d, offers Old10 d -> nth_error (ex_lb (lit "standard")) 1 <> Some (dset_str d)).
Proof.
  eexists. eexists. split; [reflexivity|]. split; [reflexivity|].
  intros d O E. cbn in O. destruct O as [<-|[<-|[<-|[<-|[]]]]]; discriminate E.
Qed.
