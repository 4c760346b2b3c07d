(** Props_Cmd2: further properties of the command lines of the depth simulations (C121). *)
From Coq Require Import Ascii Lia Reals QArith.
From Coq Require Strings.String.
From Verif Require Import Base TreeSpec Spec M_Tree M_Gamma M_Grad M_Sgd M_Smooth M_Analysis M_Main M_Cmd SpecAnalysis SpecMain SpecCmd.
From Verif Require Import L_Base L_Cmd L_Cmd2 SpecSmooth Props_Smooth Props_Clean Props_Main Props_Cmd.
Import Coq.Strings.String.StringSyntax.
Local Open Scope nat_scope.
Local Open Scope string_scope.
Local Open Scope list_scope.

(** ** C121, continued *)

(** where the four arguments of "eb" begin *)
Definition eb_place (sc : script) : nat := match sc with Adam11 | Old11 => 9 | Adam10 | Old10 => 8 end.

(** The files of one run have different names; *)
Theorem C121_distinct : forall int_of float_of fs (lg : R -> R) score level cells sc argv files,
  run_script int_of float_of fs lg score level cells sc argv = Ok files -> NoDup (map fst files).
Proof. intros. eapply p_distinct; eauto. Qed.
Print Assumptions C121_distinct.

(** ... a number of trees that is not an integer is a ValueError, as are with "eb" a number of steps that is not an integer and a step size
    that is not a number; *)
Theorem C121_numbers : forall int_of float_of fs (lg : R -> R) score level cells sc argv n,
  nth_error argv 2 = Some n ->
  (int_of n = None -> run_script int_of float_of fs lg score level cells sc argv = Err ValueError) /\
  forall trees m, int_of n = Some trees -> nth_error argv 5 = Some (lit "eb") -> nth_error argv (eb_place sc + 2) = Some m ->
    (int_of m = None -> run_script int_of float_of fs lg score level cells sc argv = Err ValueError) /\
    forall mi t, int_of m = Some mi -> nth_error argv (eb_place sc + 3) = Some t -> float_of t = None ->
      run_script int_of float_of fs lg score level cells sc argv = Err ValueError.
Proof.
  intros int_of float_of fs lg score level cells sc argv n H2. split; [intros; eapply p_number_trees; eauto|].
  intros trees m HI H5 HM.
  assert (P : eb_place sc = if has_loss sc then 9 else 8) by (destruct sc; reflexivity). rewrite P in *.
  split; [intros; eapply p_number_steps; eauto|]. intros; eapply p_number_size; eauto.
Qed.
Print Assumptions C121_numbers.

(** ... with "eb" the four arguments are needed, too few are an IndexError, ... *)
Theorem C121_too_few_element : forall int_of float_of fs (lg : R -> R) score level cells sc argv,
  (forall i n, nth_error argv i = Some n -> i = 2 \/ i = eb_place sc + 2 -> int_of n <> None) ->
  nth_error argv 5 = Some (lit "eb") -> length argv <= eb_place sc + 3 ->
  run_script int_of float_of fs lg score level cells sc argv = Err IndexError.
Proof.
  intros int_of float_of fs lg score level cells sc argv HI H5 HL.
  assert (P : eb_place sc = if has_loss sc then 9 else 8) by (destruct sc; reflexivity). rewrite P in *. apply p_short_eb; auto.
Qed.
Print Assumptions C121_too_few_element.

(** ... and an unknown start or batch is a NameError once the arguments are read. *)
Theorem C121_unknown_element : forall int_of float_of fs (lg : R -> R) score level cells sc argv q,
  read_args int_of float_of sc argv = Ok q -> nth_error argv 5 = Some (lit "eb") ->
  (nth_error argv (eb_place sc) <> Some (lit "rf") /\ nth_error argv (eb_place sc) <> Some (lit "r")) \/
  (nth_error argv (eb_place sc + 1) <> Some (lit "tree") /\ nth_error argv (eb_place sc + 1) <> Some (lit "all")) ->
  run_script int_of float_of fs lg score level cells sc argv = Err NameError.
Proof.
  intros int_of float_of fs lg score level cells sc argv q HQ H5 H.
  assert (P : eb_place sc = if has_loss sc then 9 else 8) by (destruct sc; reflexivity). rewrite P in *. eapply p_unknown_eb; eauto.
Qed.
Print Assumptions C121_unknown_element.

(** Examples *)
Definition ex_ebs (i b m t : str) := ex_line [lit "oob"; lit "nc"; lit "eb"; lit "l"; lit "max"; i; b; m; t].
Example C121_ex_numbers : forall fs (lg : R -> R) score level cells,
  run_script ex_int ex_float fs lg score level cells Adam10 (ex_ebs (lit "rf") (lit "tree") (lit "many") (lit "1.0")) = Err ValueError /\
  run_script ex_int ex_float fs lg score level cells Adam10 (ex_ebs (lit "rf") (lit "tree") (lit "1") (lit "one")) = Err ValueError /\
  run_script ex_int ex_float fs lg score level cells Adam10 [lit "x"; lit "knn"; lit "many"] = Err ValueError.
Proof.
  intros. split; [|split].
  - destruct (C121_numbers ex_int ex_float fs lg score level cells Adam10 (ex_ebs (lit "rf") (lit "tree") (lit "many") (lit "1.0")) (lit "300") eq_refl) as (_&H).
    apply (H 300 (lit "many")); reflexivity.
  - destruct (C121_numbers ex_int ex_float fs lg score level cells Adam10 (ex_ebs (lit "rf") (lit "tree") (lit "1") (lit "one")) (lit "300") eq_refl) as (_&H).
    apply (proj2 (H 300 (lit "1") eq_refl eq_refl eq_refl) 1 (lit "one")); reflexivity.
  - apply (C121_numbers ex_int ex_float fs lg score level cells Adam10 [lit "x"; lit "knn"; lit "many"] (lit "many") eq_refl); reflexivity.
Qed.
Example C121_ex_element : forall fs (lg : R -> R) score level cells,
  run_script ex_int ex_float fs lg score level cells Adam10 (ex_line [lit "oob"; lit "nc"; lit "eb"; lit "l"; lit "max"; lit "rf"]) = Err IndexError /\
  run_script ex_int ex_float fs lg score level cells Adam10 (ex_ebs (lit "rf") (lit "some") (lit "1") (lit "1.0")) = Err NameError.
Proof.
  intros. split.
  - apply C121_too_few_element; [|reflexivity|cbn; lia]. intros i n Hn [-> | ->]; cbn in Hn; [injection Hn as <-; discriminate|discriminate].
  - eapply C121_unknown_element; [reflexivity|reflexivity|]. right. split; discriminate.
Qed.
(** a run with two files *)
Example C121_ex_distinct : exists files, run_script ex_int ex_float ex_fs (fun x => x) ex_score (fun _ _ _ _ _ ts => Ok (rev ts)) (@ex_cells Q _) Adam10 (ex_lb (lit "standard")) = Ok files /\
  length files = 2 /\ NoDup (map fst files).
Proof. destruct C121_ex_level as (tab&E&_). eexists. split; [exact E|]. split; [reflexivity|]. exact (p_distinct _ _ _ _ _ _ _ _ _ _ E). Qed.
