(** Props_Job: C122, the analysis scripts from the command line to the files. *)
From Coq Require Import Ascii Lia Reals QArith.
From Coq Require Strings.String.
From Verif Require Import Base TreeSpec Spec M_Tree M_Gamma M_Levels M_Grad M_Sgd M_Smooth M_Clean M_Depth M_Level M_Analysis M_Main M_Predict M_Job SpecAnalysis SpecJob.
From Verif Require Import L_Job SpecSmooth.
Import Coq.Strings.String.StringSyntax.
Local Open Scope nat_scope.
Local Open Scope string_scope.
Local Open Scope list_scope.

(** ** C122 *)

(** C122: for a regression analysis_both_clean.py either writes nothing and ends with an exception, or ends without one and has written one
    file, which holds the scores of the forest and of the depth-tuned one, the seed, the losses of the tuning and, for each of its 48 * 121 jobs
    under the job's name, the score on the test data with the least cost, and the weights of the call of smooth_clean; *)
Theorem C122_clean : forall int_of (fs : R -> str) lg w, prints fs (alphas_R ++ betas1_R ++ betas0_R ++ epss_R) ->
  forall argv j, asks_job int_of AClean argv j -> j_class j = false ->
  (exists e, run_job int_of fs lg w AClean argv = ([], Some e)) \/
  exists train test ts base dts dl dsc d, reaches_jobs w j train test Reg [] ts base dts dl dsc /\
    run_job int_of fs lg w AClean argv = ([(name_late AClean j (u_seed w) (u_date w), d)], None) /\
    has_start d base dsc (u_seed w) dl /\
    has_jobs (clean_job Reg (u_seed w) alphas_R betas1_R betas0_R epss_R)
      (clean_run (u_other w) (Forest Reg ts) (fst train) (snd train) (j_levels j) (u_rng w) (u_oob w) (u_clean w))
      (fun p => key_of (clean_name fs (j_levels j) p)) test d /\
    has_length d (2 + 48 * 121).
Proof. exact p_job_clean. Qed.
Print Assumptions C122_clean.

(** ... the older scripts write nothing, or a first file with the entries made before the jobs and those of the four calls of smooth_all, and then
    either end with an exception or write a second file with these entries and those of the jobs (24 * 120 for each distance style); *)
Theorem C122_old : forall int_of (fs : R -> str) lg w, prints fs (alphas_R ++ betas1_R ++ betas0_R ++ epss_R) ->
  forall sc argv j, sc <> AClean -> asks_job int_of sc argv j -> j_class j = false ->
  (exists e, run_job int_of fs lg w sc argv = ([], Some e)) \/
  exists train test ts base dts dl dsc d0, reaches_jobs w j train test Reg [] ts base dts dl dsc /\
    has_start d0 base dsc (u_seed w) dl /\ has_wols w ts train test d0 /\ has_length d0 6 /\
    ((exists e, run_job int_of fs lg w sc argv = ([(name_early j (u_seed w), d0)], Some e)) \/
     exists d, run_job int_of fs lg w sc argv = ([(name_early j (u_seed w), d0); (name_late sc j (u_seed w) (u_date w), d)], None) /\
       has_start d base dsc (u_seed w) dl /\ has_wols w ts train test d /\
       has_jobs (old_job Reg (job_styles sc j) (u_seed w) alphas_R betas1_R betas0_R epss_R)
         (fun p => old_run lg (Forest Reg ts) (fst train) (snd train) (j_levels j) (u_rng w) (u_rd w) (with_l2 p))
         (fun p => key_of (old_name (match sc with ABoth => true | _ => false end) fs (j_levels j) p)) test d /\
       has_length d (6 + n_styles sc * (24 * 120))).
Proof. exact p_job_old. Qed.
Print Assumptions C122_old.

(** ... they do finish when the stages before the jobs and all the jobs return; *)
Theorem C122_finishes : forall int_of (fs : R -> str) lg (w : world R) sc argv j train test ts base dts dl dsc,
  asks_job int_of sc argv j -> reaches_jobs w j train test Reg [] ts base dts dl dsc ->
  (sc = AClean -> forall p, clean_job Reg (u_seed w) alphas_R betas1_R betas0_R epss_R p -> exists f lamb c,
     clean_run (u_other w) (Forest Reg ts) (fst train) (snd train) (j_levels j) (u_rng w) (u_oob w) (u_clean w) p = Ok (f, lamb, c) /\ c <> []) ->
  (sc <> AClean -> (forall pa nc, exists f lamb,
    smooth_all_with (u_fuel w) (u_feps w) (u_solve w) (u_check w)
      {| a_X := fst train; a_y := snd train; a_X_tune := None; a_y_tune := None; a_no_constraint := nc; a_sanity := false; a_resample := false;
         a_parents_all := pa; a_inner_assess := false |} (u_oob w) (fun _ => []) ts = Ok (f, lamb)) /\
    forall p, old_job Reg (job_styles sc j) (u_seed w) alphas_R betas1_R betas0_R epss_R p -> exists f lamb c,
     old_run lg (Forest Reg ts) (fst train) (snd train) (j_levels j) (u_rng w) (u_rd w) p = Ok (f, lamb, c) /\ c <> []) ->
  snd (run_job int_of fs lg w sc argv) = None.
Proof. exact p_job_finishes. Qed.
Print Assumptions C122_finishes.

(** ... a classification never finishes and writes nothing; *)
Theorem C122_class : forall int_of (fs : R -> str) lg w sc argv j, asks_job int_of sc argv j -> j_class j = true -> (forall p, r_draws (u_rd w p) <> []) ->
  exists e, run_job int_of fs lg w sc argv = ([], Some e).
Proof. exact p_job_class. Qed.
Print Assumptions C122_class.

(** ... without a number of levels only analysis.py with the depth distance can finish, the others write the first file at most; *)
Theorem C122_no_levels : forall int_of (fs : R -> str) lg w sc argv j, asks_job int_of sc argv j -> j_levels j = None -> uses_impurity sc j ->
  exists e fl, run_job int_of fs lg w sc argv = (fl, Some e) /\
    (fl = [] \/ sc <> AClean /\ j_class j = false /\ exists d, fl = [(name_early j (u_seed w), d)]).
Proof. exact p_job_nolevels. Qed.
Print Assumptions C122_no_levels.

(** ... too few arguments, a number of trees that is not an integer, and another style, data set or type are errors, with nothing written; *)
Theorem C122_errors : forall int_of (fs : R -> str) lg w sc argv,
  let run := run_job int_of fs lg w in
  (length argv < 4 -> run sc argv = ([], Some IndexError)) /\
  forall s0 d t n rest, argv = s0 :: d :: t :: n :: rest ->
    (int_of n = None -> run sc argv = ([], Some ValueError)) /\
    forall trees, int_of n = Some trees ->
      (forall s rest', sc = AOne -> rest = s :: rest' -> s <> lit "impurity" -> s <> lit "depth" -> run sc argv = ([], Some ValueError)) /\
      ((sc = AOne -> rest = [] \/ exists b rest', rest = style_str b :: rest') ->
        ((forall a, d <> aset_str a) -> run sc argv = ([], Some TypeError)) /\
        (t <> lit "reg" -> t <> lit "class" -> exists e, run sc argv = ([], Some e) /\
           forall a raw s, d = aset_str a -> u_raw w d = Ok raw -> u_split w raw = Ok s -> e = UnboundLocalError)).
Proof.
  intros int_of fs lg w sc argv run. split; [intros H; apply p_job_few; auto; apply nth_error_None; lia|].
  intros s0 d t n rest ->. split; [intros; apply p_job_trees; auto|]. intros trees HT. split; [intros s rest' -> ->; apply (p_job_style _ _ _ _ _ _ _ _ trees); auto|].
  intros HS.
  assert (HR : exists c, read_job int_of sc (s0 :: d :: t :: n :: rest) = Ok c /\ c_data c = d /\ c_type c = t).
  { unfold read_job. cbn [nth_error bind]. rewrite HT. cbn [bind]. destruct sc; try (eexists; split; [reflexivity|auto]).
    destruct (HS eq_refl) as [-> |(b&r&->)]; cbn [nth_error].
    - eexists; split; [reflexivity|auto].
    - rewrite style_eqb. cbn [bind]. eexists; split; [reflexivity|auto]. }
  destruct HR as (c&HR&<-&<-). split.
  - intros HN. eapply p_job_data; eauto.
  - intros N1 N2. destruct (p_job_type int_of fs lg w sc _ c HR N1 N2) as (e&E&HE). exists e. split; auto. intros a raw s EA ER. rewrite EA in ER. eauto.
Qed.
Print Assumptions C122_errors.

(** ... what is asked for determines the outcome: further arguments are not read, and a number of levels that is not an integer counts as none; *)
Theorem C122_request : forall int_of (fs : R -> str) lg w sc argv argv' j, asks_job int_of sc argv j -> asks_job int_of sc argv' j ->
  run_job int_of fs lg w sc argv = run_job int_of fs lg w sc argv'.
Proof. intros. eapply p_job_request; eauto. Qed.
Print Assumptions C122_request.

(** ... the second file's name tells script, request, seed and, for the clean script, date; the first file's name tells data set, type,
    number of trees and seed only, so the older scripts overwrite each other's first files; no first file has the name of a second one. *)
Theorem C122_names : forall sc sc' j j' s s' d d',
  ((sc <> AOne -> j_impurity j = false) -> (sc' <> AOne -> j_impurity j' = false) ->
    name_late sc j s d = name_late sc' j' s' d' <-> sc = sc' /\ j = j' /\ s = s' /\ (sc = AClean -> d = d')) /\
  (name_early j s = name_early j' s' <-> j_data j = j_data j' /\ j_class j = j_class j' /\ j_trees j = j_trees j' /\ s = s') /\
  name_early j s <> name_late sc' j' s' d'.
Proof. intros. split; [intros; apply late_inj; auto|]. split; [apply early_inj|apply early_late]. Qed.
Print Assumptions C122_names.

(** Examples: two command lines, the printing of the numbers, an outside with one tree and no steps *)
Definition job_int (s : str) : option nat := if str_eqb s (lit "10") then Some 10 else if str_eqb s (lit "45") then Some 45 else None.
Definition job_line (tail : list str) : list str := lit "analysis.py" :: lit "moon" :: lit "reg" :: lit "10" :: tail.
Definition job_floats {T} {NT : Num T} : list (T * str) :=
  map (fun e => (ndiv n1 (nof (fst e)), snd e)) [(1000, lit "0.001"); (100, lit "0.01"); (10, lit "0.1"); (2, lit "0.5")] ++
  map (fun e => (ndiv (nof (fst (fst e))) (nof (snd (fst e))), snd e)) [(3, 10, lit "0.3"); (9, 10, lit "0.9"); (999, 1000, lit "0.999"); (95, 100, lit "0.95"); (99, 100, lit "0.99")] ++
  [(npow (ndiv n1 (nof 10)) 8, lit "1e-08")].
Definition job_print {T} {NT : Num T} (x : T) : str := match find (fun e => neqb x (fst e)) job_floats with Some e => snd e | None => lit "0.0001" end.
Definition job_world {T} {NT : Num T} : world T :=
  {| u_raw := fun _ => Ok (exX, exrow [2;4;8]%Z); u_seed := 7; u_split := fun d => Ok (d, d);
     u_fit_reg := fun _ _ => Ok [ex3_reg]; u_fit_class := fun _ _ => Ok (2, [n0;n1], [ex5_class]);
     u_depth := {| r_oob := fun _ => [0;2]; r_boot := fun _ => []; r_draws := [] |};
     u_fuel := 10; u_feps := npow (ndiv n1 (nof 2)) 52; u_solve := fun _ _ _ => Some [ndiv n1 (nof 2); ndiv n1 (nof 2)]; u_check := fun _ _ => Ok true;
     u_rng := fun _ _ => ndiv n1 (nof 2); u_rd := fun _ => {| r_oob := fun _ => [0;2]; r_boot := fun _ => []; r_draws := [] |};
     u_oob := fun _ => [0;2]; u_clean := fun _ => []; u_other := fun _ => Ok ([ex3_reg], [n1], [n1]); u_date := lit "2019-02-12" |}.

Example C122_ex_asks : asks_job job_int AOne (job_line []) {| j_data := AMoon; j_class := false; j_trees := 10; j_impurity := false; j_levels := None |} /\
  asks_job job_int AOne (job_line [lit "depth"; lit "many"]) {| j_data := AMoon; j_class := false; j_trees := 10; j_impurity := false; j_levels := None |} /\
  asks_job job_int AOne (job_line [lit "impurity"; lit "45"]) {| j_data := AMoon; j_class := false; j_trees := 10; j_impurity := true; j_levels := Some 45 |} /\
  asks_job job_int ABoth (job_line [lit "45"; lit "more"]) {| j_data := AMoon; j_class := false; j_trees := 10; j_impurity := false; j_levels := Some 45 |} /\
  asks_job job_int AClean [lit "x.py"; lit "titantic"; lit "class"; lit "45"; lit "impurity"] {| j_data := ATitantic; j_class := true; j_trees := 45; j_impurity := false; j_levels := None |}.
Proof.
  repeat split; eexists; eexists; eexists; (split; [reflexivity|]); (split; [reflexivity|]).
  - left. auto.
  - right. exists [lit "many"]. split; reflexivity.
  - right. exists [lit "45"]. split; reflexivity.
  - split; reflexivity.
  - split; reflexivity.
Qed.

(** analysis.py with the depth distance finishes and writes two files, whose names are these *)
Example C122_ex_finishes : exists d0 d, run_job job_int job_print (fun x => x) (@job_world Q _) AOne (job_line []) =
  ([(lit "data/moon_reg_10_7.pkl", d0); (lit "data/moon_depth_reg_10_7.pkl", d)], None).
Proof.
  edestruct (finish job_int job_print (fun x => x) (@job_world Q _) AOne (job_line [])) as (d0&d&E);
    [vm_compute; reflexivity|vm_compute; reflexivity|vm_compute; reflexivity|vm_compute; reflexivity|vm_compute; reflexivity|vm_compute; reflexivity|vm_compute; reflexivity|discriminate| |].
  - intros _. split; [reflexivity|]. split.
    + intros [[] []]; eexists; vm_compute; reflexivity.
    + match goal with |- forall p, In p ?l -> exists f lamb co, ?r p = Ok _ /\ _ =>
        assert (F : forallb (fun p => match r p with Ok (_, _, _ :: _) => true | _ => false end) l = true) by (vm_compute; reflexivity) end.
      intros p Hp. rewrite forallb_forall in F. specialize (F p Hp). cbv beta in F. destruct (old_run _ _ _ _ _ _ _ p) as [[[f lamb] [|c co]]|]; try discriminate. exists f, lamb, (c :: co). split; [reflexivity|discriminate].
  - exists d0, d. exact E.
Qed.
(** the first file of a run without levels *)
Example C122_ex_early : exists d, run_job job_int job_print (fun x => x) (@job_world Q _) AOne (job_line [lit "impurity"]) = ([(lit "data/moon_reg_10_7.pkl", d)], Some ValueError) /\
  length (fst d) = 6.
Proof. eexists. split; [vm_compute; reflexivity|reflexivity]. Qed.
Example C122_ex_nothing : run_job job_int job_print (fun x => x) (@job_world Q _) AClean (lit "x.py" :: lit "iris" :: lit "reg" :: [lit "10"]) = ([], Some TypeError) /\
  run_job job_int job_print (fun x => x) (@job_world Q _) AOne (job_line [lit "gini"]) = ([], Some ValueError) /\
  run_job job_int job_print (fun x => x) (@job_world Q _) ABoth [lit "x.py"; lit "moon"; lit "Reg"; lit "10"] = ([], Some UnboundLocalError) /\
  run_job job_int job_print (fun x => x) (@job_world Q _) AClean [lit "x.py"; lit "moon"; lit "class"; lit "10"; lit "45"] = ([], Some ValueError).
Proof. repeat split; vm_compute; reflexivity. Qed.
Example C122_ex_name : name_late ABoth {| j_data := AMoon; j_class := true; j_trees := 10; j_impurity := false; j_levels := Some 45 |} 3 [] = lit "data/moon_both _levels_45class_10_3.pkl".
Proof. vm_compute. reflexivity. Qed.
(** the numbers of the grids can be printed as C122_clean and C122_old ask for *)
Fixpoint ex_place (x : R) (l : list R) : nat := match l with [] => 0 | a :: l => if Req_EM_T x a then 0 else S (ex_place x l) end.
Example C122_ex_prints : prints (fun x => str_nat (ex_place x (alphas_R ++ betas1_R ++ betas0_R ++ epss_R))) (alphas_R ++ betas1_R ++ betas0_R ++ epss_R).
Proof.
  split.
  - intros x _. split; intros H; apply L_Analysis.digits_nat in H; vm_compute in H; intuition discriminate.
  - generalize (alphas_R ++ betas1_R ++ betas0_R ++ epss_R). intros l x y Hx Hy E. apply L_Analysis.str_nat_inj in E. revert Hx Hy E.
    induction l as [|a l IH]; intros Hx Hy E; [destruct Hx|]. cbn [ex_place] in E. destruct (Req_EM_T x a) as [-> |Nx], (Req_EM_T y a) as [-> |Ny]; auto; try discriminate.
    destruct Hx as [Hx|Hx]; [congruence|]. destruct Hy as [Hy|Hy]; [congruence|]. auto.
Qed.
