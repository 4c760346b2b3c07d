(** L_Job: lemmas on the analysis scripts from the command line to the files (C122). *)
From Coq Require Import Ascii Lia Reals Lra.
From Coq Require Strings.String.
From Verif Require Import Base TreeSpec M_Tree M_Gamma M_Levels M_Smooth M_Clean M_Depth M_Level M_Analysis M_Main M_Predict M_Cmd M_Job SpecAnalysis SpecJob.
From Verif Require Import L_Base L_Sgd L_Analysis L_Analysis2 L_Analysis3 L_Cmd.
Import Coq.Strings.String.StringSyntax.
Local Open Scope nat_scope.
Local Open Scope string_scope.
Local Open Scope list_scope.

Definition c_of (sc : ascript) (j : request) : acmd :=
  {| c_data := aset_str (j_data j); c_type := type_str (j_class j); c_trees := j_trees j;
     c_style := match sc with AOne => style_str (j_impurity j) | _ => [] end; c_levels := j_levels j |}.

Lemma style_eqb : forall imp, (str_eqb (style_str imp) (lit "impurity") || str_eqb (style_str imp) (lit "depth"))%bool = true.
Proof. intros []; reflexivity. Qed.
Lemma read_asks_job : forall int_of sc argv j, asks_job int_of sc argv j -> read_job int_of sc argv = Ok (c_of sc j).
Proof.
  intros int_of sc argv j (s0&n&rest&->&HI&H). unfold read_job. cbn [nth_error bind]. rewrite HI. cbn [bind]. unfold c_of.
  assert (G : forall l, gives_levels int_of l (j_levels j) -> match (match nth_error l 0 with Some s => Ok s | None => Err IndexError end) with Ok s => int_of s | Err _ => None end = j_levels j).
  { intros [|s l]; cbn; congruence. }
  destruct sc.
  - destruct H as [(->&E1&E2)|(r&->&HG)].
    + rewrite E1, E2. reflexivity.
    + cbn [nth_error]. rewrite style_eqb. cbn [bind]. f_equal. f_equal. apply (G r HG).
  - destruct H as (_&HG). cbn [bind]. f_equal. f_equal. apply (G rest HG).
  - destruct H as (_&HG). cbn [bind]. f_equal. f_equal. apply (G rest HG).
Qed.

Lemma type_reg : forall c, str_eqb (type_str c) (lit "reg") = negb c.
Proof. intros []; reflexivity. Qed.
Section Run.
Variables (int_of : str -> option nat) (fs : R -> str) (lg : R -> R) (w : world R).
Notation run := (run_job int_of fs lg w).
Local Open Scope R_scope.

Lemma pull_known : forall j raw, u_raw w (aset_str (j_data j)) = Ok raw ->
  exists data, pull_data w (aset_str (j_data j)) (type_str (j_class j)) = Ok data /\ shifted j raw data.
Proof.
  intros j [X y] E. unfold pull_data, shifted. rewrite type_reg.
  destruct (j_data j) eqn:ED; cbn [aset_str] in *;
    repeat match goal with |- context [str_eqb ?a ?b] => let v := eval vm_compute in (str_eqb a b) in change (str_eqb a b) with v end; cbn [orb bind]; rewrite ?E; cbn [bind].
  - destruct (j_class j); cbn [negb]; eexists; (split; [reflexivity|]); cbn [fst snd]; split; auto.
    apply map_ext. intros v. rn. f_equal. cbn. lra.
  - destruct (j_class j); cbn [negb]; eexists; (split; [reflexivity|]); cbn [fst snd]; split; auto.
    apply map_ext. intros v. rn. f_equal. cbn. lra.
  - eexists. split; [reflexivity|]. split; [auto|destruct (j_class j); auto].
  - eexists. split; [reflexivity|]. split; [auto|destruct (j_class j); auto].
Qed.
Lemma pull_err : forall j e, u_raw w (aset_str (j_data j)) = Err e -> pull_data w (aset_str (j_data j)) (type_str (j_class j)) = Err e.
Proof.
  intros j e E. unfold pull_data. rewrite type_reg. destruct (j_data j) eqn:ED; cbn [aset_str] in *;
    repeat match goal with |- context [str_eqb ?a ?b] => let v := eval vm_compute in (str_eqb a b) in change (str_eqb a b) with v end; cbn [orb bind]; rewrite ?E; reflexivity.
Qed.

(** the score can be computed for all forests of the kind or for none *)
Lemma assess_total : forall kd cl ts ts' X (y : list R) s, assess_rf (Forest kd ts) cl X y = Ok s -> exists s', assess_rf (Forest kd ts') cl X y = Ok s'.
Proof.
  intros kd cl ts ts' X y s H. unfold assess_rf in *. unfold predict_rows in *. destruct X as [|x X]; [discriminate|]. cbn [bind] in *.
  destruct kd; unfold mean_squared_error, accuracy_score in *; rewrite !map_length in *; destruct (Nat.eqb _ _); try discriminate; eauto.
Qed.

(** the jobs, after the stages *)
Definition jobs_part (sc : ascript) (c : acmd) (train test : mat R * list R) kd cl ts dl dsc : outcome R :=
  let score f := assess_rf (Forest kd f) cl (fst test) (snd test) in
  let assess f := match score f with Ok s => s | Err _ => 0 end in
  let late := late_file sc c (u_seed w) (u_date w) in
  match sc with
  | AClean =>
      andthen (analysis_clean (u_other w) fs kd ts (fst train) (snd train) (c_levels c) (u_rng w) (u_oob w) (u_clean w) (u_seed w) g_alphas g_beta1 g_beta0 g_eps
               assess dsc dl) (fun d => ([(late, d)], None))
  | _ =>
      let wols pa nc := match wols_job w ts train test (pa, nc) with Ok r => r | Err _ => (0, []) end in
      let jobs := analysis_old (match sc with ABoth => true | _ => false end) lg fs (match sc with ABoth => opt_styles | _ => [c_style c] end) kd ts
                    (fst train) (snd train) (c_levels c) (u_rng w) (u_rd w) (u_seed w) g_alphas g_beta1 g_beta0 g_eps assess dsc dl wols in
      match kd with
      | Reg =>
          andthen (mapM (wols_job w ts train test) [(true, true); (true, false); (false, true); (false, false)]) (fun _ =>
          let '(fl, ex) := andthen jobs (fun d => ([(late, d)], None)) in
          ((early_file c (u_seed w), add_wols Reg wols (start_scoring (assess ts) dsc, start_info (u_seed w) dl)) :: fl, ex))
      | Class _ => andthen jobs (fun d => ([(late, d)], None))
      end
  end.
Lemma run_stages : forall sc argv j, asks_job int_of sc argv j ->
  (exists e, run sc argv = ([], Some e)) \/
  exists train test kd cl ts base dts dl dsc, reaches_jobs w j train test kd cl ts base dts dl dsc /\
    run sc argv = jobs_part sc (c_of sc j) train test kd cl ts dl dsc.
Proof.
  intros sc argv j HA. unfold run_job. rewrite (read_asks_job _ _ _ _ HA). cbn [andthen]. change (c_data (c_of sc j)) with (aset_str (j_data j)). change (c_type (c_of sc j)) with (type_str (j_class j)). change (c_trees (c_of sc j)) with (j_trees j).
  destruct (u_raw w (aset_str (j_data j))) as [raw|e] eqn:ER; [|rewrite (pull_err _ _ ER); left; eexists; reflexivity].
  destruct (pull_known _ _ ER) as (data&EP&SH). rewrite EP. cbn [andthen].
  destruct (u_split w data) as [[train test]|e] eqn:ES; cbn [andthen]; [|left; eexists; reflexivity].
  destruct (fit_rf w (type_of (type_str (j_class j))) (j_trees j) train) as [[[kd cl] ts]|e] eqn:EF; cbn [andthen]; [|left; eexists; reflexivity].
  destruct (assess_rf (Forest kd ts) cl (fst test) (snd test)) as [base|e] eqn:EB; cbn [andthen]; [|left; eexists; reflexivity].
  destruct (depth_tune _ _ _) as [[dts dl]|e] eqn:ED; cbn [andthen]; [|left; eexists; reflexivity].
  destruct (assess_rf (Forest kd dts) cl (fst test) (snd test)) as [dsc|e] eqn:EC; cbn [andthen]; [|left; eexists; reflexivity].
  right. exists train, test, kd, cl, ts, base, dts, dl, dsc. split.
  - exists raw, data. split; [auto|]. split; [auto|]. split; [auto|]. split; [|auto].
    destruct (j_class j); cbn [type_str] in EF.
    + change (type_of (lit "class")) with TClass in EF. cbn [fit_rf] in EF. destruct (u_fit_class w (j_trees j) train) as [[[k cl'] ts']|]; cbn [bind] in EF; [|discriminate].
      injection EF as <- <- <-. eauto.
    + change (type_of (lit "reg")) with TReg in EF. cbn [fit_rf] in EF. destruct (u_fit_reg w (j_trees j) train) as [ts'|]; cbn [bind] in EF; [|discriminate].
      injection EF as <- <- <-. auto.
  - unfold jobs_part. cbv beta zeta. rewrite EB. reflexivity.
Qed.

Lemma grids_R : @g_alphas R _ = alphas_R /\ @g_beta1 R _ = betas1_R /\ @g_beta0 R _ = betas0_R /\ @g_eps R _ = epss_R.
Proof.
  unfold g_alphas, g_beta1, g_beta0, g_eps, alphas_R, betas1_R, betas0_R, epss_R.
  repeat match goal with |- context [nof ?n] => change (nof n) with (INR n) end.
  repeat match goal with |- context [INR ?n] => let z := eval vm_compute in (Z.of_nat n) in let H := fresh in assert (H : INR n = IZR z) by (rewrite INR_IZR_INZ; reflexivity); rewrite H; clear H end.
  unfold npow. rn. repeat split; repeat (f_equal; try (cbn; field)).
Qed.
Lemma grids_nodup : NoDup alphas_R /\ NoDup betas1_R /\ NoDup betas0_R /\ NoDup epss_R.
Proof.
  unfold alphas_R, betas1_R, betas0_R, epss_R.
  repeat split; repeat constructor; cbn [In]; intros H; repeat (destruct H as [H|H]; [lra|]); auto.
Qed.
Lemma grids_ne : @g_alphas R _ <> [] /\ @g_beta1 R _ <> [] /\ @g_beta0 R _ <> [] /\ @g_eps R _ <> [].
Proof. repeat split; discriminate. Qed.

Lemma p_job_class : forall sc argv j, asks_job int_of sc argv j -> j_class j = true -> (forall p, r_draws (u_rd w p) <> []) ->
  exists e, run sc argv = ([], Some e).
Proof.
  intros sc argv j HA HC HD. destruct (run_stages sc argv j HA) as [H|(train&test&kd&cl&ts&base&dts&dl&dsc&RJ&->)]; auto.
  destruct RJ as (raw&data&_&_&_&F&_). rewrite HC in F. destruct F as (k&->&_). unfold jobs_part. destruct grids_ne as (N1&N2&N3&N4).
  destruct sc.
  - match goal with |- context [andthen ?r _] => destruct r as [d|e] eqn:E end; [|eexists; reflexivity]. exfalso. revert E. apply old_class; auto; discriminate.
  - match goal with |- context [andthen ?r _] => destruct r as [d|e] eqn:E end; [|eexists; reflexivity]. exfalso. revert E. apply old_class; auto; discriminate.
  - rewrite clean_class. cbn [andthen]. eauto.
Qed.

Lemma p_job_nolevels : forall sc argv j, asks_job int_of sc argv j -> j_levels j = None -> uses_impurity sc j ->
  exists e fl, run sc argv = (fl, Some e) /\ (fl = [] \/ sc <> AClean /\ j_class j = false /\ exists d, fl = [(name_early j (u_seed w), d)]).
Proof.
  intros sc argv j HA HL HU. destruct (run_stages sc argv j HA) as [(e&->)|(train&test&kd&cl&ts&base&dts&dl&dsc&RJ&->)]; eauto.
  destruct RJ as (raw&data&_&_&_&F&_). unfold jobs_part. destruct grids_ne as (N1&N2&N3&N4).
  assert (EL : c_levels (c_of sc j) = None) by auto. rewrite EL.
  assert (NO : forall b X y a1 b1 c1 al b1' b0 ep st (r : sdict (list R) * sdict (list R)) wo, In (lit "impurity") st -> al <> [] -> b1' <> [] -> b0 <> [] -> ep <> [] ->
    analysis_old b lg fs st kd ts X y None (u_rng w) (u_rd w) (u_seed w) al b1' b0 ep a1 b1 c1 wo <> Ok r).
  { intros. apply old_nolevels; auto. }
  destruct sc.
  - cbn [uses_impurity] in HU. 
    match goal with |- context [match kd with Reg => andthen ?m ?f | Class _ => andthen ?o ?g end] => set (jobs := o) in * end.
    assert (EJ : exists e, jobs = Err e).
    { destruct jobs as [r|e] eqn:E; [|eauto]. exfalso. revert E. unfold jobs. apply NO; auto. cbn [c_style c_of]. rewrite HU. left. reflexivity. }
    destruct EJ as (e&EJ). destruct kd.
    + destruct (mapM _ _); cbn [andthen]; [|eauto]. rewrite EJ. cbn [andthen]. eexists; eexists. split; [reflexivity|]. right. split; [discriminate|].
      destruct (j_class j) eqn:EC; [destruct F as (k&K&_); discriminate|]. split; auto. eexists. unfold name_early, early_file, c_of. cbn [c_data c_type c_trees]. rewrite EC. reflexivity.
    + rewrite EJ. cbn [andthen]. eauto.
  - match goal with |- context [match kd with Reg => andthen ?m ?f | Class _ => andthen ?o ?g end] => set (jobs := o) in * end.
    assert (EJ : exists e, jobs = Err e).
    { destruct jobs as [r|e] eqn:E; [|eauto]. exfalso. revert E. unfold jobs. apply NO; auto. right. left. reflexivity. }
    destruct EJ as (e&EJ). destruct kd.
    + destruct (mapM _ _); cbn [andthen]; [|eauto]. rewrite EJ. cbn [andthen]. eexists; eexists. split; [reflexivity|]. right. split; [discriminate|].
      destruct (j_class j) eqn:EC; [destruct F as (k&K&_); discriminate|]. split; auto. eexists. unfold name_early, early_file, c_of. cbn [c_data c_type c_trees]. rewrite EC. reflexivity.
    + rewrite EJ. cbn [andthen]. eauto.
  - match goal with |- context [andthen ?o _] => destruct o as [r|e] eqn:E end; [|cbn [andthen]; eauto]. exfalso. revert E. apply clean_nolevels.
Qed.

(** ** contents *)
Lemma names_wols : forall pa nc, wols_name pa nc = name_wols pa nc.
Proof. intros [] []; reflexivity. Qed.
Lemma add_wols_start : forall wols (base dsc : R) dl,
  let d := add_wols Reg wols (start_scoring base dsc, start_info (u_seed w) dl) in
  has_start d base dsc (u_seed w) dl /\ has_length d 6 /\ forall pa nc, holds (fst d) (name_wols pa nc) [fst (wols pa nc)] /\ holds (snd d) (name_wols pa nc) (snd (wols pa nc)).
Proof.
  intros wols base dsc dl d.
  assert (H : forall A (l : list (str * A)), NoDup (map fst l) -> forall k v, In (k, v) l -> holds l k v).
  { intros A l ND k v HI v'. split; [|intros ->; auto]. intros HI'. revert HI HI' ND. induction l as [|[a b] l IH]; intros HI HI' ND; [contradiction|].
    cbn [map fst] in ND. inversion ND as [|x l' NI ND']. destruct HI as [HI|HI], HI' as [HI'|HI']; try congruence; auto.
    - injection HI as -> ->. exfalso. apply NI. apply (in_map fst) in HI'. auto.
    - injection HI' as -> ->. exfalso. apply NI. apply (in_map fst) in HI. auto. }
  assert (E : d = ([(lit "rf_base", [base]); (lit "depth_tune", [dsc]); (name_wols true true, [fst (wols true true)]); (name_wols true false, [fst (wols true false)]);
                    (name_wols false true, [fst (wols false true)]); (name_wols false false, [fst (wols false false)])],
                   [(lit "seed", [INR (u_seed w)]); (lit "depth_tune", dl); (name_wols true true, snd (wols true true)); (name_wols true false, snd (wols true false));
                    (name_wols false true, snd (wols false true)); (name_wols false false, snd (wols false false))])) by reflexivity.
  clearbody d. subst d. cbn [fst snd].
  assert (N1 : NoDup (map fst [(lit "rf_base", [base]); (lit "depth_tune", [dsc]); (name_wols true true, [fst (wols true true)]); (name_wols true false, [fst (wols true false)]);
                    (name_wols false true, [fst (wols false true)]); (name_wols false false, [fst (wols false false)])])).
  { cbn [map fst]. repeat constructor; cbn [In]; intros X; repeat (destruct X as [X|X]; [discriminate X|]); auto. }
  assert (N2 : NoDup (map fst [(lit "seed", [INR (u_seed w)]); (lit "depth_tune", dl); (name_wols true true, snd (wols true true)); (name_wols true false, snd (wols true false));
                    (name_wols false true, snd (wols false true)); (name_wols false false, snd (wols false false))])).
  { cbn [map fst]. repeat constructor; cbn [In]; intros X; repeat (destruct X as [X|X]; [discriminate X|]); auto. }
  split; [|split; [split; reflexivity|]].
  - unfold has_start. cbn [fst snd]. repeat split; apply H; auto; cbn [In]; auto.
  - intros pa nc. split; apply H; auto; destruct pa, nc; cbn [In]; auto 10.
Qed.

Lemma late_name : forall sc j seed date, late_file sc (c_of sc j) seed date = name_late sc j seed date.
Proof. intros [] j seed date; reflexivity. Qed.
Lemma early_name : forall sc j seed, early_file (c_of sc j) seed = name_early j seed.
Proof. reflexivity. Qed.

Lemma jobs_ok : forall (sc inf : list (str * list R)) (job : params R -> Prop) run key test ts base,
  assess_rf (Forest Reg ts) [] (fst test) (snd test) = Ok base ->
  (forall p, job p -> exists f lamb c m, run p = Ok (f, lamb, c) /\ np_min c = Ok m /\
     holds sc (key p) [match assess_rf (Forest Reg f) [] (fst test) (snd test) with Ok s => s | Err _ => 0 end; m] /\ holds inf (key p) lamb) ->
  has_jobs job run key test (sc, inf).
Proof.
  intros sc inf job rn key test ts base HB H p Hp. destruct (H p Hp) as (f&lamb&c&m&H1&H2&H3&H4).
  destruct (assess_total _ _ _ f _ _ _ HB) as (s&ES). rewrite ES in H3. exists f, lamb, c, m, s. apply np_min_least in H2. auto.
Qed.

Hypothesis PR : prints fs (alphas_R ++ betas1_R ++ betas0_R ++ epss_R).

Lemma p_job_clean : forall argv j, asks_job int_of AClean argv j -> j_class j = false ->
  (exists e, run AClean argv = ([], Some e)) \/
  exists train test ts base dts dl dsc d, reaches_jobs w j train test Reg [] ts base dts dl dsc /\
    run AClean argv = ([(name_late AClean j (u_seed w) (u_date w), d)], None) /\
    has_start d base dsc (u_seed w) dl /\
    has_jobs (clean_job Reg (u_seed w) alphas_R betas1_R betas0_R epss_R)
      (clean_run (u_other w) (Forest Reg ts) (fst train) (snd train) (j_levels j) (u_rng w) (u_oob w) (u_clean w))
      (fun p => key_of (clean_name fs (j_levels j) p)) test d /\
    has_length d (2 + 48 * 121)%nat.
Proof.
  intros argv j HA HC. destruct (run_stages AClean argv j HA) as [H|(train&test&kd&cl&ts&base&dts&dl&dsc&RJ&->)]; auto.
  assert (KR : kd = Reg /\ cl = []) by (destruct RJ as (raw&data&_&_&_&F&_); rewrite HC in F; tauto). destruct KR as [-> ->].
  assert (HB : assess_rf (Forest Reg ts) [] (fst test) (snd test) = Ok base) by (destruct RJ as (raw&data&_&_&_&_&F&_); auto).
  unfold jobs_part. destruct grids_R as (->&->&->&->). destruct grids_nodup as (N1&N2&N3&N4). change (c_levels (c_of AClean j)) with (j_levels j).
  match goal with |- context [andthen ?r _] => destruct r as [[sc inf]|e] eqn:E end; [|left; eexists; reflexivity].
  right. exists train, test, ts, base, dts, dl, dsc, (sc, inf). split; [auto|]. split; [reflexivity|].
  destruct (clean_stored fs _ _ _ _ PR N1 N2 N3 N4 _ _ _ _ _ _ _ _ _ _ _ _ _ _ _ E) as (J&S1&S2&S3&S4&L1&L2). rewrite HB in S1.
  split; [split; [exact S1|]; split; [exact S2|]; split; [exact S3|exact S4]|].
  split; [eapply jobs_ok; eauto|]. split; [exact L1|exact L2].
Qed.

Lemma p_job_old : forall sc argv j, sc <> AClean -> asks_job int_of sc argv j -> j_class j = false ->
  (exists e, run sc argv = ([], Some e)) \/
  exists train test ts base dts dl dsc d0, reaches_jobs w j train test Reg [] ts base dts dl dsc /\
    has_start d0 base dsc (u_seed w) dl /\ has_wols w ts train test d0 /\ has_length d0 6 /\
    ((exists e, run sc argv = ([(name_early j (u_seed w), d0)], Some e)) \/
     exists d, run sc argv = ([(name_early j (u_seed w), d0); (name_late sc j (u_seed w) (u_date w), d)], None) /\
       has_start d base dsc (u_seed w) dl /\ has_wols w ts train test d /\
       has_jobs (old_job Reg (job_styles sc j) (u_seed w) alphas_R betas1_R betas0_R epss_R)
         (fun p => old_run lg (Forest Reg ts) (fst train) (snd train) (j_levels j) (u_rng w) (u_rd w) (with_l2 p))
         (fun p => key_of (old_name (match sc with ABoth => true | _ => false end) fs (j_levels j) p)) test d /\
       has_length d (6 + n_styles sc * (24 * 120))%nat).
Proof.
  intros sc argv j NC HA HC. destruct (run_stages sc argv j HA) as [H|(train&test&kd&cl&ts&base&dts&dl&dsc&RJ&->)]; auto.
  assert (KR : kd = Reg /\ cl = []) by (destruct RJ as (raw&data&_&_&_&F&_); rewrite HC in F; tauto). destruct KR as [-> ->].
  assert (HB : assess_rf (Forest Reg ts) [] (fst test) (snd test) = Ok base) by (destruct RJ as (raw&data&_&_&_&_&F&_); auto).
  unfold jobs_part. destruct grids_R as (->&->&->&->). destruct grids_nodup as (N1&N2&N3&N4). change (c_levels (c_of sc j)) with (j_levels j).
  set (wols := fun pa nc => match wols_job w ts train test (pa, nc) with Ok r => r | Err _ => (0, []) end).
  assert (EE : forall A (r : result A), (exists e, r = Err e) \/ exists a, r = Ok a) by (intros A [a|e]; eauto).
  destruct (EE _ (mapM (wols_job w ts train test) [(true, true); (true, false); (false, true); (false, false)])) as [(e&EM)|(ms&EM)].
  { left. exists e. destruct sc; [| |congruence]; rewrite EM; reflexivity. }
  right.
  assert (HW : forall d : list (str * list R) * list (str * list R), (forall pa nc, holds (fst d) (name_wols pa nc) [fst (wols pa nc)] /\ holds (snd d) (name_wols pa nc) (snd (wols pa nc))) -> has_wols w ts train test d).
  { intros d Hd pa nc. destruct (Hd pa nc) as [D1 D2]. clear Hd.
    assert (EW : exists r, wols_job w ts train test (pa, nc) = Ok r).
    { cbn [mapM] in EM. destruct (wols_job w ts train test (true, true)) eqn:E1; cbn [bind] in EM; [|discriminate]. destruct (wols_job w ts train test (true, false)) eqn:E2; cbn [bind] in EM; [|discriminate].
      destruct (wols_job w ts train test (false, true)) eqn:E3; cbn [bind] in EM; [|discriminate]. destruct (wols_job w ts train test (false, false)) eqn:E4; cbn [bind] in EM; [|discriminate].
      destruct pa, nc; eauto. }
    destruct EW as (r&EW). unfold wols in D1, D2. rewrite EW in D1, D2. unfold wols_job in EW. apply bind_ok in EW. destruct EW as ([f lamb]&W1&EW). apply bind_ok in EW. destruct EW as (s&W2&EW).
    injection EW as <-. exists f, lamb, s. auto. }
  destruct (add_wols_start wols base dsc dl) as (A1&A2&A3).
  set (d0 := add_wols Reg wols (start_scoring base dsc, start_info (u_seed w) dl)) in *.
  exists train, test, ts, base, dts, dl, dsc, d0. split; [auto|]. split; [auto|]. split; [apply HW; auto|]. split; [auto|].
  assert (SF : styles_fine (match sc with ABoth => true | _ => false end) (match sc with ABoth => opt_styles | _ => [c_style (c_of sc j)] end)).
  { destruct sc; cbn; eauto. split; [repeat constructor; cbn; intuition discriminate|]. intros s [<-|[<-|[]]]; vm_compute; intuition discriminate. }
  assert (SE : (match sc with ABoth => opt_styles | _ => [c_style (c_of sc j)] end) = job_styles sc j) by (destruct sc; [reflexivity|reflexivity|congruence]).
  rewrite SE in SF. fold wols.
  destruct (EE _ (analysis_old (match sc with ABoth => true | _ => false end) lg fs (job_styles sc j) Reg ts
                    (fst train) (snd train) (j_levels j) (u_rng w) (u_rd w) (u_seed w) alphas_R betas1_R betas0_R epss_R
                    (fun f => match assess_rf (Forest Reg f) [] (fst test) (snd test) with Ok s => s | Err _ => 0 end) dsc dl wols)) as [(e&EJ)|([si ii]&EJ)].
  - left. exists e. destruct sc; [| |congruence]; rewrite EM; cbn [andthen]; cbn [job_styles c_style c_of] in *; unfold opt_styles; rewrite EJ; cbn [andthen]; rewrite HB; reflexivity.
  - right. exists (si, ii). split.
    { destruct sc; [| |congruence]; rewrite EM; cbn [andthen]; cbn [job_styles c_style c_of] in *; unfold opt_styles; rewrite EJ; cbn [andthen]; rewrite HB; reflexivity. }
    destruct (old_stored fs _ _ _ _ PR N1 N2 N3 N4 _ _ _ _ _ _ _ _ _ _ _ _ _ _ _ _ _ SF EJ) as (J&S1&S2&S3&S4&W&L1&L2). rewrite HB in S1.
    split; [split; [exact S1|]; split; [exact S2|]; split; [exact S3|exact S4]|].
    split; [apply HW; intros pa nc; rewrite <- names_wols; apply W; auto|].
    split; [eapply jobs_ok; eauto|]. destruct sc; [| |congruence]; (split; [exact L1|exact L2]).
Qed.
End Run.

(** ** errors *)
Lemma eqb_no : forall s u, s <> u -> str_eqb s u = false.
Proof. intros s u N; unfold str_eqb; destruct (str_eq_dec s u); congruence. Qed.
Section Errors.
Variables (int_of : str -> option nat) (fs : R -> str) (lg : R -> R) (w : world R).
Notation run := (run_job int_of fs lg w).

Lemma p_job_few : forall sc argv, (length argv < 4)%nat -> nth_error argv 3 = None -> run sc argv = ([], Some IndexError).
Proof.
  intros sc argv HL _. destruct argv as [|a [|b [|c [|d argv]]]]; try reflexivity. cbn in HL. lia.
Qed.
Lemma p_job_trees : forall sc s0 d t n rest, int_of n = None -> run sc (s0 :: d :: t :: n :: rest) = ([], Some ValueError).
Proof. intros sc s0 d t n rest H. unfold run_job, read_job. cbn [nth_error bind]. rewrite H. reflexivity. Qed.
Lemma p_job_style : forall s0 d t n m s rest, int_of n = Some m -> s <> lit "impurity" -> s <> lit "depth" ->
  run AOne (s0 :: d :: t :: n :: s :: rest) = ([], Some ValueError).
Proof.
  intros s0 d t n m s rest H N1 N2. unfold run_job, read_job. cbn [nth_error bind]. rewrite H. cbn [bind].
  rewrite (eqb_no _ _ N1), (eqb_no _ _ N2). reflexivity.
Qed.
Lemma p_job_data : forall sc argv c, read_job int_of sc argv = Ok c -> (forall d, c_data c <> aset_str d) -> run sc argv = ([], Some TypeError).
Proof.
  intros sc argv c HR HN. unfold run_job. rewrite HR. cbn [andthen]. unfold pull_data.
  pose proof (eqb_no _ _ (HN AMicrosoft)) as E1. pose proof (eqb_no _ _ (HN AMoon)) as E2. pose proof (eqb_no _ _ (HN APrgeng)) as E3. pose proof (eqb_no _ _ (HN ATitantic)) as E4.
  cbn [aset_str] in *. rewrite E1, E2, E3, E4. reflexivity.
Qed.
Lemma p_job_type : forall sc argv c, read_job int_of sc argv = Ok c -> c_type c <> lit "reg" -> c_type c <> lit "class" ->
  exists e, run sc argv = ([], Some e) /\ forall d raw s, c_data c = aset_str d -> u_raw w (aset_str d) = Ok raw -> u_split w raw = Ok s -> e = UnboundLocalError.
Proof.
  intros sc argv c HR N1 N2. unfold run_job. rewrite HR. cbn [andthen].
  destruct (pull_data w (c_data c) (c_type c)) as [data|e] eqn:EP; cbn [andthen].
  - destruct (u_split w data) as [[train test]|e] eqn:ES; cbn [andthen].
    + assert (ET : type_of (c_type c) = TOther) by (unfold type_of; rewrite (eqb_no _ _ N1), (eqb_no _ _ N2); reflexivity).
      rewrite ET. cbn [fit_rf andthen]. eexists. split; [reflexivity|]. auto.
    + eexists. split; [reflexivity|]. intros d raw s ED ER HS. exfalso. rewrite ED in EP. unfold pull_data in EP. rewrite (eqb_no _ _ N1) in EP.
      destruct raw as [X y]. assert (data = (X, y)); [|congruence].
      destruct d; cbn [aset_str] in *; rewrite ER in EP; cbn in EP; congruence.
  - eexists. split; [reflexivity|]. intros d raw s ED ER HS. exfalso. rewrite ED in EP. unfold pull_data in EP. rewrite (eqb_no _ _ N1) in EP.
    destruct raw as [X y]. destruct d; cbn [aset_str] in *; rewrite ER in EP; cbn in EP; discriminate.
Qed.
Lemma p_job_request : forall sc argv argv' j, asks_job int_of sc argv j -> asks_job int_of sc argv' j -> run sc argv = run sc argv'.
Proof. intros sc argv argv' j H H'. unfold run_job. rewrite (read_asks_job _ _ _ _ H), (read_asks_job _ _ _ _ H'). reflexivity. Qed.
End Errors.

(** ** names *)
Ltac clashes := intros [] []; first [left; reflexivity|right; reflexivity].
Lemma type_cut : forall b b' x y, type_str b ++ x = type_str b' ++ y -> b = b' /\ x = y.
Proof. apply tag_cut. clashes. Qed.
Lemma aset_cut : forall d d' x y, (aset_str d ++ lit "_") ++ x = (aset_str d' ++ lit "_") ++ y -> d = d' /\ x = y.
Proof. apply (tag_cut (fun d => aset_str d ++ lit "_")). clashes. Qed.
Lemma early_inj : forall j j' s s', name_early j s = name_early j' s' <-> j_data j = j_data j' /\ j_class j = j_class j' /\ j_trees j = j_trees j' /\ s = s'.
Proof.
  intros j j' s s'. unfold name_early. split; [|intros (->&->&->&->); reflexivity]. intros E. apply app_inv_head in E.
  rewrite !(app_assoc (aset_str _)) in E. apply aset_cut in E. destruct E as [E1 E]. apply type_cut in E. destruct E as [E2 E]. apply app_inv_head in E.
  apply nat_cut in E; [|vm_compute; intuition discriminate|vm_compute; intuition discriminate]. destruct E as [E3 E]. apply (app_inv_head (lit "_")) in E.
  apply nat_cut in E; [|vm_compute; intuition discriminate|vm_compute; intuition discriminate]. tauto.
Qed.

Lemma style_cut : forall (o o' : option bool * bool) x y,
  (match fst o with Some imp => style_str imp | None => if snd o then lit "both " else lit "both_clean" end ++ lit "_") ++ x =
  (match fst o' with Some imp => style_str imp | None => if snd o' then lit "both " else lit "both_clean" end ++ lit "_") ++ y ->
  (fst o = fst o' /\ (fst o = None -> snd o = snd o')) /\ x = y.
Proof.
  intros [[[]|] []] [[[]|] []] x y E; cbn [fst snd] in *; try (exfalso; revert E; apply clash_no; reflexivity); apply app_inv_head in E; repeat split; auto; discriminate.
Qed.
Lemma levels_cut : forall (l l' : option nat) b b' x y,
  match l with Some n => lit "levels_" ++ str_nat n | None => [] end ++ type_str b ++ x = match l' with Some n => lit "levels_" ++ str_nat n | None => [] end ++ type_str b' ++ y ->
  l = l' /\ b = b' /\ x = y.
Proof.
  intros l l' b b' x y E. destruct l as [n|], l' as [n'|].
  - rewrite <- !app_assoc in E. apply app_inv_head in E.
    assert (D : forall b z, exists c r, type_str b ++ z = c :: r /\ ~ is_digit c).
    { intros [] z; eexists; eexists; (split; [reflexivity|vm_compute; intuition discriminate]). }
    destruct (D b x) as (c&r&E1&D1), (D b' y) as (c'&r'&E2&D2). rewrite E1, E2 in E. apply nat_cut in E; auto. destruct E as [-> E]. split; auto. rewrite <- E1, <- E2 in E. apply type_cut in E. auto.
  - exfalso. rewrite <- app_assoc in E. destruct b'; discriminate E.
  - exfalso. rewrite <- app_assoc in E. destruct b; discriminate E.
  - cbn [app] in E. apply type_cut in E. auto.
Qed.
Lemma late_inj : forall sc sc' j j' s s' d d', (sc <> AOne -> j_impurity j = false) -> (sc' <> AOne -> j_impurity j' = false) ->
  name_late sc j s d = name_late sc' j' s' d' <-> sc = sc' /\ j = j' /\ s = s' /\ (sc = AClean -> d = d').
Proof.
  intros sc sc' j j' s s' d d' C C'. split.
  2:{ intros (<-&<-&<-&H). unfold name_late. destruct sc; auto. rewrite (H eq_refl). reflexivity. }
  unfold name_late. intros E. apply app_inv_head in E. rewrite !(app_assoc (aset_str _)) in E. apply aset_cut in E. destruct E as [E1 E].
  set (o := fun sc j => match sc with AOne => (Some (j_impurity j), true) | ABoth => (None, true) | AClean => (None, false) end).
  assert (EO : forall sc j, match sc with AOne => style_str (j_impurity j) | ABoth => lit "both " | AClean => lit "both_clean" end =
     match fst (o sc j) with Some imp => style_str imp | None => if snd (o sc j) then lit "both " else lit "both_clean" end) by (intros [] ?; reflexivity).
  rewrite !EO in E. clear EO. match type of E with ?a ++ lit "_" ++ ?x = ?b ++ lit "_" ++ ?y => rewrite (app_assoc a (lit "_") x), (app_assoc b (lit "_") y) in E end. apply style_cut in E. destruct E as [(EA&EB) E].
  assert (ES : sc = sc' /\ j_impurity j = j_impurity j').
  { destruct sc, sc'; cbn in EA, EB; try discriminate; split; auto; try congruence; try (discriminate (EB eq_refl)). all: rewrite C, C'; auto; discriminate. }
  destruct ES as [<- EI]. apply levels_cut in E. destruct E as (E2&E3&E). apply app_inv_head in E.
  apply nat_cut in E; [|vm_compute; intuition discriminate|vm_compute; intuition discriminate]. destruct E as [E4 E]. apply (app_inv_head (lit "_")) in E.
  assert (SE : s = s' /\ (sc = AClean -> d = d')).
  { destruct sc; cbn [app] in E.
    - apply nat_cut in E; [|vm_compute; intuition discriminate|vm_compute; intuition discriminate]. split; [tauto|discriminate].
    - apply nat_cut in E; [|vm_compute; intuition discriminate|vm_compute; intuition discriminate]. split; [tauto|discriminate].
    - apply nat_cut in E; [|vm_compute; intuition discriminate|vm_compute; intuition discriminate]. destruct E as [E5 E]. split; auto. intros _. apply (app_inv_head (lit "_")) in E. eapply app_inv_tail; eauto. }
  split; auto. split; [|tauto]. destruct j, j'. cbn in *. congruence.
Qed.
Lemma early_late : forall j s sc j' s' d, name_early j s <> name_late sc j' s' d.
Proof.
  intros j s sc j' s' d E. unfold name_early, name_late in E. apply app_inv_head in E. rewrite !(app_assoc (aset_str _)) in E. apply aset_cut in E. destruct E as [_ E].
  destruct (j_class j), sc; [destruct (j_impurity j')| | |destruct (j_impurity j')| |]; discriminate E.
Qed.

(** ** the scripts finish when their parts do *)
Section Finish.
Context {T : Type} {NT : Num T}.
Variables (int_of : str -> option nat) (fs : T -> str) (lg : T -> T) (w : world T).

Lemma np_min_some : forall c : list T, c <> [] -> exists m, np_min c = Ok m.
Proof. intros [|x c] H; [congruence|]. eexists. reflexivity. Qed.
Lemma fill_returns : forall name run assess (jobs : list (params T)) s i,
  (forall p, In p jobs -> exists f lamb c, run p = Ok (f, lamb, c) /\ c <> []) -> exists r, fill name run assess jobs s i = Ok r.
Proof.
  intros name rn assess jobs s i H. unfold fill.
  assert (M : exists outs, mapM (wrapper name rn assess) jobs = Ok outs).
  { clear -H. induction jobs as [|p jobs IH]; [eexists; reflexivity|]. destruct (H p (or_introl eq_refl)) as (f&lamb&c&E&NE). destruct (np_min_some c NE) as (m&EM).
    destruct IH as (os&EO); [intros q Hq; apply H; right; auto|]. cbn [mapM]. unfold wrapper at 1. rewrite E. cbn [bind]. rewrite EM. cbn [bind]. rewrite EO. eexists. reflexivity. }
  destruct M as (outs&->). eexists. reflexivity.
Qed.
Lemma finish : forall sc argv c data train test kd cl ts base dts dl dsc,
  read_job int_of sc argv = Ok c -> pull_data w (c_data c) (c_type c) = Ok data -> u_split w data = Ok (train, test) ->
  fit_rf w (type_of (c_type c)) (c_trees c) train = Ok (kd, cl, ts) -> assess_rf (Forest kd ts) cl (fst test) (snd test) = Ok base ->
  depth_tune (Forest kd ts) {| d_X_trained := Some (fst train); d_y_trained := Some (snd train); d_X_tune := None; d_y_tune := None; d_resample := false |} (u_depth w) = Ok (dts, dl) ->
  assess_rf (Forest kd dts) cl (fst test) (snd test) = Ok dsc ->
  (sc = AClean -> kd = Reg /\ forall p, In p (clean_grid Reg (u_seed w) g_alphas g_beta1 g_beta0 g_eps) -> exists f lamb co,
     clean_run (u_other w) (Forest Reg ts) (fst train) (snd train) (c_levels c) (u_rng w) (u_oob w) (u_clean w) p = Ok (f, lamb, co) /\ co <> []) ->
  (sc <> AClean -> kd = Reg /\ (forall pn, exists r, wols_job w ts train test pn = Ok r) /\
     forall p, In p (old_grid Reg (match sc with ABoth => opt_styles | _ => [c_style c] end) (u_seed w) g_alphas g_beta1 g_beta0 g_eps) -> exists f lamb co,
     old_run lg (Forest Reg ts) (fst train) (snd train) (c_levels c) (u_rng w) (u_rd w) p = Ok (f, lamb, co) /\ co <> []) ->
  exists d0 d, run_job int_of fs lg w sc argv =
    (match sc with AClean => [(late_file sc c (u_seed w) (u_date w), d)] | _ => [(early_file c (u_seed w), d0); (late_file sc c (u_seed w) (u_date w), d)] end, None).
Proof.
  intros sc argv c data train test kd cl ts base dts dl dsc E1 E2 E3 E4 E5 E6 E7 HC HO.
  unfold run_job. rewrite E1. cbn [andthen]. rewrite E2. cbn [andthen]. rewrite E3. cbn [andthen]. rewrite E4. cbn [andthen]. rewrite E5. cbn [andthen]. rewrite E6. cbn [andthen]. rewrite E7. cbn [andthen].
  assert (W : sc <> AClean -> exists ms, mapM (wols_job w ts train test) [(true, true); (true, false); (false, true); (false, false)] = Ok ms).
  { intros N. destruct (HO N) as (_&HW&_). clear -HW. induction [(true, true); (true, false); (false, true); (false, false)] as [|a l IH]; [eexists; reflexivity|].
    destruct (HW a) as (r&E). destruct IH as (ms&EM). cbn [mapM]. rewrite E. cbn [bind]. rewrite EM. eexists. reflexivity. }
  destruct sc.
  - destruct HO as (->&_&HJ); [discriminate|]. destruct W as (ms&->); [discriminate|]. cbn [andthen].
    match goal with |- context [analysis_old ?b lg fs ?st Reg ts ?X ?y ?le ?rg ?rd ?se ?a1 ?a2 ?a3 ?a4 ?as' ?ds ?dl' ?wo] =>
      assert (EJ : exists r, analysis_old b lg fs st Reg ts X y le rg rd se a1 a2 a3 a4 as' ds dl' wo = Ok r) end.
    { unfold analysis_old. destruct (add_wols _ _ _). apply fill_returns. exact HJ. }
    destruct EJ as (r&->). cbn [andthen]. eexists. eexists. reflexivity.
  - destruct HO as (->&_&HJ); [discriminate|]. destruct W as (ms&->); [discriminate|]. cbn [andthen].
    match goal with |- context [analysis_old ?b lg fs ?st Reg ts ?X ?y ?le ?rg ?rd ?se ?a1 ?a2 ?a3 ?a4 ?as' ?ds ?dl' ?wo] =>
      assert (EJ : exists r, analysis_old b lg fs st Reg ts X y le rg rd se a1 a2 a3 a4 as' ds dl' wo = Ok r) end.
    { unfold analysis_old. destruct (add_wols _ _ _). apply fill_returns. exact HJ. }
    destruct EJ as (r&->). cbn [andthen]. eexists. eexists. reflexivity.
  - destruct HC as (->&HJ); [reflexivity|].
    match goal with |- context [analysis_clean ?o fs Reg ts ?X ?y ?le ?rg ?ob ?rd ?se ?a1 ?a2 ?a3 ?a4 ?as' ?ds ?dl'] =>
      assert (EJ : exists r, analysis_clean o fs Reg ts X y le rg ob rd se a1 a2 a3 a4 as' ds dl' = Ok r) end.
    { unfold analysis_clean. apply fill_returns. exact HJ. }
    destruct EJ as (r&->). cbn [andthen]. exists ([], []), r. reflexivity.
Qed.
End Finish.

Lemma p_job_finishes : forall int_of (fs : R -> str) lg (w : world R) sc argv j train test ts base dts dl dsc,
  asks_job int_of sc argv j -> reaches_jobs w j train test Reg [] ts base dts dl dsc ->
  (sc = AClean -> forall p, clean_job Reg (u_seed w) alphas_R betas1_R betas0_R epss_R p -> exists f lamb c,
     clean_run (u_other w) (Forest Reg ts) (fst train) (snd train) (j_levels j) (u_rng w) (u_oob w) (u_clean w) p = Ok (f, lamb, c) /\ c <> []) ->
  (sc <> AClean -> (forall pa nc, exists f lamb,
    smooth_all_with (u_fuel w) (u_feps w) (u_solve w) (u_check w)
      {| a_X := fst train; a_y := snd train; a_X_tune := None; a_y_tune := None; a_no_constraint := nc; a_sanity := false; a_resample := false;
         a_parents_all := pa; a_inner_assess := false |} (u_oob w) (fun _ => []) ts = Ok (f, lamb)) /\
    forall p, old_job Reg (job_styles sc j) (u_seed w) alphas_R betas1_R betas0_R epss_R p -> exists f lamb c,
     old_run lg (Forest Reg ts) (fst train) (snd train) (j_levels j) (u_rng w) (u_rd w) p = Ok (f, lamb, c) /\ c <> []) ->
  snd (run_job int_of fs lg w sc argv) = None.
Proof.
  intros int_of fs lg w sc argv j train test ts base dts dl dsc HA (raw&data&E1&E2&E3&E4&E5&E6&E7) HC HO.
  assert (EC : j_class j = false /\ u_fit_reg w (j_trees j) train = Ok ts).
  { destruct (j_class j); [destruct E4 as (k&X&_); discriminate|tauto]. } destruct EC as [EC EF].
  destruct (pull_known w j raw E1) as (data'&EP&SH).
  assert (ED : data' = data).
  { destruct SH as [S1 S2], E2 as [S3 S4]. destruct data, data'. cbn in *. f_equal; [congruence|]. destruct (j_data j), (j_class j); congruence. }
  subst data'. destruct grids_R as (G1&G2&G3&G4).
  destruct (finish int_of fs lg w sc argv (c_of sc j) data train test Reg [] ts base dts dl dsc) as (d0&d&->); auto.
  - apply read_asks_job; auto.
  - cbn [c_of c_type c_trees]. rewrite EC. change (type_of (type_str false)) with TReg. cbn [fit_rf]. rewrite EF. reflexivity.
  - intros N. split; auto. intros p Hp. rewrite G1, G2, G3, G4 in Hp. apply (HC N). apply clean_grid_in; auto.
  - intros N. destruct (HO N) as [HW HJ]. split; auto. split.
    + intros [pa nc]. destruct (HW pa nc) as (f&lamb&E). unfold wols_job. rewrite E. cbn [bind]. destruct (assess_total _ _ _ f _ _ _ E5) as (s&->). eexists. reflexivity.
    + intros p Hp. rewrite G1, G2, G3, G4 in Hp. apply HJ. apply old_grid_in. destruct sc; [exact Hp|exact Hp|congruence].
Qed.
