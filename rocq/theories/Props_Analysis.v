(** Props_Analysis: C99 to C103, the analysis scripts. *)
From Coq Require Import Ascii QArith Reals Lra Lia.
From Coq Require Strings.String.
From Verif Require Import Base TreeSpec Spec M_Tree M_Gamma M_Levels M_Grad M_Sgd M_Smooth M_Clean M_Analysis SpecSmooth SpecTune SpecClean SpecAnalysis.
From Verif Require Import L_Analysis3 Props_Smooth Props_Clean.
Import Coq.Strings.String.StringSyntax.
Local Open Scope string_scope.
Local Open Scope list_scope.
Local Open Scope nat_scope.

(** ** C99 *)

(** C99: in analysis_both_clean.py the name under which a result is stored determines the job (levels are those of the command line). *)
Theorem C99_names : forall T (fs : T -> str) al b1 b0 ep, prints fs (al ++ b1 ++ b0 ++ ep) ->
  forall kd seed levels p q, clean_job kd seed al b1 b0 ep p -> clean_job kd seed al b1 b0 ep q ->
  clean_name fs levels p = clean_name fs levels q -> p = q.
Proof. exact @clean_names. Qed.
Print Assumptions C99_names.

(** ... so when it finishes each of its jobs has its own entry in both dictionaries, holding the score of the forest returned for exactly this job with the smallest of its costs, and its weights; the first entries are kept, and there are no others. *)
Theorem C99_stored : forall T (NT : Num T) (fs : T -> str) al b1 b0 ep, prints fs (al ++ b1 ++ b0 ++ ep) -> NoDup al -> NoDup b1 -> NoDup b0 -> NoDup ep ->
  forall other kd ts X y levels rng oob draws seed assess dsc dl sc inf,
  analysis_clean other fs kd ts X y levels rng oob draws seed al b1 b0 ep assess dsc dl = Ok (sc, inf) ->
  (forall p, clean_job kd seed al b1 b0 ep p -> exists f lamb c m, clean_run other (Forest kd ts) X y levels rng oob draws p = Ok (f, lamb, c) /\ np_min c = Ok m /\
     holds sc (key_of (clean_name fs levels p)) [assess f; m] /\ holds inf (key_of (clean_name fs levels p)) lamb) /\
  holds sc (lit "rf_base") [assess ts] /\ holds sc (lit "depth_tune") [dsc] /\ holds inf (lit "seed") [nof seed] /\ holds inf (lit "depth_tune") dl /\
  length sc = 2 + 2 * 3 * 2 * n_nocons kd * 2 * (1 + length al * length b1 * length b0 * length ep) /\
  length inf = 2 + 2 * 3 * 2 * n_nocons kd * 2 * (1 + length al * length b1 * length b0 * length ep).
Proof. exact @clean_stored. Qed.
Print Assumptions C99_stored.

(** ... where a job makes the call of smooth_clean its parameters ask for, *)
Theorem C99_call : forall T (NT : Num T) kd seed al b1 b0 ep X (y : list T) levels rng p, clean_job kd seed al b1 b0 ep p -> (p_style p = lit "impurity" -> levels <> None) ->
  exists o, asks_clean X y levels rng p o /\ forall other ts oob draws, modelled p -> clean_run other (Forest kd ts) X y levels rng oob draws p = smooth_clean (Forest kd ts) o oob (draws p).
Proof. exact @clean_asks. Qed.
Print Assumptions C99_call.

(** ... and the smallest cost is what it says. *)
Theorem C99_min : forall (l : list R) m, np_min l = Ok m <-> In m l /\ (forall x, In x l -> m <= x)%R.
Proof. exact np_min_least. Qed.
Print Assumptions C99_min.

Definition ex_fs (x : Q) : str := if neqb x (1#10)%Q then lit "0.1" else if neqb x (9#10)%Q then lit "0.9" else if neqb x (3#10)%Q then lit "0.3" else lit "1e-08".
Definition ex_assess (f : list (tree Q)) : Q := nsum (map (fun t => nsum (concat (t_value t))) f).
Lemma ex_prints : prints ex_fs ([1#10; 3#10] ++ [9#10] ++ [9#10] ++ [1#100])%Q.
Proof.
  split.
  - intros x H. repeat (destruct H as [<-|H]; [vm_compute; intuition discriminate|]). destruct H.
  - intros x y H K. repeat (destruct H as [<-|H]; [repeat (destruct K as [<-|K]; [vm_compute; intros; (reflexivity || discriminate)|]); destruct K|]). destruct H.
Qed.
Example C99_names_ex : let p l a := {| p_style := lit "depth"; p_inner := lit "max"; p_parents := true; p_nocons := false; p_lamb := l; p_loss := L2; p_adam := a |} in
  clean_job (Class 3) 5 [1#10; 3#10]%Q [9#10]%Q [9#10]%Q [1#100]%Q (p (Some 5) (Some (3#10, 9#10, 9#10, 1#100)%Q)) /\
  clean_name ex_fs (Some 12) (p (Some 5) (Some (3#10, 9#10, 9#10, 1#100)%Q)) = lit "smooth_rf,dist_style:depth,levels:12,tree_dist:max,parents:True,constraints:True,initial_lamb:5,adam_options:(0.3_0.9_0.9_1e-08)" /\
  clean_name ex_fs None (p None None) = lit "smooth_rf,dist_style:depth,levels:NA,tree_dist:max,parents:True,constraints:True,initial_lamb:rf,adam_options:None".
Proof.
  split; [|split; vm_compute; reflexivity]. split; [|split; [reflexivity|]].
  - split; [left; reflexivity|]. split; [right; left; reflexivity|]. split; [discriminate|left; reflexivity].
  - right. exists (3#10)%Q, (9#10)%Q, (9#10)%Q, (1#100)%Q. cbn. auto 10.
Qed.

(** a run with 42 observations, one step, and the learning rate 1/10: 98 entries *)
Example C99_stored_ex : exists sc inf,
  analysis_clean (fun _ => Ok ([ex3_reg], [1%Q], [1#2]%Q)) ex_fs Reg [@ex3_reg Q _] (concat (repeat exX 14)) (concat (repeat (exrow [2;4;8]%Z) 14)) (Some 1)
    (fun _ _ => 1%Q) (fun _ => [1;2]) (fun _ => [[0]]) 5 [1#10]%Q [9#10]%Q [9#10]%Q [1#100]%Q ex_assess (1#2)%Q [1;2;3]%Q = Ok (sc, inf) /\ length sc = 98 /\ length inf = 98.
Proof.
  match goal with |- exists _ _, ?r = _ /\ _ => assert (H : match r with Ok (a, b) => length a = 98 /\ length b = 98 | Err _ => False end); [|destruct r as [[a b]|]; [|destruct H]; eauto] end.
  vm_compute. split; reflexivity.
Qed.

(** ** C100 *)

(** C100: the older scripts analysis.py and analysis_both.py leave the loss out of the name: two jobs have the same name exactly if they differ at most in the loss. *)
Theorem C100_names : forall T (fs : T -> str) al b1 b0 ep, prints fs (al ++ b1 ++ b0 ++ ep) ->
  forall both kd st seed levels p q, styles_fine both st -> old_job kd st seed al b1 b0 ep p -> old_job kd st seed al b1 b0 ep q ->
  (old_name both fs levels p = old_name both fs levels q <-> same_but_loss p q).
Proof. intros T fs al b1 b0 ep PR both kd st seed levels p q SF HP HQ. split; [eapply old_names; eauto|apply old_name_loss]. Qed.
Print Assumptions C100_names.

(** ... so a finished run holds one entry for both losses, that of the squared error; in particular all jobs of a regression have their own. *)
Theorem C100_stored : forall T (NT : Num T) (fs : T -> str) al b1 b0 ep, prints fs (al ++ b1 ++ b0 ++ ep) -> NoDup al -> NoDup b1 -> NoDup b0 -> NoDup ep ->
  forall both lg st kd ts X y levels rng rd seed assess dsc dl wols sc inf, styles_fine both st ->
  analysis_old both lg fs st kd ts X y levels rng rd seed al b1 b0 ep assess dsc dl wols = Ok (sc, inf) ->
  (forall p, old_job kd st seed al b1 b0 ep p -> exists f lamb c m, old_run lg (Forest kd ts) X y levels rng rd (with_l2 p) = Ok (f, lamb, c) /\ np_min c = Ok m /\
     holds sc (key_of (old_name both fs levels p)) [assess f; m] /\ holds inf (key_of (old_name both fs levels p)) lamb) /\
  holds sc (lit "rf_base") [assess ts] /\ holds sc (lit "depth_tune") [dsc] /\ holds inf (lit "seed") [nof seed] /\ holds inf (lit "depth_tune") dl /\
  (kd = Reg -> forall pa nc, holds sc (wols_name pa nc) [fst (wols pa nc)] /\ holds inf (wols_name pa nc) (snd (wols pa nc))) /\
  length sc = n_start kd + length st * 3 * 2 * n_nocons kd * 2 * (length al * length b1 * length b0 * length ep) /\
  length inf = n_start kd + length st * 3 * 2 * n_nocons kd * 2 * (length al * length b1 * length b0 * length ep).
Proof. exact @old_stored. Qed.
Print Assumptions C100_stored.

(** ... where a job makes this call of smooth, with parents_all=False. *)
Theorem C100_call : forall T (NT : Num T) kd st seed al b1 b0 ep X (y : list T) levels rng p, old_job kd st seed al b1 b0 ep p -> In (p_style p) [lit "depth"; lit "impurity"] ->
  (p_style p = lit "impurity" -> levels <> None) ->
  exists o, asks_old X y levels rng p o /\ forall lg ts rd,
    old_run lg (Forest kd ts) X y levels rng rd p = match smooth lg (Forest kd ts) o (rd p) with Ok s => Ok (s_forest s, s_lamb s, s_costs s) | Err e => Err e end.
Proof. exact @old_asks. Qed.
Print Assumptions C100_call.

Example C100_names_ex : let p lo := {| p_style := lit "depth"; p_inner := lit "max"; p_parents := true; p_nocons := false; p_lamb := None; p_loss := lo; p_adam := Some (3#10, 9#10, 9#10, 1#100)%Q |} in
  (forall lo, old_job (Class 3) opt_styles 5 [1#10; 3#10]%Q [9#10]%Q [9#10]%Q [1#100]%Q (p lo)) /\ p CE <> p L2 /\ styles_fine true opt_styles /\ styles_fine false [lit "depth"] /\
  old_name true ex_fs (Some 7) (p CE) = lit "element_opt,dist_style:depth_levels:7,dist:max,parents:True,constraints:True,initial_lamb:rf,adam_options:(0.3_0.9_0.9_1e-08)" /\
  old_name false ex_fs (Some 7) (p L2) = lit "element_opt_dist_style:depth_levels:7_dist:max,parents:True,constraints:True,initial_lamb:rf,adam_options:(0.3_0.9_0.9_1e-08)".
Proof.
  split; [|split; [discriminate|split; [|split; [eexists; reflexivity|split; vm_compute; reflexivity]]]].
  - intros lo. split; [|split; [discriminate|]].
    + split; [left; reflexivity|]. split; [right; left; reflexivity|]. split; [discriminate|right; reflexivity].
    + exists (3#10)%Q, (9#10)%Q, (9#10)%Q, (1#100)%Q. cbn. auto 10.
  - split; [apply styles_nodup|apply no_comma_style].
Qed.

(** a regression with one step: 6 + 96 entries for two learning rates *)
Example C100_stored_ex : exists sc inf,
  analysis_old true (fun x => x) ex_fs opt_styles Reg [@ex3_reg Q _] exX (exrow [2;4;8]%Z) (Some 1) (fun _ _ => 1%Q)
    (fun _ => {| r_oob := fun _ => [0;2]; r_boot := fun _ => []; r_draws := [0] |}) 5 [1#10; 3#10]%Q [9#10]%Q [9#10]%Q [1#100]%Q ex_assess (1#2)%Q [1;2;3]%Q (fun _ _ => (1%Q, [2]%Q)) = Ok (sc, inf) /\
  length sc = 102 /\ length inf = 102.
Proof.
  match goal with |- exists _ _, ?r = _ /\ _ => assert (H : match r with Ok (a, b) => length a = 102 /\ length b = 102 | Err _ => False end); [|destruct r as [[a b]|]; [|destruct H]; eauto] end.
  vm_compute. split; reflexivity.
Qed.

(** ** C101 *)

(** C101: none of the three scripts finishes for a classification: the clean one because smooth_clean refuses the forest, *)
Theorem C101_clean_class : forall other fs k (ts : list (tree R)) X y levels rng oob draws seed al b1 b0 ep assess dsc dl,
  analysis_clean other fs (Class k) ts X y levels rng oob draws seed al b1 b0 ep assess dsc dl = Err ValueError.
Proof. exact clean_class. Qed.
Print Assumptions C101_clean_class.

(** ... the older ones because of the cross-entropy jobs, as soon as there is a step; *)
Theorem C101_old_class : forall both lg fs st k (ts : list (tree R)) X y levels rng rd seed al b1 b0 ep assess dsc dl wols r,
  st <> [] -> al <> [] -> b1 <> [] -> b0 <> [] -> ep <> [] -> (forall p, r_draws (rd p) <> []) ->
  analysis_old both lg fs st (Class k) ts X y levels rng rd seed al b1 b0 ep assess dsc dl wols <> Ok r.
Proof. exact old_class. Qed.
Print Assumptions C101_old_class.

(** ... and without levels on the command line they do not finish either, whatever the forest (analysis.py: with the style impurity). *)
Theorem C101_no_levels : forall fs kd (ts : list (tree R)) X y rng seed al b1 b0 ep assess dsc dl r,
  (forall other oob draws, analysis_clean other fs kd ts X y None rng oob draws seed al b1 b0 ep assess dsc dl <> Ok r) /\
  (forall both lg st rd wols, In (lit "impurity") st -> al <> [] -> b1 <> [] -> b0 <> [] -> ep <> [] ->
     analysis_old both lg fs st kd ts X y None rng rd seed al b1 b0 ep assess dsc dl wols <> Ok r).
Proof. intros. split; intros; [apply clean_nolevels|apply old_nolevels; auto]. Qed.
Print Assumptions C101_no_levels.

Example C101_ex : forall lg fs ts X y levels rng rd assess dsc dl wols r, (forall p, r_draws (rd p) = [0; 1]) ->
  analysis_old false lg fs [lit "depth"] (Class 2) ts X y levels rng rd 5 [1 / 10; 3 / 10]%R [9 / 10]%R [9 / 10]%R [1 / 100]%R assess dsc dl wols <> Ok r.
Proof. intros. apply C101_old_class; try discriminate. intros p. rewrite H. discriminate. Qed.
(** with levels, the run of C99_stored_ex does finish *)
Example C101_ex_levels : exists r, analysis_clean (fun _ => Ok ([ex3_reg], [1%Q], [1#2]%Q)) ex_fs Reg [@ex3_reg Q _] (concat (repeat exX 14)) (concat (repeat (exrow [2;4;8]%Z) 14)) (Some 1)
    (fun _ _ => 1%Q) (fun _ => [1;2]) (fun _ => [[0]]) 5 [1#10]%Q [9#10]%Q [9#10]%Q [1#100]%Q ex_assess (1#2)%Q [1;2;3]%Q = Ok r.
Proof. destruct C99_stored_ex as (sc&inf&H&_). exists (sc, inf). exact H. Qed.

(** ** C102 *)

(** C102: in the clean script the constraint and the Adam values have no effect on the smoothed forest, its score or its weights: jobs with the same distance, symmetrisation, parents_all and start return the same ones. *)
Theorem C102_no_effect : forall other ts X (y : list R) levels rng oob draws p q f lamb c f' lamb' c', modelled p ->
  p_style p = p_style q -> p_inner p = p_inner q -> p_parents p = p_parents q -> p_lamb p = p_lamb q ->
  clean_run other (Forest Reg ts) X y levels rng oob draws p = Ok (f, lamb, c) ->
  clean_run other (Forest Reg ts) X y levels rng oob draws q = Ok (f', lamb', c') -> f = f' /\ lamb = lamb'.
Proof. exact clean_same. Qed.
Print Assumptions C102_no_effect.

(** ... and with the forest's own start the forest is the one before smoothing, so its entry repeats the score of rf_base. *)
Theorem C102_base : forall other ts X (y : list R) levels rng oob draws p f lamb c, modelled p -> p_lamb p = None ->
  Forall wf_tree ts -> Forall (wf_values Reg) ts -> Forall pos_leaves ts -> ts <> [] ->
  (forall o, clean_call X y levels rng p = Ok o -> separated (as_smooth o) ts) ->
  clean_run other (Forest Reg ts) X y levels rng oob draws p = Ok (f, lamb, c) -> f = ts.
Proof. exact clean_base. Qed.
Print Assumptions C102_base.

Definition ex_job (l : option nat) (a : option (R * R * R * R)) : params R :=
  {| p_style := lit "depth"; p_inner := lit "max"; p_parents := false; p_nocons := false; p_lamb := l; p_loss := L2; p_adam := a |}.
Lemma ex_job_runs : forall other levels rng l a, (forall s i, 0 < rng s i)%R -> exists f lamb c,
  clean_run other (Forest Reg ex_ts) (concat (repeat exX 14)) (concat (repeat (exrow [2;4;8]%Z) 14)) levels rng ex_oob (fun _ => [[0;2];[1;2]]) (ex_job l a) = Ok (f, lamb, c).
Proof.
  intros other levels rng l a HR. destruct ex_ok as (A&B&C&D&E).
  unfold clean_run, clean_call. cbn [ex_job p_style p_inner p_parents]. change (@dist_of R (lit "depth") false levels) with (@Ok (dist_choice R) (DDepth false)). change (style_of (lit "max")) with (Ok MaxStyle).
  cbn [bind k_dist]. apply C68_returns; auto; try exact I; try discriminate.
  - intros q i Hq Hi. specialize (E q i Hq Hi). change (length (@exX R _)) with 3 in E. change (i < 42). lia.
  - destruct l as [s|]; cbn; [|exact I]. split; [intros k; apply Rlt_le; apply HR|apply HR].
  - right. change (40 <= 42). lia.
  - intros d Hd. change (d <> [] /\ forall i, In i d -> i < 42). destruct Hd as [<-|[<-|[]]]; (split; [discriminate|]); intros i [<-|[<-|[]]]; lia.
  - left. discriminate.
Qed.

Example C102_ex : forall other levels rng l x y z w, (forall s i, 0 < rng s i)%R -> exists f lamb c c',
  let run a := clean_run other (Forest Reg ex_ts) (concat (repeat exX 14)) (concat (repeat (exrow [2;4;8]%Z) 14)) levels rng ex_oob (fun _ => [[0;2];[1;2]]) (ex_job l a) in
  run None = Ok (f, lamb, c) /\ run (Some (x, y, z, w)) = Ok (f, lamb, c') /\ (l = None -> f = ex_ts).
Proof.
  intros other levels rng l x y z w HR. destruct (ex_job_runs other levels rng l None HR) as (f&lamb&c&H). destruct (ex_job_runs other levels rng l (Some (x, y, z, w)) HR) as (f'&lamb'&c'&H').
  assert (MO : modelled (ex_job l None)) by (left; reflexivity).
  assert (X : f = f' /\ lamb = lamb') by (eapply C102_no_effect; [exact MO| | | | |exact H|exact H']; reflexivity). destruct X as [<- <-]. exists f, lamb, c, c'. split; [exact H|]. split; [exact H'|]. intros ->.
  destruct ex_ok as (A&B&C&D&_). eapply C102_base; eauto. intros o EO. unfold clean_call in EO. cbn [ex_job p_style p_inner p_parents] in EO. 
  change (@dist_of R (lit "depth") false levels) with (@Ok (dist_choice R) (DDepth false)) in EO. change (style_of (lit "max")) with (Ok MaxStyle) in EO. cbn [bind] in EO. injection EO as <-. exact I.
Qed.

(** ** C103 *)

(** C103: the older scripts pass parents_all=False in every job: with the same random choices a job and the one with the other value of parents_all have the same result, though their names differ. *)
Theorem C103_parents_unused : forall both lg fs (rf : rf_object R) X y levels rng rd p, rd (other_parents p) = rd p ->
  old_run lg rf X y levels rng rd (other_parents p) = old_run lg rf X y levels rng rd p /\
  old_name both fs levels (other_parents p) <> old_name both fs levels p.
Proof. exact old_parents_name. Qed.
Print Assumptions C103_parents_unused.

Example C103_ex : forall fs, old_name true fs None (ex_job None (Some (1, 1, 1, 1)%R)) <> old_name true fs None (other_parents (ex_job None (Some (1, 1, 1, 1)%R))) /\
  old_job Reg opt_styles 5 [1%R] [1%R] [1%R] [1%R] (ex_job None (Some (1, 1, 1, 1)%R)) /\ old_job Reg opt_styles 5 [1%R] [1%R] [1%R] [1%R] (other_parents (ex_job None (Some (1, 1, 1, 1)%R))).
Proof.
  intros fs. split. { intros H. apply (C103_parents_unused true (fun x => x) fs OtherObject [] [] None (fun _ _ => 0%R) (fun _ => {| r_oob := fun _ => []; r_boot := fun _ => []; r_draws := [] |}) (ex_job None (Some (1, 1, 1, 1)%R)) eq_refl). auto. }
  split; (split; [split; [left; reflexivity|]; split; [right; left; reflexivity|]; split; [discriminate|right; reflexivity]|]; split; [discriminate|]; exists 1%R, 1%R, 1%R, 1%R; cbn; auto 10).
Qed.
