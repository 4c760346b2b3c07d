(** Props_Prelim: C116 to C118, the scripts main_old/prelim_examination*.py. *)
From Coq Require Import Ascii.
From Coq Require Strings.String.
From Verif Require Import Base TreeSpec M_Tree M_Gamma M_Smooth M_Depth M_Data M_Main M_Predict M_Analysis M_Prelim Spec SpecMain SpecPredict SpecSmooth SpecPrelim.
From Verif Require Import L_Base L_Gamma2 L_Prelim.
From Coq Require Import Reals QArith Lia Lra.
Import Coq.Strings.String.StringSyntax.
Local Open Scope string_scope.
Local Open Scope list_scope.
Local Open Scope R_scope.

(** * C116: scores by depth and their table *)

(** Entry j of the result of regression_prep is the score on the test data of the forest fitted with the j-th depth ... *)
Theorem C116_scores : forall fit (train test : @frame R) ty ntree range, ty <> TOther -> fst test <> [] -> length (snd test) = length (fst test) ->
  exists v, regression_prep fit train test range ty ntree = Ok v /\ length v = length range /\
    forall j, (j < length range)%nat -> nth j v 0 = forest_rated ty (fit j ty (nth j range O) ntree train) test.
Proof. intros. apply p_prep; auto. Qed.
Print Assumptions C116_scores.

(** ... and a type that is neither "reg" nor "class", no test data or a wrong number of labels is a ValueError. *)
Theorem C116_refused : forall fit (train test : @frame R) ty ntree range, ty = TOther \/ (range <> [] /\ (fst test = [] \/ length (snd test) <> length (fst test))) ->
  regression_prep fit train test range ty ntree = Err ValueError.
Proof. intros. apply p_prep_bad; auto. Qed.
Print Assumptions C116_refused.

(** The table of depth_error_vis has one row per depth with the mean over the simulations and the band around it; labels of another number are a ValueError. *)
Theorem C116_table : forall b (cv : @arr2 R) ir,
  (match ir with None => True | Some l => length l = r_1 cv end ->
   exists tab, depth_error_vis2 b cv ir = Ok tab /\ describes b (r_0 cv) (match ir with None => seq 0 (r_1 cv) | Some l => l end) (at2 cv) tab) /\
  (forall l, ir = Some l -> length l <> r_1 cv -> depth_error_vis2 b cv ir = Err ValueError).
Proof. intros b cv ir. split; [apply p_table|]. intros l -> H. apply p_table_bad; auto. Qed.
Print Assumptions C116_table.

(** In every such table the column "lower" is not below the column "upper"; they are equal only where all simulations gave the same score. *)
Theorem C116_band_inverted : forall b n range f tab r j, (0 < n)%nat -> describes b n range f tab -> nth_error tab j = Some r ->
  v_upper r <= v_mu r <= v_lower r /\ (v_upper r = v_lower r <-> forall s, (s < n)%nat -> f s j = f O j).
Proof. exact p_inverted. Qed.
Print Assumptions C116_band_inverted.

(** one leaf with the value [v]; forests of 10 trees predict 0, of 300 trees 1; labels 0; even rows train, odd rows test *)
Definition one_leaf_tree {T} {NT : Num T} (v : T) : tree T := mkTree [-1]%Z [-1]%Z [0]%nat [n0] [[v]] [n1] [n0].
Definition ex_out {T} {NT : Num T} : @outside T :=
  {| u_file := (exX, repeat n0 3); u_make := fun _ _ => (exX, repeat n0 3); u_split := fun _ _ => ([0; 2]%nat, [1]%nat);
     u_fit := fun k _ _ _ _ _ _ => {| f_kind := Reg; f_classes := []; f_trees := [one_leaf_tree (if Nat.eqb k 0 then n0 else n1)] |} |}.
Example C116_ex : exists v, regression_prep (u_fit (@ex_out Q _) 1 0) (u_file ex_out) (pick (u_file ex_out) [1]%nat) (arange 2 8 2) TReg 300 = Ok v /\ v = [1; 1; 1]%Q.
Proof. eexists. split; vm_compute; reflexivity. Qed.
Example C116_ex_table : exists t, depth_error_vis2 SeBand {| r_0 := 4; r_1 := 2; at2 := fun s j => if (Nat.even s && Nat.eqb j 0)%bool then 6%Q else 2%Q |} (Some [2; 4]%nat) = Ok t /\
  map (fun r => Qred (v_mu r)) t = [4; 2]%Q /\ map (@v_idx Q) t = [2; 4]%nat.
Proof. eexists. split; [vm_compute; reflexivity|]. split; vm_compute; reflexivity. Qed.

(** * C117: what the scripts write *)

(** A script whose ranges agree writes two tables: that for 10 trees describes the forests of 10 trees; that for 300 trees describes the forests of
    300 trees or, where it is computed from score_mat10, is the table for 10 trees. *)
Theorem C117_files : forall p (u : @outside R), pl_type p <> TOther -> pl_type2 p <> TOther -> has_tests p u -> length (pl_prep p) = length (pl_range p) ->
  exists t10 t300, prelim_run p u = ([(csv_name p 10, t10); (csv_name p 300, t300)], None) /\
    describes (pl_band p) (pl_sims p) (pl_range p) (fun s j => forest_rated (pl_type p) (nth_forest p u 0 s (pl_type p) 10 j) (test_part p u 0 s)) t10 /\
    (pl_own p = true -> describes (pl_band p) (pl_sims p) (pl_range p) (fun s j => forest_rated (pl_type2 p) (nth_forest p u 1 s (pl_type2 p) 300 j) (test_part p u 1 s)) t300) /\
    (pl_own p = false -> t300 = t10).
Proof. exact p_files. Qed.
Print Assumptions C117_files.

(** glass, microsoft_class, moons, preeng, prgeng, splice and titantic write a table of their own for 300 trees ... *)
Theorem C117_own : forall p ty n (u : @outside R),
  In (p, ty, n) [(glass, TClass, 100); (microsoft_class, TClass, 100); (moons, TClass, 100); (preeng, TReg, 20); (prgeng, TReg, 20); (splice, TClass, 100); (titantic, TClass, 20)]%nat ->
  has_tests p u ->
  exists t10 t300, prelim_run p u = ([(csv_name p 10, t10); (csv_name p 300, t300)], None) /\
    describes SeBand n even_depths (fun s j => forest_rated ty (nth_forest p u 0 s ty 10 j) (test_part p u 0 s)) t10 /\
    describes SeBand n even_depths (fun s j => forest_rated ty (nth_forest p u 1 s ty 300 j) (test_part p u 1 s)) t300.
Proof.
  intros p ty n u IN HT. assert (P : pl_type p <> TOther /\ pl_type2 p = pl_type p /\ pl_prep p = pl_range p /\ pl_range p = even_depths /\ pl_band p = SeBand /\ pl_own p = true /\ pl_type p = ty /\ pl_sims p = n).
  { cbn [In] in IN. repeat (destruct IN as [IN|IN]; [injection IN as <- <- <-; repeat split; discriminate|]). contradiction. }
  destruct P as (A&B&C&D&E&F&<-&<-). destruct (p_files p u A ltac:(congruence) HT ltac:(congruence)) as (t10&t300&RN&D1&D2&_). exists t10, t300. split; [auto|].
  rewrite E, D in D1. split; [auto|]. specialize (D2 F). rewrite E, D, B in D2. auto.
Qed.
Print Assumptions C117_own.

(** ... but arabic_char, microsoft, online_news and spiral write the table for 10 trees twice, whatever the data and the forests: no run that ends writes anything else ... *)
Theorem C117_same_table : forall p ty n b (u : @outside R),
  In (p, ty, n, b) [(arabic_char, TClass, 20, SdBand); (microsoft, TReg, 20, SdBand); (online_news, TReg, 20, SdBand); (spiral, TClass, 100, SeBand)]%nat ->
  (has_tests p u -> exists t, prelim_run p u = ([(csv_name p 10, t); (csv_name p 300, t)], None) /\
     describes b n even_depths (fun s j => forest_rated ty (nth_forest p u 0 s ty 10 j) (test_part p u 0 s)) t) /\
  forall fs, prelim_run p u = (fs, None) -> exists t, fs = [(csv_name p 10, t); (csv_name p 300, t)].
Proof.
  intros p ty n b u IN. assert (P : pl_type p <> TOther /\ pl_type2 p <> TOther /\ pl_prep p = pl_range p /\ pl_own p = false /\ pl_range p = even_depths /\ pl_band p = b /\ pl_type p = ty /\ pl_sims p = n).
  { cbn [In] in IN. repeat (destruct IN as [IN|IN]; [injection IN as <- <- <- <-; repeat split; discriminate|]). contradiction. }
  destruct P as (A&B&C&D&E&<-&<-&<-). split.
  - intros HT. destruct (p_files p u A B HT ltac:(congruence)) as (t10&t300&RN&D1&_&SM). exists t10. rewrite (SM D) in RN. rewrite E in D1. auto.
  - intros fs R. destruct (p_same_table p u fs None D R) as [[_ H]|[H _]]; [auto|congruence].
Qed.
Print Assumptions C117_same_table.

(** ... which need not describe the forests of 300 trees at all. *)
Theorem C117_300_trees_refuted : exists (u : @outside R) t10 t300, has_tests microsoft u /\ prelim_run microsoft u = ([(csv_name microsoft 10, t10); (csv_name microsoft 300, t300)], None) /\
  ~ describes SdBand 20 (arange 2 50 2) (fun s j => forest_rated TReg (nth_forest microsoft u 1 s TReg 300 j) (test_part microsoft u 1 s)) t300.
Proof.
  exists ex_out. assert (HT : has_tests microsoft ex_out) by (intros k s; discriminate).
  destruct (p_files microsoft ex_out ltac:(discriminate) ltac:(discriminate) HT eq_refl) as (t10&t300&RN&D1&_&S1). exists t10, t300. split; [auto|]. split; [auto|].
  intros D3. rewrite (S1 eq_refl) in D3. cbn [pl_band pl_sims pl_range pl_type microsoft] in D1. destruct D1 as [L1 D1]. destruct D3 as [_ D3].
  assert (J : (0 < length (arange 2 50 2))%nat) by (vm_compute; lia). destruct (D1 O J) as (r&sd&N&_&M1&_). destruct (D3 O J) as (r'&sd'&N'&_&M3&_).
  rewrite N in N'. assert (E : r' = r) by congruence. subst r'. rewrite M1 in M3.
  assert (V : forall k s, forest_rated TReg (nth_forest microsoft ex_out k s TReg (if Nat.eqb k 0 then 10 else 300) 0) (test_part microsoft ex_out k s) = if Nat.eqb k 0 then 0 else 1).
  { intros k s. unfold forest_rated, rated, mse_of, test_part, sim_data, nth_forest, pick. cbn [u_split u_make u_fit ex_out pl_fresh microsoft fst snd map length sumto nth f_kind f_classes f_trees INR].
    unfold forest_predict. cbn [map length]. rewrite nsum_cons, nsum_nil. 
    change (predict Reg (one_leaf_tree (if Nat.eqb k 0 then @n0 R _ else n1)) (nth 1 exX [])) with (if Nat.eqb k 0 then @n0 R _ else n1).
    change (nth 1 (repeat (@n0 R _) 3) 0) with 0. change (@nof R _ 1) with 1. change (@ndiv R _) with Rdiv. change (@n0 R _) with 0. change (@n1 R _) with 1. 
    destruct (Nat.eqb k 0); cbn [repeat nth]; field. }
  unfold average in M3. rewrite (sumto_ext 20 _ (fun _ => 0)) in M3 by (intros s Hs; exact (V O s)).
  rewrite (sumto_ext 20 (fun s => forest_rated TReg (nth_forest microsoft ex_out 1 s TReg 300 0) _) (fun _ => 1)) in M3 by (intros s Hs; exact (V 1%nat s)).
  rewrite !sumto_const in M3. assert (P : 0 < INR 20) by (apply lt_0_INR; lia). assert (INR 20 * 0 / INR 20 = 0) by (field; lra). assert (INR 20 * 1 / INR 20 = 1) by (field; lra). lra.
Qed.
Print Assumptions C117_300_trees_refuted.

(** tania fails in its first simulation and writes nothing, since it has 11 depths and 24 scores ... *)
Theorem C117_tania_fails : forall u : @outside R, prelim_run tania u = ([], Some ValueError).
Proof. exact p_tania. Qed.
Print Assumptions C117_tania_fails.

(** ... and prelim_examination.py stops with a NameError, unless plotnine or something bound before has a name reg_or_class; the same lines of splice do not. *)
Theorem C117_base_name : forall star env : list str,
  (~ In (lit "reg_or_class") star -> ~ In (lit "reg_or_class") env -> run_names (base_script star) env = Err NameError) /\
  exists env', run_names (splice_script star) env = Ok env'.
Proof.
  intros star env. split.
  - intros NS NE. unfold base_script.
    do 21 (rewrite run_names_cons; cbn [stm st_reads st_binds map forallb];
      repeat (match goal with |- context [existsb (str_eqb (lit ?a)) ?l] => replace (existsb (str_eqb (lit a)) l) with true by (symmetry; repeat first [reflexivity | rewrite existsb_app | rewrite Bool.orb_true_r | cbn [app existsb]; match goal with |- context [str_eqb (lit a) (lit ?b)] => let v := eval vm_compute in (str_eqb (lit a) (lit b)) in change (str_eqb (lit a) (lit b)) with v; cbn [orb] end]) end); cbn [andb]).
    rewrite run_names_cons. cbn [stm st_reads st_binds map forallb]. rewrite unknown; [reflexivity|]. intros H. cbn [app] in H.
    repeat (destruct H as [H|H]; [discriminate H|]). apply in_app_or in H. destruct H as [H|H]; [contradiction|]. cbn [app] in H. repeat (destruct H as [H|H]; [discriminate H|]). contradiction.
  - unfold splice_script.
    do 25 (rewrite run_names_cons; cbn [stm st_reads st_binds map forallb];
      repeat (match goal with |- context [existsb (str_eqb (lit ?a)) ?l] => replace (existsb (str_eqb (lit a)) l) with true by (symmetry; repeat first [reflexivity | rewrite existsb_app | rewrite Bool.orb_true_r | cbn [app existsb]; match goal with |- context [str_eqb (lit a) (lit ?b)] => let v := eval vm_compute in (str_eqb (lit a) (lit b)) in change (str_eqb (lit a) (lit b)) with v; cbn [orb] end]) end); cbn [andb]).
    eexists. reflexivity.
Qed.
Print Assumptions C117_base_name.

(** The files of arabic_char have the names of those of online_news; preeng is prgeng. *)
Theorem C117_same_names : (forall n, csv_name arabic_char n = csv_name online_news n) /\ arabic_char <> online_news /\ preeng = prgeng.
Proof. split; [reflexivity|]. split; [discriminate|reflexivity]. Qed.
Print Assumptions C117_same_names.

Example C117_ex : exists t10 t300, prelim_run glass (@ex_out R _) = ([(csv_name glass 10, t10); (csv_name glass 300, t300)], None) /\
  csv_name glass 300 = lit "../images/data_vis_depth_glass_class_tree300.csv" /\ length t300 = 24%nat.
Proof.
  destruct (C117_own glass TClass 100 ex_out) as (t10&t300&RN&_&L&_); [cbn; auto|intros k s; discriminate|]. exists t10, t300. split; [auto|]. split; [vm_compute; reflexivity|]. rewrite L. reflexivity.
Qed.

(** * C118: the data the scripts look at *)

(** What splice writes does not depend on the splice data, nor do microsoft, microsoft_class, moons and spiral read a file ... *)
Theorem C118_file_ignored : forall p (u u' : @outside R), In p [splice; microsoft; microsoft_class; moons; spiral] -> same_but_file u u' -> prelim_run p u' = prelim_run p u.
Proof.
  intros p u u' IN S. apply p_ignores_file; auto. cbn [In] in IN. repeat (destruct IN as [<-|IN]; [reflexivity|]). contradiction.
Qed.
Print Assumptions C118_file_ignored.

(** ... and given the same draws splice writes the same tables as microsoft_class, under its own name. *)
Theorem C118_splice_is_microsoft : forall (u : @outside R), snd (prelim_run splice u) = snd (prelim_run microsoft_class u) /\ map snd (fst (prelim_run splice u)) = map snd (fst (prelim_run microsoft_class u)).
Proof.
  intros u. assert (E : forall k ty n, sims splice u k ty n = sims microsoft_class u k ty n) by reflexivity. unfold prelim_run. rewrite !E.
  change (pl_type splice) with (pl_type microsoft_class). change (pl_type2 splice) with (pl_type2 microsoft_class). change (pl_band splice) with (pl_band microsoft_class).
  change (pl_range splice) with (pl_range microsoft_class). change (pl_own splice) with (pl_own microsoft_class).
  destruct (sims microsoft_class u 0 (pl_type microsoft_class) 10) as [A|e]; [|split; reflexivity]. destruct (depth_error_vis2 _ A _) as [t|e]; [|split; reflexivity].
  destruct (sims microsoft_class u 1 (pl_type2 microsoft_class) 300) as [B|e]; [|split; reflexivity]. destruct (depth_error_vis2 _ _ _) as [t'|e]; split; reflexivity.
Qed.
Print Assumptions C118_splice_is_microsoft.

(** The other scripts look at the data they read only. *)
Theorem C118_made_ignored : forall p (u u' : @outside R), In p [arabic_char; glass; online_news; preeng; prgeng; tania; titantic] -> same_but_made u u' -> prelim_run p u' = prelim_run p u.
Proof.
  intros p u u' IN S. apply p_ignores_made; auto. cbn [In] in IN. repeat (destruct IN as [<-|IN]; [reflexivity|]). contradiction.
Qed.
Print Assumptions C118_made_ignored.

(** In spiral every observation, for training and for testing, has its label as its fourth feature ... *)
Theorem C118_spiral_leak : forall (rows : list (@srow R)) is, (forall i, In i is -> (i < length rows)%nat) ->
  forall o, (o < length is)%nat -> let d := pick (spiral_frame rows) is in nth 3 (nth o (fst d) []) 0 = nth o (snd d) 0 /\ length (nth o (fst d) []) = 4%nat.
Proof. exact p_leak. Qed.
Print Assumptions C118_spiral_leak.

(** ... so that reading it off scores 1. *)
Theorem C118_spiral_perfect : forall (rows : list (@srow R)) is, is <> [] -> (forall i, In i is -> (i < length rows)%nat) ->
  let d := pick (spiral_frame rows) is in scoring TClass (snd d) (map (fun x => nth 3 x 0) (fst d)) = Ok 1.
Proof. exact p_leak_score. Qed.
Print Assumptions C118_spiral_perfect.

(** three rows of three classes, and a tree that splits on the fourth feature alone: every prediction is right although t, x, y are the same *)
Definition leak_rows : list (@srow Q) := map (fun c => {| sr_index := c; sr_t := 1%Q; sr_x := 1%Q; sr_y := 1%Q; sr_class := c |}) [0; 1; 2]%nat.
Definition leak_tree : tree Q := mkTree [1; -1; 3; -1; -1]%Z [2; -1; 4; -1; -1]%Z [3; 0; 3; 0; 0]%nat [1#2; 0; 3#2; 0; 0]%Q
  [[1;1;1]; [1;0;0]; [0;1;1]; [0;1;0]; [0;0;1]]%Q [3;1;2;1;1]%Q [1;0;1;0;0]%Q.
Example C118_ex_leak : map (forest_predict (Class 3) [0;1;2]%Q [leak_tree]) (fst (spiral_frame leak_rows)) = snd (spiral_frame leak_rows).
Proof. vm_compute. reflexivity. Qed.
Example C118_ex : same_but_file (@ex_out R _) {| u_file := ([], []); u_make := u_make ex_out; u_split := u_split ex_out; u_fit := u_fit ex_out |}.
Proof. repeat split. Qed.
