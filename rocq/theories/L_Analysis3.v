(** L_Analysis3: the stored results of the analysis scripts, one by one. *)
From Coq Require Import Ascii Reals Lra Lia.
From Coq Require Strings.String.
From Verif Require Import Base TreeSpec Spec M_Tree M_Gamma M_Levels M_Grad M_Sgd M_Smooth M_Clean M_Analysis SpecSmooth SpecTune SpecClean SpecAnalysis.
From Verif Require Import L_Base L_Sgd L_More L_Clean3 L_Analysis L_Analysis2 L_Smooth3.
Import Coq.Strings.String.StringSyntax.
Local Open Scope string_scope.
Local Open Scope list_scope.

Section Gen.
Context {T : Type} {NT : Num T}.

Lemma no_comma_style : forall s, In s opt_styles -> ~ In ","%char s.
Proof. intros s [<-|[<-|[]]]; cbn; intuition discriminate. Qed.
Lemma no_comma_inner : forall s, In s opt_inners -> ~ In ","%char s.
Proof. intros s [<-|[<-|[<-|[]]]]; cbn; intuition discriminate. Qed.

Lemma common_in : forall kd st seed (p : params T), common_job kd st seed p <->
  In (p_style p) st /\ In (p_inner p) opt_inners /\ In (p_nocons p) (opt_nocons kd) /\ In (p_lamb p) [Some seed; None].
Proof.
  intros kd st seed p. unfold common_job, opt_inners, opt_nocons. cbn [In]. split.
  - intros (A&B&C&D). split; auto. split; [intuition|]. split; [|intuition]. destruct kd; cbn [In]; [destruct (p_nocons p); auto|]. destruct (p_nocons p); auto. discriminate C; auto.
  - intros (A&B&C&D). split; auto. split; [intuition|]. split; [|intuition]. intros E. destruct kd; auto. destruct C as [C|[]]. congruence.
Qed.
Lemma bool_in : forall b, In b [true; false].
Proof. intros []; cbn; auto. Qed.

Lemma clean_grid_in : forall kd seed al b1 b0 ep (p : params T), In p (clean_grid kd seed al b1 b0 ep) <-> clean_job kd seed al b1 b0 ep p.
Proof.
  intros kd seed al b1 b0 ep p. unfold clean_grid, clean_job. rewrite all_params_in, common_in. cbn [In]. rewrite opt_adams_in. fold opt_styles. unfold opt_styles. cbn [In].
  pose proof (bool_in (p_parents p)) as B. cbn [In] in B.
  assert (X : None = p_adam p <-> p_adam p = None) by (split; auto). assert (Y : L2 = p_loss p <-> p_loss p = L2) by (split; auto). rewrite X, Y. tauto.
Qed.
Lemma old_grid_in : forall kd st seed al b1 b0 ep (p : params T), In p (old_grid kd st seed al b1 b0 ep) <-> old_job kd st seed al b1 b0 ep p.
Proof.
  intros kd st seed al b1 b0 ep p. unfold old_grid, old_job. rewrite all_params_in, common_in, opt_adams_in.
  assert (Y : In (p_loss p) (opt_losses kd) <-> (p_loss p = CE -> kd <> Reg)).
  { unfold opt_losses. destruct kd; cbn [In]; destruct (p_loss p); split; intros H; try tauto; try discriminate; intuition congruence. }
  rewrite Y. pose proof (bool_in (p_parents p)) as B. tauto.
Qed.

Lemma lambs_nodup : forall seed : nat, NoDup [Some seed; None].
Proof. intros seed. repeat constructor; cbn; intuition discriminate. Qed.
Lemma styles_nodup : NoDup opt_styles.
Proof. unfold opt_styles. repeat constructor; cbn; intuition discriminate. Qed.
Lemma inners_nodup : NoDup opt_inners.
Proof. unfold opt_inners. repeat constructor; cbn; intuition discriminate. Qed.
Lemma bools_nodup : NoDup [true; false].
Proof. repeat constructor; cbn; intuition discriminate. Qed.
Lemma nocons_nodup : forall kd, NoDup (opt_nocons kd).
Proof. intros [|k]; cbn; repeat constructor; cbn; intuition discriminate. Qed.

Lemma start_sc_nodup : forall a b : T, NoDup (map fst (start_scoring a b)) /\ holds (start_scoring a b) (lit "rf_base") [a] /\ holds (start_scoring a b) (lit "depth_tune") [b].
Proof.
  intros a b. split; [|split]; cbn -[lit].
  - repeat constructor; cbn; intuition discriminate.
  - intros v. cbn. split; [intros [H|[H|[]]]; congruence|intros ->; auto].
  - intros v. cbn. split; [intros [H|[H|[]]]; congruence|intros ->; auto].
Qed.
Lemma start_inf_nodup : forall s (b : list T), NoDup (map fst (start_info s b)) /\ holds (start_info s b) (lit "seed") [nof s] /\ holds (start_info s b) (lit "depth_tune") b.
Proof.
  intros s b. split; [|split]; cbn -[lit].
  - repeat constructor; cbn; intuition discriminate.
  - intros v. cbn. split; [intros [H|[H|[]]]; congruence|intros ->; auto].
  - intros v. cbn. split; [intros [H|[H|[]]]; congruence|intros ->; auto].
Qed.

Lemma key_inj : forall a b, key_of a = key_of b -> a = b.
Proof. intros a b. unfold key_of. apply app_inv_head. Qed.

Variables (fs : T -> str) (al b1 b0 ep : list T).
Hypothesis PR : prints fs (al ++ b1 ++ b0 ++ ep).

Lemma clean_names : forall kd seed levels p q, clean_job kd seed al b1 b0 ep p -> clean_job kd seed al b1 b0 ep q -> clean_name fs levels p = clean_name fs levels q -> p = q.
Proof.
  intros kd seed levels p q (A&B&C) (A'&B'&C') E. apply common_in in A, A'.
  assert (S : same_but_loss p q).
  { apply (clean_name_inj fs al b1 b0 ep PR levels); auto; try (apply no_comma_style; tauto); try (apply no_comma_inner; tauto). }
  destruct S as (E1&E2&E3&E4&E5&E6). destruct p, q. cbn in *. congruence.
Qed.

Lemma old_names : forall both kd st seed levels p q, styles_fine both st -> old_job kd st seed al b1 b0 ep p -> old_job kd st seed al b1 b0 ep q ->
  old_name both fs levels p = old_name both fs levels q -> same_but_loss p q.
Proof.
  intros both kd st seed levels p q SF (A&B&C) (A'&B'&C') E. apply common_in in A, A'. apply (old_name_inj fs al b1 b0 ep PR both levels); auto; try (right; assumption); try (apply no_comma_inner; tauto).
  destruct both; cbn in SF.
  - destruct SF as [_ SF]. split; apply SF; tauto.
  - destruct SF as (s&->). destruct A as ([A|[]]&_), A' as ([A'|[]]&_). congruence.
Qed.
Lemma old_name_loss : forall both levels p q, same_but_loss p q -> old_name both fs levels p = old_name both fs levels q.
Proof. intros both levels p q (E1&E2&E3&E4&E5&E6). unfold old_name. rewrite E1, E2, E3, E4, E5, E6. reflexivity. Qed.
End Gen.

Section Stored.
Context {T : Type} {NT : Num T}.

Lemma in_len : forall A (a b : list A), NoDup a -> NoDup b -> (forall x, In x a <-> In x b) -> length a = length b.
Proof. exact nodup_same_length. Qed.

Lemma fill_count : forall name run assess (jobs reps : list (params T)) (sc inf sc' inf' : sdict (list T)),
  fill name run assess jobs sc inf = Ok (sc', inf') -> NoDup (map fst sc) -> NoDup (map fst inf) ->
  NoDup reps -> incl reps jobs -> (forall p, In p jobs -> exists q, In q reps /\ name p = name q) -> (forall p q, In p reps -> In q reps -> name p = name q -> p = q) ->
  (forall p k, In k (map fst sc) \/ In k (map fst inf) -> k <> key_of (name p)) ->
  length sc' = length sc + length reps /\ length inf' = length inf + length reps.
Proof.
  intros name run assess jobs reps sc inf sc' inf' HF N1 N2 NR IR COV INJ DIS. destruct (fill_keys _ _ _ _ _ _ _ _ HF N1 N2) as (K1&D1&K2&D2).
  assert (NK : NoDup (map (fun p => key_of (name p)) reps)).
  { clear -NR INJ. induction NR as [|p l NI NR IH]; cbn; constructor.
    - intros H. apply in_map_iff in H. destruct H as (q&E&Hq). apply key_inj in E. apply NI. rewrite (INJ p q); auto; [left|right]; auto.
    - apply IH. intros a b Ha Hb. apply INJ; right; auto. }
  assert (SK : forall k, In k (map (fun p => key_of (name p)) jobs) <-> In k (map (fun p => key_of (name p)) reps)).
  { intros k. split; intros H; apply in_map_iff in H; destruct H as (p&<-&Hp); apply in_map_iff.
    - destruct (COV p Hp) as (q&Hq&->). eauto.
    - eauto. }
  assert (NA : forall a b : list str, NoDup a -> NoDup b -> (forall x, In x a -> ~ In x b) -> NoDup (a ++ b)).
  { clear. induction a as [|x a IH]; intros b H1 H2 H; auto. cbn. apply NoDup_cons_iff in H1. destruct H1 as [H3 H1]. constructor.
    - intros C. apply in_app_or in C. destruct C as [C|C]; auto. apply (H x); auto. left. auto.
    - apply IH; auto. intros y Hy. apply H. right. auto. }
  assert (G : forall (d d' : sdict (list T)), NoDup (map fst d) -> NoDup (map fst d') -> (forall p k, In k (map fst d) -> k <> key_of (name p)) ->
    (forall k, In k (map fst d') <-> In k (map (fun p => key_of (name p)) jobs) \/ In k (map fst d)) -> length d' = length d + length reps).
  { intros d d' Nd Nd' DI K. rewrite <- (map_length fst d'), <- (map_length fst d), <- (map_length (fun p => key_of (name p)) reps), <- app_length.
    apply nodup_same_length; auto.
    - apply NA; auto. intros x Hx Hy. apply in_map_iff in Hy. destruct Hy as (p&<-&Hp). eapply DI; eauto.
    - intros k. rewrite K, SK, in_app_iff. tauto. }
  split; apply G; auto; intros p k H; apply DIS; auto.
Qed.

Variables (fs : T -> str) (al b1 b0 ep : list T).
Hypothesis PR : prints fs (al ++ b1 ++ b0 ++ ep).
Hypothesis (N1 : NoDup al) (N2 : NoDup b1) (N3 : NoDup b0) (N4 : NoDup ep).

Lemma holds_fill : forall name run assess jobs (sc inf sc' inf' : sdict (list T)), fill name run assess jobs sc inf = Ok (sc', inf') -> NoDup (map fst sc) -> NoDup (map fst inf) ->
  forall k v, (forall p, k <> key_of (name p)) -> (holds sc k v -> holds sc' k v) /\ (holds inf k v -> holds inf' k v).
Proof.
  intros name run assess jobs sc inf sc' inf' HF D1 D2 k v NK.
  assert (NJ : ~ In k (map (fun p => key_of (name p)) jobs)) by (intros H; apply in_map_iff in H; destruct H as (p&E&_); apply (NK p); auto).
  split; intros H v'; rewrite <- (H v'); apply (fill_other _ _ _ _ _ _ _ _ HF D1 D2 k v' NJ).
Qed.

Lemma clean_stored : forall other kd ts X y levels rng oob draws seed assess dsc dl sc inf,
  analysis_clean other fs kd ts X y levels rng oob draws seed al b1 b0 ep assess dsc dl = Ok (sc, inf) ->
  (forall p, clean_job kd seed al b1 b0 ep p -> exists f lamb c m, clean_run other (Forest kd ts) X y levels rng oob draws p = Ok (f, lamb, c) /\ np_min c = Ok m /\
     holds sc (key_of (clean_name fs levels p)) [assess f; m] /\ holds inf (key_of (clean_name fs levels p)) lamb) /\
  holds sc (lit "rf_base") [assess ts] /\ holds sc (lit "depth_tune") [dsc] /\ holds inf (lit "seed") [nof seed] /\ holds inf (lit "depth_tune") dl /\
  length sc = 2 + 2 * 3 * 2 * n_nocons kd * 2 * (1 + length al * length b1 * length b0 * length ep) /\
  length inf = 2 + 2 * 3 * 2 * n_nocons kd * 2 * (1 + length al * length b1 * length b0 * length ep).
Proof.
  intros other kd ts X y levels rng oob draws seed assess dsc dl sc inf H. unfold analysis_clean in H.
  destruct (start_sc_nodup (assess ts) dsc) as (S1&S2&S3). destruct (start_inf_nodup seed dl) as (I1&I2&I3).
  assert (INJ : forall p q, In p (clean_grid kd seed al b1 b0 ep) -> In q (clean_grid kd seed al b1 b0 ep) -> clean_name fs levels p = clean_name fs levels q -> p = q).
  { intros p q Hp Hq E. eapply clean_names; eauto; eapply clean_grid_in; eauto. }
  assert (NKS : forall p k, In k (map fst (start_scoring (assess ts) dsc)) \/ In k (map fst (start_info seed dl)) -> k <> key_of (clean_name fs levels p)).
  { intros p k Hk. apply key_no_start. cbn [start_scoring start_info sdict_set map fst In] in Hk |- *. cbn in Hk. intuition. }
  assert (ND : NoDup (clean_grid kd seed al b1 b0 ep)).
  { apply all_params_nodup; auto using styles_nodup, inners_nodup, bools_nodup, nocons_nodup, lambs_nodup.
    - repeat constructor; intros [].
    - constructor; [|apply opt_adams_nodup; auto]. intros HI. apply opt_adams_in in HI. destruct HI as (?&?&?&?&?&_). discriminate. }
  split; [|].
  - intros p Hp. apply clean_grid_in in Hp.
    assert (SP : splits (fun p => key_of (clean_name fs levels p)) (clean_grid kd seed al b1 b0 ep) p).
    { apply in_split in Hp. destruct Hp as (j1&j2&EJ). exists j1, j2. split; auto. intros q Hq E. apply key_inj in E.
      assert (q = p) by (apply INJ; rewrite ?EJ; try apply in_or_app; cbn; auto; right; right; auto). subst q. rewrite EJ in ND. apply NoDup_remove_2 in ND. apply ND. apply in_or_app. auto. }
    destruct (fill_entry _ _ _ _ _ _ _ _ H S1 I1 p SP) as (s&l&(f&lamb&c&m&E1&E2&->&->)&H1&H2). exists f, lamb, c, m. auto.
  - assert (HO := holds_fill _ _ _ _ _ _ _ _ H S1 I1).
    split; [apply HO; auto; intros p; apply key_no_start; cbn; auto|]. split; [apply HO; auto; intros p; apply key_no_start; cbn; auto|].
    split; [apply HO; auto; intros p; apply key_no_start; cbn; auto|]. split; [apply HO; auto; intros p; apply key_no_start; cbn; auto|].
    destruct (fill_count _ _ _ _ _ _ _ _ _ H S1 I1 ND (incl_refl _)) as [-> ->]; auto. { intros p Hp. eauto. }
    assert (LG : length (clean_grid kd seed al b1 b0 ep) = 2 * 3 * 2 * n_nocons kd * 2 * (1 + length al * length b1 * length b0 * length ep)).
    { unfold clean_grid. rewrite all_params_length. cbn [length opt_styles opt_inners]. rewrite opt_adams_length. destruct kd; cbn [opt_nocons length n_nocons]; lia. }
    rewrite LG. cbn [length start_scoring start_info]. split; reflexivity.
Qed.

Lemma wols_start : forall kd wols (a b : T) seed dl s0 i0, add_wols kd wols (start_scoring a b, start_info seed dl) = (s0, i0) ->
  NoDup (map fst s0) /\ NoDup (map fst i0) /\ length s0 = n_start kd /\ length i0 = n_start kd /\
  holds s0 (lit "rf_base") [a] /\ holds s0 (lit "depth_tune") [b] /\ holds i0 (lit "seed") [nof seed] /\ holds i0 (lit "depth_tune") dl /\
  (forall k, In k (map fst s0) \/ In k (map fst i0) -> forall nm, k <> key_of nm) /\
  (kd = Reg -> forall pa nc, holds s0 (wols_name pa nc) [fst (wols pa nc)] /\ holds i0 (wols_name pa nc) (snd (wols pa nc))).
Proof.
  intros kd wols a b seed dl s0 i0 H.
  assert (NK : forall l k, (forall k, In k l -> In k [lit "rf_base"; lit "depth_tune"; lit "seed"; wols_name true true; wols_name true false; wols_name false true; wols_name false false]) -> In k l -> forall nm, k <> key_of nm).
  { intros l k Hl Hk nm. apply key_no_start. auto. }
  destruct kd as [|K].
  - cbv [add_wols flat_map map app fold_left] in H. injection H as <- <-. vm_compute.
    split. { repeat constructor; cbn; intuition discriminate. } split. { repeat constructor; cbn; intuition discriminate. } split; [reflexivity|]. split; [reflexivity|].
    split. { intros v. split; [intros X; repeat (destruct X as [X|X]; [congruence|]); destruct X|intros ->; auto 10]. }
    split. { intros v. split; [intros X; repeat (destruct X as [X|X]; [congruence|]); destruct X|intros ->; auto 10]. }
    split. { intros v. split; [intros X; repeat (destruct X as [X|X]; [congruence|]); destruct X|intros ->; auto 10]. }
    split. { intros v. split; [intros X; repeat (destruct X as [X|X]; [congruence|]); destruct X|intros ->; auto 10]. }
    split. { intros k Hk nm E. subst k. destruct Hk as [Hk|Hk]; repeat (destruct Hk as [Hk|Hk]; [discriminate Hk|]); exact Hk. }
    intros _ [] []; (split; intros v; (split; [intros X; repeat (destruct X as [X|X]; [congruence|]); destruct X|intros ->; auto 10])).
  - cbn [add_wols] in H. injection H as <- <-. destruct (start_sc_nodup a b) as (A&B&C). destruct (start_inf_nodup seed dl) as (A'&B'&C').
    repeat (split; [solve [auto]|]). split; [|discriminate]. intros k Hk nm E. subst k. vm_compute in Hk. destruct Hk as [Hk|Hk]; repeat (destruct Hk as [Hk|Hk]; [discriminate Hk|]); exact Hk.
Qed.

Lemma old_stored : forall both lg st kd ts X y levels rng rd seed assess dsc dl wols sc inf, styles_fine both st ->
  analysis_old both lg fs st kd ts X y levels rng rd seed al b1 b0 ep assess dsc dl wols = Ok (sc, inf) ->
  (forall p, old_job kd st seed al b1 b0 ep p -> exists f lamb c m, old_run lg (Forest kd ts) X y levels rng rd (with_l2 p) = Ok (f, lamb, c) /\ np_min c = Ok m /\
     holds sc (key_of (old_name both fs levels p)) [assess f; m] /\ holds inf (key_of (old_name both fs levels p)) lamb) /\
  holds sc (lit "rf_base") [assess ts] /\ holds sc (lit "depth_tune") [dsc] /\ holds inf (lit "seed") [nof seed] /\ holds inf (lit "depth_tune") dl /\
  (kd = Reg -> forall pa nc, holds sc (wols_name pa nc) [fst (wols pa nc)] /\ holds inf (wols_name pa nc) (snd (wols pa nc))) /\
  length sc = n_start kd + length st * 3 * 2 * n_nocons kd * 2 * (length al * length b1 * length b0 * length ep) /\
  length inf = n_start kd + length st * 3 * 2 * n_nocons kd * 2 * (length al * length b1 * length b0 * length ep).
Proof.
  intros both lg st kd ts X y levels rng rd seed assess dsc dl wols sc inf SF H. unfold analysis_old in H.
  destruct (add_wols kd wols (start_scoring (assess ts) dsc, start_info seed dl)) as [s0 i0] eqn:EW. cbv beta iota in H.
  destruct (wols_start _ _ _ _ _ _ _ _ EW) as (S1&I1&LS&LI&W1&W2&W3&W4&NKS&WW).
  assert (NS : NoDup st). { destruct both; cbn in SF; [tauto|]. destruct SF as (s&->). repeat constructor; intros []. }
  assert (INJ : forall p q, In p (old_grid kd st seed al b1 b0 ep) -> In q (old_grid kd st seed al b1 b0 ep) -> old_name both fs levels p = old_name both fs levels q -> same_but_loss p q).
  { intros p q Hp Hq E. eapply old_names; eauto; eapply old_grid_in; eauto. }
  assert (EL : exists lo0, opt_losses kd = lo0 ++ [L2]) by (destruct kd; [exists []|exists [CE]]; reflexivity). destruct EL as (lo0&EL).
  assert (WJ : forall p, In p (old_grid kd st seed al b1 b0 ep) -> In (with_l2 p) (old_grid kd st seed al b1 b0 ep)).
  { intros p Hp. apply old_grid_in. apply old_grid_in in Hp. destruct Hp as (A&B&C). split; [exact A|]. split; [discriminate|exact C]. }
  assert (SB : forall p : params T, same_but_loss (with_l2 p) p) by (intros p; repeat split).
  split; [|].
  - intros p Hp. apply old_grid_in in Hp.
    assert (SP : splits (fun p => key_of (old_name both fs levels p)) (old_grid kd st seed al b1 b0 ep) (with_l2 p)).
    { pose proof (WJ p Hp) as Hw. unfold old_grid in *. rewrite EL in *. apply grid_splits; auto using inners_nodup, bools_nodup, nocons_nodup, lambs_nodup.
      - apply opt_adams_nodup; auto.
      - intros q Hq E. apply key_inj in E. apply INJ; auto. }
    destruct (fill_entry _ _ _ _ _ _ _ _ H S1 I1 (with_l2 p) SP) as (s&l&(f&lamb&c&m&E1&E2&->&->)&H1&H2). exists f, lamb, c, m.
    rewrite <- (old_name_loss fs both levels (with_l2 p) p (SB p)). auto.
  - assert (HO := holds_fill _ _ _ _ _ _ _ _ H S1 I1).
    assert (KN : forall k nm, In k [lit "rf_base"; lit "depth_tune"; lit "seed"; wols_name true true; wols_name true false; wols_name false true; wols_name false false] -> k <> key_of nm) by (intros; apply key_no_start; auto).
    split; [apply HO; auto; intros p; apply KN; cbn; auto|]. split; [apply HO; auto; intros p; apply KN; cbn; auto|].
    split; [apply HO; auto; intros p; apply KN; cbn; auto|]. split; [apply HO; auto; intros p; apply KN; cbn; auto|].
    split. { intros ER pa nc. destruct (WW ER pa nc) as [Wa Wb]. split; apply HO; auto; intros p; apply KN; destruct pa, nc; cbn [In]; auto 10. }
    set (reps := all_params st opt_inners [true; false] (opt_nocons kd) [Some seed; None] [L2] (opt_adams al b1 b0 ep)).
    assert (RI : forall p, In p reps <-> In p (old_grid kd st seed al b1 b0 ep) /\ p_loss p = L2).
    { intros p. unfold reps, old_grid. rewrite !all_params_in, EL, in_app_iff. cbn [In]. intuition. }
    assert (NR : NoDup reps).
    { apply all_params_nodup; auto using inners_nodup, bools_nodup, nocons_nodup, lambs_nodup; [repeat constructor; intros []|apply opt_adams_nodup; auto]. }
    destruct (fill_count _ _ _ _ reps _ _ _ _ H S1 I1 NR) as [-> ->].
    + intros p Hp. apply RI in Hp. tauto.
    + intros p Hp. exists (with_l2 p). split; [apply RI; split; auto|]. apply old_name_loss. repeat split.
    + intros p q Hp Hq E. apply RI in Hp, Hq. destruct Hp as [Hp Lp], Hq as [Hq Lq]. destruct (INJ p q Hp Hq E) as (E1&E2&E3&E4&E5&E6). destruct p, q. cbn in *. congruence.
    + intros p k Hk. apply NKS. auto.
    + assert (LG : length reps = length st * 3 * 2 * n_nocons kd * 2 * (length al * length b1 * length b0 * length ep)).
      { unfold reps. rewrite all_params_length. cbn [length opt_inners]. rewrite opt_adams_length. destruct kd; cbn [opt_nocons length n_nocons]; lia. }
      rewrite LG, LS, LI. auto.
Qed.
End Stored.

(** ** failures *)
Section Fail.
Context {T : Type} {NT : Num T}.
Lemma fill_bad : forall name run assess (jobs : list (params T)) sc inf p, In p jobs -> (forall r, run p <> Ok r) -> forall r, fill name run assess jobs sc inf <> Ok r.
Proof.
  intros name run assess jobs sc inf p Hp Hr [a b] H. unfold fill in H. apply bind_ok in H. destruct H as (os&E&_). revert os E Hp.
  induction jobs as [|q jobs IH]; intros os E Hp; [destruct Hp|]. cbn [mapM] in E. apply bind_ok in E. destruct E as (o&E1&E). apply bind_ok in E. destruct E as (os'&E2&_).
  destruct Hp as [->|Hp]; [|eapply IH; eauto]. unfold wrapper in E1. apply bind_ok in E1. destruct E1 as (o'&E1&_). eapply Hr; eauto.
Qed.

Lemma dist_imp : forall pa, @dist_of T (lit "impurity") pa None = Err ValueError.
Proof. reflexivity. Qed.

Lemma clean_class : forall other fs k (ts : list (tree T)) X y levels rng oob draws seed al b1 b0 ep assess dsc dl,
  analysis_clean other fs (Class k) ts X y levels rng oob draws seed al b1 b0 ep assess dsc dl = Err ValueError.
Proof. reflexivity. Qed.

Lemma clean_nolevels : forall other fs kd (ts : list (tree T)) X y rng oob draws seed al b1 b0 ep assess dsc dl r,
  analysis_clean other fs kd ts X y None rng oob draws seed al b1 b0 ep assess dsc dl <> Ok r.
Proof.
  intros. unfold analysis_clean. apply (fill_bad _ _ _ _ _ _ {| p_style := lit "impurity"; p_inner := lit "max"; p_parents := false; p_nocons := false; p_lamb := None; p_loss := L2; p_adam := None |}).
  - apply clean_grid_in. split; [|split; [reflexivity|left; reflexivity]]. split; [right; left; reflexivity|]. split; [right; left; reflexivity|]. split; [discriminate|right; reflexivity].
  - intros r'. unfold clean_run, clean_call. cbn [p_style p_parents]. rewrite dist_imp. discriminate.
Qed.

Lemma old_nolevels : forall both lg fs st kd (ts : list (tree T)) X y rng rd seed al b1 b0 ep assess dsc dl wols r, In (lit "impurity") st ->
  al <> [] -> b1 <> [] -> b0 <> [] -> ep <> [] ->
  analysis_old both lg fs st kd ts X y None rng rd seed al b1 b0 ep assess dsc dl wols <> Ok r.
Proof.
  intros both lg fs st kd ts X y rng rd seed al b1 b0 ep assess dsc dl wols r HI A B C D. unfold analysis_old. destruct (add_wols _ _ _) as [s0 i0].
  destruct al as [|a1 al]; [congruence|]. destruct b1 as [|a2 b1]; [congruence|]. destruct b0 as [|a3 b0]; [congruence|]. destruct ep as [|a4 ep]; [congruence|].
  apply (fill_bad _ _ _ _ _ _ {| p_style := lit "impurity"; p_inner := lit "max"; p_parents := false; p_nocons := false; p_lamb := None; p_loss := L2; p_adam := Some (a1, a2, a3, a4) |}).
  - apply old_grid_in. split; [|split; [discriminate|]]. split; [auto|]. split; [right; left; reflexivity|]. split; [discriminate|right; reflexivity].
    exists a1, a2, a3, a4. cbn. auto 10.
  - intros r'. unfold old_run, old_call. cbn [p_style p_adam]. rewrite dist_imp. discriminate.
Qed.

Lemma old_parents : forall lg (rf : rf_object T) X y levels rng rd p, rd (other_parents p) = rd p ->
  old_run lg rf X y levels rng rd (other_parents p) = old_run lg rf X y levels rng rd p.
Proof. intros lg rf X y levels rng rd p E. unfold old_run, old_call. cbn [other_parents p_adam p_style p_inner p_nocons p_lamb p_loss]. rewrite E. reflexivity. Qed.
End Fail.

Lemma old_parents_name : forall both lg fs (rf : rf_object R) X y levels rng rd p, rd (other_parents p) = rd p ->
  old_run lg rf X y levels rng rd (other_parents p) = old_run lg rf X y levels rng rd p /\
  old_name both fs levels (other_parents p) <> old_name both fs levels p.
Proof.
  intros both lg fs rf X y levels rng rd p E. split; [apply old_parents; auto|]. intros H. unfold old_name in H. cbn [other_parents p_adam p_style p_inner p_nocons p_lamb p_loss p_parents] in H.
  repeat apply app_inv_head in H. destruct (p_parents p); cbn in H; discriminate.
Qed.

Lemma old_class : forall both lg fs st k (ts : list (tree R)) X y levels rng rd seed al b1 b0 ep assess dsc dl wols r,
  st <> [] -> al <> [] -> b1 <> [] -> b0 <> [] -> ep <> [] -> (forall p, r_draws (rd p) <> []) ->
  analysis_old both lg fs st (Class k) ts X y levels rng rd seed al b1 b0 ep assess dsc dl wols <> Ok r.
Proof.
  intros both lg fs st k ts X y levels rng rd seed al b1 b0 ep assess dsc dl wols r SN A B C D DR. unfold analysis_old. destruct (add_wols _ _ _) as [s0 i0].
  destruct st as [|s1 st]; [congruence|]. destruct al as [|a1 al]; [congruence|]. destruct b1 as [|a2 b1]; [congruence|]. destruct b0 as [|a3 b0]; [congruence|]. destruct ep as [|a4 ep]; [congruence|].
  apply (fill_bad _ _ _ _ _ _ {| p_style := s1; p_inner := lit "max"; p_parents := false; p_nocons := false; p_lamb := None; p_loss := CE; p_adam := Some (a1, a2, a3, a4) |}).
  - apply old_grid_in. split; [|split; [discriminate|]]. split; [left; auto|]. split; [right; left; reflexivity|]. split; [discriminate|right; reflexivity].
    exists a1, a2, a3, a4. cbn. auto 10.
  - intros r' H. unfold old_run in H. apply bind_ok in H. destruct H as (o&EO&H). apply bind_ok in H. destruct H as (s&HS&_).
    unfold old_call in EO. cbn [p_style p_adam p_inner p_nocons p_lamb p_loss] in EO. apply bind_ok in EO. destruct EO as (d&_&EO). apply bind_ok in EO. destruct EO as (sy&_&EO).
    destruct (p_C22 lg k ts o (rd {| p_style := s1; p_inner := lit "max"; p_parents := false; p_nocons := false; p_lamb := None; p_loss := CE; p_adam := Some (a1, a2, a3, a4) |})) as (e&HE); auto; [injection EO as <-; reflexivity|injection EO as <-; reflexivity|].
    rewrite HS in HE. discriminate.
Qed.

Section Calls.
Context {T : Type} {NT : Num T}.
Lemma inner_style : forall s, In s opt_inners -> exists d, style_of s = Ok d /\ inner_means s d.
Proof. intros s [<-|[<-|[<-|[]]]]; eexists; (split; [reflexivity|]); [left|right; left|right; right]; auto. Qed.
Lemma dist_style : forall s pa levels, In s opt_styles -> (s = lit "impurity" -> levels <> None) -> exists d, @dist_of T s pa levels = Ok d /\ dist_means s pa levels d.
Proof.
  intros s pa levels [<-|[<-|[]]] HL.
  - eexists. split; [reflexivity|]. left. auto.
  - destruct levels as [n|]; [|exfalso; apply HL; auto]. eexists. split; [reflexivity|]. right. eauto.
Qed.
Lemma adam_style : forall a : option (T * T * T * T), adam_means a (option_map adam_of a).
Proof. intros [[[[x y] z] w]|]; cbn; auto. Qed.

Lemma clean_asks : forall kd seed al b1 b0 ep X (y : list T) levels rng p, clean_job kd seed al b1 b0 ep p -> (p_style p = lit "impurity" -> levels <> None) ->
  exists o, asks_clean X y levels rng p o /\ forall other ts oob draws, modelled p -> clean_run other (Forest kd ts) X y levels rng oob draws p = smooth_clean (Forest kd ts) o oob (draws p).
Proof.
  intros kd seed al b1 b0 ep X y levels rng p (HC&_) HL. apply common_in in HC. destruct HC as (A&B&_).
  destruct (dist_style _ (p_parents p) levels A HL) as (d&ED&MD). destruct (inner_style _ B) as (s&ES&MS).
  exists {| k_X := X; k_y := y; k_no_constraint := p_nocons p; k_sanity := false; k_t_fix := n1; k_all_obs := false; k_use_full := true; k_n_obs := 40; k_lamb_draws := option_map rng (p_lamb p);
        k_style := s; k_dist := d; k_adam := option_map adam_of (p_adam p) |}. split.
  - do 8 (split; [reflexivity|]). split; [cbn; destruct (p_lamb p); cbn; auto|]. split; [exact MS|]. split; [exact MD|]. apply adam_style.
  - intros other ts oob draws MO. unfold clean_run, clean_call. rewrite ED, ES. cbn [bind k_dist]. destruct MD as [[E ->]|[E (n&_&->)]]; auto.
    destruct MO as [MO|MO]; [rewrite MO in E; discriminate|]. rewrite MO. reflexivity.
Qed.

Lemma old_asks : forall kd st seed al b1 b0 ep X (y : list T) levels rng p, old_job kd st seed al b1 b0 ep p -> In (p_style p) opt_styles -> (p_style p = lit "impurity" -> levels <> None) ->
  exists o, asks_old X y levels rng p o /\ forall lg ts rd,
    old_run lg (Forest kd ts) X y levels rng rd p = match smooth lg (Forest kd ts) o (rd p) with Ok s => Ok (s_forest s, s_lamb s, s_costs s) | Err e => Err e end.
Proof.
  intros kd st seed al b1 b0 ep X y levels rng p (HC&_&(a1&a2&a3&a4&EA&_)) A HL. apply common_in in HC. destruct HC as (_&B&_).
  destruct (dist_style _ false levels A HL) as (d&ED&MD). destruct (inner_style _ B) as (s&ES&MS).
  destruct (old_call X y levels rng p) as [o|e] eqn:EO; [|unfold old_call in EO; rewrite EA, ED, ES in EO; discriminate].
  exists o. split; [|intros lg ts rd; unfold old_run; rewrite EO; cbn [bind]; destruct (smooth lg (Forest kd ts) o (rd p)); reflexivity].
  unfold old_call in EO. rewrite EA, ED, ES in EO. injection EO as <-.
  do 10 (split; [reflexivity|]). split; [cbn; destruct (p_lamb p); cbn; auto|]. split; [exact MS|]. split; [exact MD|]. rewrite EA. cbn. auto.
Qed.
End Calls.

(** ** the clean script keeps the start *)
Lemma clean_best : forall other ts X (y : list R) levels rng oob draws p f lamb c, modelled p ->
  clean_run other (Forest Reg ts) X y levels rng oob draws p = Ok (f, lamb, c) ->
  exists o G E Ti, clean_call X y levels rng p = Ok o /\ clean_matrices o ts = Ok (G, E, Ti) /\ lamb = clean_start o (ncols (concat G)) /\
    write_forest (unflatten 1 (length E) (new_values (concat G) E lamb)) 0 ts = Ok f /\ smooth_clean (Forest Reg ts) o oob (draws p) = Ok (f, lamb, c).
Proof.
  intros other ts X y levels rng oob draws p f lamb c MO H. unfold clean_run in H. apply bind_ok in H. destruct H as (o&EO&H).
  assert (H' : smooth_clean (Forest Reg ts) o oob (draws p) = Ok (f, lamb, c)).
  { destruct (k_dist o) eqn:ED; auto. destruct MO as [MO|MO]; [|rewrite MO in H; auto]. exfalso. unfold clean_call in EO. rewrite MO in EO. cbn in EO. apply bind_ok in EO. destruct EO as (s&_&EO).
    injection EO as <-. discriminate. }
  clear H. assert (EO' := EO). unfold clean_call in EO. apply bind_ok in EO. destruct EO as (d&_&EO). apply bind_ok in EO. destruct EO as (s&_&EO).
  assert (F1 : k_sanity o = false) by (injection EO as <-; reflexivity). assert (F2 : (k_all_obs o || k_use_full o)%bool = true) by (injection EO as <-; reflexivity). clear EO d s.
  exists o. assert (H2 := H'). cbn [smooth_clean] in H2. apply bind_ok in H2. destruct H2 as ([[G E] Ti]&E1&H2). cbv beta iota in H2. apply bind_ok in H2. destruct H2 as ([idx w]&E2&H2). cbv beta iota zeta in H2.
  rewrite F1, F2 in H2. apply bind_ok in H2. destruct H2 as ([lamb' c']&E3&H2). apply bind_ok in H2. destruct H2 as (f'&E4&H2). injection H2 as <- <- <-.
  apply bind_ok in E3. destruct E3 as ([[b l] c2]&E3&E5). injection E5 as <- <-. exists G, E, Ti. split; auto. split; auto.
  assert (EB : b = clean_start o (ncols (concat G))).
  { destruct (draws p) as [|d ds].
    - unfold stocastic_grad_descent_clean in E3. destruct (negb _) in E3; [discriminate|]. destruct (negb (k_no_constraint o) && _)%bool in E3; discriminate.
    - assert (DN : d :: ds <> []) by discriminate. destruct (p_C35_traj _ _ _ _ _ _ _ _ _ _ _ DN E3) as (its&gs&_&_&_&_&_&_&_&_&B). exact B. }
  rewrite <- EB. auto.
Qed.

Lemma clean_same : forall other ts X (y : list R) levels rng oob draws p q f lamb c f' lamb' c', modelled p ->
  p_style p = p_style q -> p_inner p = p_inner q -> p_parents p = p_parents q -> p_lamb p = p_lamb q ->
  clean_run other (Forest Reg ts) X y levels rng oob draws p = Ok (f, lamb, c) ->
  clean_run other (Forest Reg ts) X y levels rng oob draws q = Ok (f', lamb', c') -> f = f' /\ lamb = lamb'.
Proof.
  intros other ts X y levels rng oob draws p q f lamb c f' lamb' c' MP A B C D HP HQ.
  assert (MQ : modelled q) by (unfold modelled in *; rewrite <- A, <- C; auto).
  destruct (clean_best _ _ _ _ _ _ _ _ _ _ _ _ MP HP) as (o&G&E&Ti&CP&MM&LP&WP&_). destruct (clean_best _ _ _ _ _ _ _ _ _ _ _ _ MQ HQ) as (o'&G'&E'&Ti'&CQ&MM'&LQ&WQ&_).
  unfold clean_call in CP, CQ. rewrite <- A, <- B, <- C, <- D in CQ. destruct (dist_of _ _ _) as [d|]; [|discriminate]. destruct (style_of _) as [s|]; [|discriminate].
  cbn [bind] in CP, CQ. injection CP as <-. injection CQ as <-. cbv [clean_matrices k_dist k_style] in MM, MM'. rewrite MM in MM'. injection MM' as <- <- <-.
  assert (EL : lamb = lamb') by (rewrite LP, LQ; reflexivity). subst lamb'. split; congruence.
Qed.

Lemma clean_base : forall other ts X (y : list R) levels rng oob draws p f lamb c, modelled p -> p_lamb p = None ->
  Forall wf_tree ts -> Forall (wf_values Reg) ts -> Forall pos_leaves ts -> ts <> [] ->
  (forall o, clean_call X y levels rng p = Ok o -> separated (as_smooth o) ts) ->
  clean_run other (Forest Reg ts) X y levels rng oob draws p = Ok (f, lamb, c) -> f = ts.
Proof.
  intros other ts X y levels rng oob draws p f lamb c MP PL W WV PO NE SEP H. destruct (clean_best _ _ _ _ _ _ _ _ _ _ _ _ MP H) as (o&G&E&Ti&CP&_&_&_&HS).
  apply (p_C35_smooth ts o oob (draws p) f lamb c HS W WV PO NE (SEP o CP)). right. unfold clean_call in CP.
  apply bind_ok in CP. destruct CP as (d&_&CP). apply bind_ok in CP. destruct CP as (s&_&CP). injection CP as <-. cbn. rewrite PL. auto.
Qed.

Lemma np_min_least : forall (l : list R) m, np_min l = Ok m <-> In m l /\ (forall x, In x l -> m <= x)%R.
Proof.
  assert (X : forall (l : list R) x, let m := fold_left (fun m y => if nltb y m then y else m) l x in (m = x \/ In m l) /\ (m <= x)%R /\ forall y, In y l -> (m <= y)%R).
  { induction l as [|a l IH]; intros x; cbn [fold_left]; [cbn; split; auto; split; [apply Rle_refl|intros _ []]|].
    change (nltb a x) with (Rltb a x). destruct (Rltb_spec a x) as [H|H].
    - destruct (IH a) as (A&B&C). cbn zeta. split; [right; destruct A as [->|A]; cbn; auto|]. split; [lra|]. intros y [<-|Hy]; auto.
    - destruct (IH x) as (A&B&C). cbn zeta. split; [destruct A as [->|A]; cbn; auto|]. split; [lra|]. intros y [<-|Hy]; auto. lra. }
  intros l m. destruct l as [|a l]; cbn [np_min]; [split; [discriminate|intros [[] _]]|]. destruct (X l a) as (A&B&C). split.
  - intros H. assert (EM : m = fold_left (fun m y => if nltb y m then y else m) l a) by congruence. rewrite EM. split; [destruct A as [A|A]; [left|right]; auto|]. intros x [<-|Hx]; auto.
  - intros [H1 H2]. f_equal. apply Rle_antisym.
    + destruct H1 as [<-|H1]; auto.
    + apply H2. destruct A as [A|A]; [left; symmetry; exact A|right; auto].
Qed.
