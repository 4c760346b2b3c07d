(** L_All4: the weights smooth_all returns when the tuning data determine them. *)
From Verif Require Import Base TreeSpec Spec M_Tree M_Gamma M_Levels M_Grad M_Smooth M_Level SpecSmooth SpecTune SpecClean SpecLevel SpecRel SpecRel2 SpecAll.
From Verif Require Import L_Base L_Tree L_TreeModel L_Dist L_Gamma L_Gamma2 L_Sgd L_Grad L_Smooth L_Smooth2 L_Smooth3 L_Smooth4 L_Route L_Tune L_Clean3 L_Level3 L_Level4 L_Level5 L_Level6 L_Level7 L_Level8 L_Level9 L_Rel L_Rel7 L_Rel9 L_Prog L_All L_All2 L_All3.
From Coq Require Import Reals Lra Lia Permutation.
Local Open Scope R_scope.

(** the hypotheses, in terms of the model's number of weights *)
Definition determined_run (o : all_opts R) oob boot ts data lf : Prop :=
  Forall wf_tree ts /\ Forall pos_leaves ts /\ length (a_y o) = length (a_X o) /\ all_data o oob boot ts data lf /\
  (forall q, (q < length ts)%nat -> usable (data q)) /\ determined ts (a_parents_all o) (K_of ts) data lf /\ a_sanity o = false.
Definition loss (o : all_opts R) ts data lf (l : list R) : R :=
  mean_sse (length ts) data lf (fun q i => sumto (K_of ts) (fun k => nth k l 0 * lmean o (nth q ts no_tree) i k)).
Definition best (o : all_opts R) ts data lf (l : list R) : Prop :=
  feasible (a_no_constraint o) (K_of ts) l /\ forall l', feasible (a_no_constraint o) (K_of ts) l' -> loss o ts data lf l <= loss o ts data lf l'.
Definition smoothed_by (o : all_opts R) (ts : list (tree R)) (l : list R) (f : list (tree R)) : Prop :=
  length f = length ts /\ forall q t, nth_error ts q = Some t -> exists t', nth_error f q = Some t' /\ same_but_leaf_values t t' /\
    forall i, (i < n_leaves t)%nat -> nth (leaf_id t i) (t_value t') [] = [sumto (K_of ts) (fun k => nth k l 0 * lmean o t i k)].

Lemma exact_run : forall o oob boot ts data lf, determined_run o oob boot ts data lf ->
  forall fuel feps solve in_null, solves (a_no_constraint o) (K_of ts) solve ->
  exists f l, smooth_all fuel feps solve in_null o oob boot ts = Ok (f, l) /\ best o ts data lf l /\ smoothed_by o ts l f.
Proof.
  intros o oob boot ts data lf (WF & PL & LXY & DT & US & DE & SA) fuel feps solve in_null SV.
  destruct (exact_core o oob boot ts data lf WF PL LXY DT US DE SA) as (Gs & LG & VG & C). destruct (C fuel feps solve in_null SV) as (l & FE & MN & E).
  assert (LY : length (map (fun v => [v]) (mv Gs l)) = offset ts (length ts)) by (rewrite map_length, mv_length; auto).
  destruct (write_forest_ok (map (fun v => [v]) (mv Gs l)) ts 0 WF) as (f & EW & Lf & P); [lia|]. exists f, l. rewrite E, EW. split; [reflexivity|]. split; [split; [exact FE|exact MN]|].
  split; [exact Lf|]. intros q t N. destruct (P q t N) as (t' & N' & SB & V). exists t'. split; [exact N'|]. split; [exact SB|]. intros i Hi. rewrite V by auto. cbn [Nat.add].
  destruct (VG q t i N Hi) as [L1 V1]. assert (Hr : (offset ts q + i < length (mv Gs l))%nat). { rewrite mv_length, LG. pose proof (offset_le ts q t N). lia. }
  rewrite nth_map_in with (d := 0) by auto. rewrite mv_nth. pose proof (feasible_len _ _ _ FE) as LL. rewrite dot_sumto by congruence. rewrite L1. f_equal. apply sumto_ext. intros k Hk. rewrite V1 by auto. ring.
Qed.
Lemma best_unique : forall o oob boot ts data lf, determined_run o oob boot ts data lf -> forall l l', best o ts data lf l -> feasible (a_no_constraint o) (K_of ts) l' ->
  loss o ts data lf l' <= loss o ts data lf l -> l' = l.
Proof.
  intros o oob boot ts data lf (WF & PL & LXY & DT & US & DE & SA) l l' [F MN] F' LE. exact (min_unique o oob boot ts data lf WF DT DE (a_no_constraint o) l l' F F' MN LE).
Qed.
Lemma smoothed_unique : forall o ts l f f', Forall wf_tree ts -> smoothed_by o ts l f -> smoothed_by o ts l f' -> f = f'.
Proof.
  intros o ts l f f' WF [L P] [L' P']. apply (nth_ext _ _ no_tree no_tree); [congruence|]. intros q Hq. rewrite L in Hq.
  assert (N : nth_error ts q = Some (nth q ts no_tree)) by (apply nth_error_nth'; auto). set (t := nth q ts no_tree) in *.
  destruct (P q t N) as (a & NA & SA & VA). destruct (P' q t N) as (b & NB & SB & VB). rewrite (nth_error_nth _ q no_tree NA), (nth_error_nth _ q no_tree NB).
  apply (leaves_eq Reg t a b); [eapply Forall_forall; eauto; eapply nth_error_In; eauto|exact SA|exact SB|].
  intros i Hi. unfold node_v. rewrite VA, VB by auto. split; [reflexivity|]. split; reflexivity.
Qed.
Lemma loss_of : forall o oob boot ts data lf l f, Forall wf_tree ts -> all_data o oob boot ts data lf -> smoothed_by o ts l f ->
  mean_sse (length ts) data lf (fun q i => leaf_v (nth q f no_tree) 0 i) = loss o ts data lf l.
Proof.
  intros o oob boot ts data lf l f WF DT [L P]. apply mean_sse_ext; [intros q t N; apply (DT q t N)|]. intros q t i N Hi.
  destruct (P q t N) as (t' & N' & SB & V). rewrite (nth_error_nth _ q no_tree N'), (nth_error_nth _ q no_tree N).
  apply (leaf_v_at t t'); [apply (same_leaf_id _ t' i SB)|]. apply V. auto.
Qed.
Lemma loss_means : forall o oob boot ts data lf l m, Forall wf_tree ts -> all_data o oob boot ts data lf ->
  (forall q t i k, nth_error ts q = Some t -> (i < n_leaves t)%nat -> (k < K_of ts)%nat -> level_mean t (a_parents_all o) i k (m q i k)) ->
  mean_sse (length ts) data lf (fun q i => sumto (K_of ts) (fun k => nth k l 0 * m q i k)) = loss o ts data lf l.
Proof.
  intros o oob boot ts data lf l m WF DT LM. apply mean_sse_ext; [intros q t N; apply (DT q t N)|]. intros q t i N Hi. apply sumto_ext. intros k Hk. f_equal.
  apply (level_mean_unique t (a_parents_all o) i k); [apply LM; auto|]. rewrite (nth_error_nth _ q no_tree N). eapply lmean_ok; eauto.
Qed.

Lemma p_all_exact : forall fuel feps solve in_null (o : all_opts R) oob boot ts D data lf, Forall wf_tree ts -> deepest ts D -> Forall pos_leaves ts ->
  length (a_y o) = length (a_X o) -> all_data o oob boot ts data lf -> (forall q, (q < length ts)%nat -> usable (data q)) ->
  determined ts (a_parents_all o) (S D) data lf -> a_sanity o = false -> solves (a_no_constraint o) (S D) solve ->
  exists f lamb, smooth_all fuel feps solve in_null o oob boot ts = Ok (f, lamb) /\ feasible (a_no_constraint o) (S D) lamb /\
    forall l m, feasible (a_no_constraint o) (S D) l ->
      (forall q t i k, nth_error ts q = Some t -> (i < n_leaves t)%nat -> (k < S D)%nat -> level_mean t (a_parents_all o) i k (m q i k)) ->
      let sse := mean_sse (length ts) data lf (fun q i => leaf_v (nth q f no_tree) 0 i) in
      let sse_l := mean_sse (length ts) data lf (fun q i => sumto (S D) (fun k => nth k l 0 * m q i k)) in
      sse <= sse_l /\ (sse_l <= sse -> l = lamb).
Proof.
  intros fuel feps solve in_null o oob boot ts D data lf WF DP PL LXY DT US DE SA SV. rewrite <- (deepest_K ts D WF DP) in *.
  assert (DR : determined_run o oob boot ts data lf) by (split; [|split; [|split; [|split; [|split; [|split]]]]]; assumption).
  destruct (exact_run o oob boot ts data lf DR fuel feps solve in_null SV) as (f & l & E & B & SB). exists f, l. split; [exact E|]. split; [apply B|].
  intros l' m F' LM. cbv zeta. rewrite (loss_of o oob boot ts data lf l f WF DT SB), (loss_means o oob boot ts data lf l' m WF DT LM). split; [apply B; auto|].
  intros LE. apply (best_unique o oob boot ts data lf DR l l' B F' LE).
Qed.
Lemma p_all_solvers : forall fuel feps solve in_null fuel' feps' solve' in_null' (o : all_opts R) oob boot ts D data lf, Forall wf_tree ts -> deepest ts D -> Forall pos_leaves ts ->
  length (a_y o) = length (a_X o) -> all_data o oob boot ts data lf -> (forall q, (q < length ts)%nat -> usable (data q)) ->
  determined ts (a_parents_all o) (S D) data lf -> a_sanity o = false -> solves (a_no_constraint o) (S D) solve -> solves (a_no_constraint o) (S D) solve' ->
  smooth_all fuel' feps' solve' in_null' o oob boot ts = smooth_all fuel feps solve in_null o oob boot ts.
Proof.
  intros fuel feps solve in_null fuel' feps' solve' in_null' o oob boot ts D data lf WF DP PL LXY DT US DE SA SV SV'. rewrite <- (deepest_K ts D WF DP) in *.
  assert (DR : determined_run o oob boot ts data lf) by (split; [|split; [|split; [|split; [|split; [|split]]]]]; assumption).
  destruct (exact_run o oob boot ts data lf DR fuel feps solve in_null SV) as (f & l & E & B & SB). destruct (exact_run o oob boot ts data lf DR fuel' feps' solve' in_null' SV') as (f' & l' & E' & B' & SB').
  assert (l' = l) by (apply (best_unique o oob boot ts data lf DR l l' B); [apply B'|apply B'; apply B]). subst l'. rewrite E, E'. rewrite (smoothed_unique o ts l f' f WF SB' SB). reflexivity.
Qed.

(* ---------------- every tree several times ---------------- *)
Lemma sumto_mod : forall n m (f : nat -> R), n <> 0%nat -> sumto (m * n) (fun q => f (q mod n)) = INR m * sumto n f.
Proof.
  intros n m f Hn. induction m as [|m IH]; [cbn; lra|]. rewrite S_INR. replace (S m * n)%nat with (m * n + n)%nat by lia. rewrite sumto_app, IH.
  rewrite (sumto_ext n (fun i => f ((m * n + i) mod n)) f); [lra|]. intros i Hi. f_equal. rewrite Nat.add_comm, Nat.mod_add by auto. apply Nat.mod_small; auto.
Qed.
Section Copies.
Variables (m : nat) (o : all_opts R) (oob boot oob' boot' : nat -> list nat) (ts ts' : list (tree R)) (data : nat -> list (list R) * list R) (lf : nat -> nat -> nat).
Hypothesis MP : (0 < m)%nat.
Hypothesis NE : ts <> [].
Hypothesis TC : trees_copied m ts ts'.
Hypothesis SB : forall q, (q < length ts')%nat -> oob' q = oob (q mod length ts) /\ boot' q = boot (q mod length ts).
Hypothesis DR : determined_run o oob boot ts data lf.
Let n := length ts.
Lemma cp_n : n <> 0%nat.
Proof using NE. intros E. apply NE, length_zero_iff_nil. exact E. Qed.
Lemma cp_at : forall q t, nth_error ts' q = Some t -> (q < length ts')%nat /\ nth_error ts (q mod n) = Some t.
Proof using TC. intros q t N. assert (Hq : (q < length ts')%nat) by (apply nth_error_Some; congruence). split; [exact Hq|]. destruct TC as [_ P]. rewrite P in N by auto. exact N. Qed.
Lemma cp_first : forall q t, nth_error ts q = Some t -> nth_error ts' q = Some t.
Proof using TC NE MP. intros q t N. assert (Hq : (q < n)%nat) by (apply nth_error_Some; congruence). destruct TC as [L P]. rewrite P by (rewrite L; unfold n in Hq; nia). rewrite Nat.mod_small by auto. exact N. Qed.
Lemma cp_wf : Forall wf_tree ts'.
Proof using TC DR. destruct DR as (WF & _). apply Forall_forall. intros t H. apply In_nth_error in H. destruct H as (q & N). apply cp_at in N. destruct N as [_ N]. eapply Forall_forall; eauto. eapply nth_error_In; eauto. Qed.
Lemma cp_K : K_of ts' = K_of ts.
Proof using All.
  assert (I1 : forall t, In t ts' <-> In t ts).
  { intros t. split; intros H; apply In_nth_error in H; destruct H as (q & N). - apply cp_at in N. destruct N as [_ N]. eapply nth_error_In; eauto. - eapply nth_error_In, cp_first; eauto. }
  destruct DR as (WF & _). destruct (calc_depth_attained ts WF NE) as (t0 & v0 & I0 & D0).
  assert (D : deepest ts' (snd (calc_depth_for_forest ts))).
  { split; [|right; exists t0, v0; split; [apply I1; auto|exact D0]]. intros t v d H DV. apply I1 in H. eapply calc_depth_upper; eauto. }
  rewrite (deepest_K ts' _ cp_wf D). unfold K_of. lia.
Qed.
Let data' (q : nat) := data (q mod n).
Let lf' (q : nat) := lf (q mod n).
Lemma cp_loss : forall l, loss o ts' data' lf' l = INR m * loss o ts data lf l.
Proof using All.
  intros l. unfold loss, mean_sse. destruct TC as [L P]. rewrite L. fold n. rewrite <- (sumto_mod n m _ cp_n). apply sumto_ext. intros q Hq. unfold data', lf'. f_equal. apply sumto_ext. intros x Hx. f_equal. f_equal. rewrite cp_K.
  apply sumto_ext. intros k Hk. f_equal. f_equal. unfold n in Hq. rewrite <- L in Hq. specialize (P q Hq). fold n in P.
  rewrite (nth_error_nth' ts' no_tree Hq) in P. symmetry in P. rewrite (nth_error_nth _ _ no_tree P). reflexivity.
Qed.
Lemma cp_run : determined_run o oob' boot' ts' data' lf'.
Proof using All.
  pose proof cp_wf as WF'. pose proof cp_K as KS. destruct DR as (WF & PL & LXY & DT & US & DE & SA). pose proof cp_n as Hn.
  split; [exact WF'|]. split.
  { apply Forall_forall. intros t H. apply In_nth_error in H. destruct H as (q & N). apply cp_at in N. destruct N as [_ N]. rewrite Forall_forall in PL. apply PL. eapply nth_error_In; eauto. }
  split; [exact LXY|]. split.
  { intros q t N. apply cp_at in N. destruct N as [Hq N]. destruct (DT _ _ N) as [A B]. split; [|exact B]. unfold tuning_set in *. destruct (SB q Hq) as [-> ->]. exact A. }
  split. { intros q _. apply US. apply Nat.mod_upper_bound. exact Hn. }
  split; [|exact SA]. rewrite KS. intros l l' L L' D. destruct (DE l l' L L' D) as (q & t & x & mu & N & Hx & LM & X). exists q, t, x, mu.
  assert (Hq : (q < n)%nat) by (apply nth_error_Some; congruence). split; [apply cp_first; auto|]. unfold data', lf'. rewrite Nat.mod_small by auto. split; [exact Hx|]. split; [exact LM|exact X].
Qed.
Lemma cp_main : forall fuel feps solve in_null, solves (a_no_constraint o) (K_of ts) solve ->
  exists f f' lamb, smooth_all fuel feps solve in_null o oob boot ts = Ok (f, lamb) /\ smooth_all fuel feps solve in_null o oob' boot' ts' = Ok (f', lamb) /\ trees_copied m f f'.
Proof using All.
  intros fuel feps solve in_null SV. pose proof cp_K as KS. pose proof cp_wf as WF'.
  destruct (exact_run o oob boot ts data lf DR fuel feps solve in_null SV) as (f & l & E & B & [Lf Pf]).
  destruct (exact_run o oob' boot' ts' data' lf' cp_run fuel feps solve in_null ltac:(rewrite KS; exact SV)) as (f' & l' & E' & B' & [Lf' Pf']).
  assert (PM : 0 < INR m) by (apply (lt_INR 0); auto).
  assert (l' = l). { apply (best_unique o oob boot ts data lf DR l l' B); [rewrite <- KS; apply B'|]. destruct B' as [_ B']. destruct B as [FB _]. rewrite <- KS in FB. specialize (B' l FB). rewrite !cp_loss in B'. eapply Rmult_le_reg_l; eauto. }
  subst l'. exists f, f', l. split; [exact E|]. split; [exact E'|]. destruct TC as [L P]. split; [congruence|]. intros q Hq. rewrite Lf' in Hq. rewrite Lf. fold n.
  assert (N' : nth_error ts' q = Some (nth q ts' no_tree)) by (apply nth_error_nth'; auto). destruct (cp_at _ _ N') as [_ N]. set (t := nth q ts' no_tree) in *.
  destruct (Pf _ _ N) as (a & NA & SA & VA). destruct (Pf' _ _ N') as (b & NB & SB' & VB). rewrite NA, NB. f_equal. 
  apply (leaves_eq Reg t b a); [eapply Forall_forall; [exact WF'|]; eapply nth_error_In; eauto|exact SB'|exact SA|].
  intros i Hi. unfold node_v. rewrite VA, VB by auto. rewrite KS. split; [reflexivity|]. split; reflexivity.
Qed.
End Copies.
Lemma p_all_copies : forall m fuel feps solve in_null (o : all_opts R) oob boot oob' boot' ts ts' D data lf, (0 < m)%nat -> ts <> [] -> trees_copied m ts ts' ->
  (forall q, (q < length ts')%nat -> oob' q = oob (q mod length ts) /\ boot' q = boot (q mod length ts)) ->
  Forall wf_tree ts -> deepest ts D -> Forall pos_leaves ts ->
  length (a_y o) = length (a_X o) -> all_data o oob boot ts data lf -> (forall q, (q < length ts)%nat -> usable (data q)) ->
  determined ts (a_parents_all o) (S D) data lf -> a_sanity o = false -> solves (a_no_constraint o) (S D) solve ->
  exists f f' lamb, smooth_all fuel feps solve in_null o oob boot ts = Ok (f, lamb) /\ smooth_all fuel feps solve in_null o oob' boot' ts' = Ok (f', lamb) /\ trees_copied m f f'.
Proof.
  intros m fuel feps solve in_null o oob boot oob' boot' ts ts' D data lf MP NE TC SB WF DP PL LXY DT US DE SA SV. rewrite <- (deepest_K ts D WF DP) in *.
  apply (cp_main m o oob boot oob' boot' ts ts' data lf); auto. split; [|split; [|split; [|split; [|split; [|split]]]]]; assumption.
Qed.

(* ---------------- the responses in other units ---------------- *)
Section Units.
Variables (c : R) (o : all_opts R) (oob boot : nat -> list nat) (ts : list (tree R)) (data : nat -> list (list R) * list R) (lf : nat -> nat -> nat).
Hypothesis CP : 0 < c.
Hypothesis DR : determined_run o oob boot ts data lf.
Let data' (q : nat) := (fst (data q), map (Rmult c) (snd (data q))).
Let ts' := map (scale_tree c) ts.
Lemma un_at : forall q t', nth_error ts' q = Some t' -> exists t, nth_error ts q = Some t /\ t' = scale_tree c t.
Proof using Type. intros q t' N. unfold ts' in N. rewrite nth_error_map in N. destruct (nth_error ts q); cbn in N; [|discriminate]. injection N as <-. eauto. Qed.
Lemma un_wf : forall t, wf_tree t -> wf_tree (scale_tree c t).
Proof using Type. intros t W. unfold wf_tree, wf_treeb in *. cbn [scale_tree t_left t_right t_feature t_thresh t_value t_weight t_imp]. rewrite !map_length. exact W. Qed.
Lemma un_v : forall t v, node_v (scale_tree c t) 0 v = c * node_v t 0 v.
Proof using Type.
  intros t v. unfold node_v, scale_tree. cbn [t_value]. destruct (Nat.lt_ge_cases v (length (t_value t))) as [Hv|Hv].
  - rewrite nth_map_in with (d := []) by auto. destruct (nth v (t_value t) []) as [|x r]; cbn; rn; lra.
  - rewrite (nth_overflow (map _ _)) by (rewrite map_length; lia). rewrite (nth_overflow (t_value t)) by lia. cbn. lra.
Qed.
Lemma un_mean : forall t i k, lmean o (scale_tree c t) i k = c * lmean o t i k.
Proof using Type.
  intros t i k. unfold lmean, kmean. change (csel (scale_tree c t)) with (csel t). change (n_leaves (scale_tree c t)) with (n_leaves t).
  change (kmass (scale_tree c t)) with (kmass t). destruct (Req_EM_T _ _); [lra|]. unfold Rdiv. rewrite <- Rmult_assoc. f_equal. rewrite <- sumto_scal. apply sumto_ext. intros j Hj.
  unfold leaf_ny, node_ny. change (leaf_id (scale_tree c t) j) with (leaf_id t j). rewrite un_v. change (node_w (scale_tree c t)) with (node_w t). ring.
Qed.
Lemma un_reaches : forall t x v, reaches (scale_tree c t) x v <-> reaches t x v.
Proof using Type. intros t x v. split; intros H; induction H; [constructor|eapply reach_left; eauto|eapply reach_right; eauto|constructor|eapply reach_left; eauto|eapply reach_right; eauto]. Qed.
Lemma un_leaf : forall t x i, leaf_of (scale_tree c t) x i <-> leaf_of t x i.
Proof using Type. intros t x i. unfold leaf_of. change (n_leaves (scale_tree c t)) with (n_leaves t). change (leaf_id (scale_tree c t) i) with (leaf_id t i). rewrite un_reaches. reflexivity. Qed.
Lemma un_K : K_of ts' = K_of ts.
Proof using Type.
  assert (E : forall l n, fold_left (fun m t => Nat.max m (list_maxn (depth_per_node t))) (map (scale_tree c) l) n = fold_left (fun m t => Nat.max m (list_maxn (depth_per_node t))) l n).
  { induction l as [|t r IH]; intros n; cbn [map fold_left]; [reflexivity|]. change (depth_per_node (scale_tree c t)) with (depth_per_node t). apply IH. }
  unfold K_of, calc_depth_for_forest, ts'. cbn [snd]. rewrite E. reflexivity.
Qed.
Lemma un_nth : forall q, (q < length ts)%nat -> nth q ts' no_tree = scale_tree c (nth q ts no_tree).
Proof using Type. intros q Hq. unfold ts'. rewrite nth_map_in with (d := no_tree) by auto. reflexivity. Qed.
Lemma un_loss : forall l, loss (all_scaled c o) ts' data' lf l = c * c * loss o ts data lf l.
Proof using Type.
  intros l. unfold loss, mean_sse. rewrite un_K. replace (length ts') with (length ts) by (unfold ts'; rewrite map_length; reflexivity).
  rewrite <- sumto_scal. apply sumto_ext. intros q Hq. unfold data'. cbn [fst snd]. unfold Rdiv. rewrite <- Rmult_assoc. f_equal. rewrite <- sumto_scal. apply sumto_ext. intros x Hx.
  rewrite nth_scaled. rewrite un_nth by auto.
  rewrite (sumto_ext (K_of ts) (fun k => nth k l 0 * lmean (all_scaled c o) (scale_tree c (nth q ts no_tree)) (lf q x) k) (fun k => c * (nth k l 0 * lmean o (nth q ts no_tree) (lf q x) k))).
  - rewrite sumto_scal. ring.
  - intros k Hk. change (lmean (all_scaled c o)) with (lmean o). rewrite un_mean. ring.
Qed.
Lemma un_picked : forall y idx r, picked y idx r -> picked (map (Rmult c) y) idx (map (Rmult c) r).
Proof using Type. intros y idx r H. induction H as [|i x idx r E _ IH]; [constructor|]. cbn [map]. constructor; [|exact IH]. rewrite nth_error_map, E. reflexivity. Qed.
Lemma un_tuning : forall q d, tuning_set o oob boot q d -> tuning_set (all_scaled c o) oob boot q (fst d, map (Rmult c) (snd d)).
Proof using Type.
  intros q d H. unfold tuning_set in *. cbn [all_scaled a_resample a_X a_y a_X_tune a_y_tune fst snd]. destruct (a_resample o).
  - destruct H. split; [auto|apply un_picked; auto].
  - destruct (a_X_tune o), (a_y_tune o); cbn [option_map]; try (destruct H; split; [auto|apply un_picked; auto]). subst d. reflexivity.
Qed.
Lemma un_run : determined_run (all_scaled c o) oob boot ts' data' lf.
Proof using All.
  destruct DR as (WF & PL & LXY & DT & US & DE & SA). 
  assert (WF' : Forall wf_tree ts'). { apply Forall_forall. intros t' H. apply In_nth_error in H. destruct H as (q & N). apply un_at in N. destruct N as (t & N & ->). apply un_wf. eapply Forall_forall; eauto. eapply nth_error_In; eauto. }
  split; [exact WF'|]. split.
  { apply Forall_forall. intros t' H. apply In_nth_error in H. destruct H as (q & N). apply un_at in N. destruct N as (t & N & ->). intros j Hj. apply (proj1 (Forall_forall _ _) PL t); [eapply nth_error_In; eauto|exact Hj]. }
  split; [cbn [all_scaled a_y a_X]; rewrite map_length; exact LXY|]. split.
  { intros q t' N. apply un_at in N. destruct N as (t & N & ->). destruct (DT q t N) as [A B]. split; [apply un_tuning; exact A|]. unfold data'. cbn [fst]. intros x Hx. destruct (B x Hx) as [B1 B2]. split; [apply un_leaf; exact B1|]. intros i Hi. apply B2, un_leaf. exact Hi. }
  split. { intros q Hq. unfold ts' in Hq. rewrite map_length in Hq. destruct (US q Hq) as [A B]. split; unfold data'; cbn [fst snd]; [exact A|rewrite map_length; exact B]. }
  split; [|exact SA]. rewrite un_K. intros l l' L L' D. destruct (DE l l' L L' D) as (q & t & x & mu & N & Hx & LM & X). destruct (DT q t N) as [_ RT]. destruct (RT x Hx) as [[Hi _] _].
  assert (N' : nth_error ts' q = Some (scale_tree c t)) by (unfold ts'; rewrite nth_error_map, N; reflexivity).
  exists q, (scale_tree c t), x, (fun k => c * mu k). split; [exact N'|]. split; [exact Hx|]. split.
  - intros k Hk. rewrite (level_mean_unique t _ _ _ _ _ (LM k Hk) (lmean_ok o ts WF q t (lf q x) k N Hi)). rewrite <- un_mean. exact (lmean_ok o ts' WF' q (scale_tree c t) (lf q x) k N' Hi).
  - rewrite (sumto_ext (K_of ts) (fun k => nth k l 0 * (c * mu k)) (fun k => c * (nth k l 0 * mu k))) by (intros; ring). rewrite (sumto_ext (K_of ts) (fun k => nth k l' 0 * (c * mu k)) (fun k => c * (nth k l' 0 * mu k))) by (intros; ring). rewrite !sumto_scal.
    intros E. apply X. apply (Rmult_eq_reg_l c); lra.
Qed.
Lemma un_main : forall fuel feps solve in_null, solves (a_no_constraint o) (K_of ts) solve ->
  exists f lamb, smooth_all fuel feps solve in_null o oob boot ts = Ok (f, lamb) /\ smooth_all fuel feps solve in_null (all_scaled c o) oob boot ts' = Ok (map (scale_tree c) f, lamb).
Proof using All.
  intros fuel feps solve in_null SV. pose proof un_run as DR'. destruct DR' as (WF' & _). pose proof DR as (WF & _).
  destruct (exact_run o oob boot ts data lf DR fuel feps solve in_null SV) as (f & l & E & B & SB).
  destruct (exact_run (all_scaled c o) oob boot ts' data' lf un_run fuel feps solve in_null ltac:(rewrite un_K; exact SV)) as (f' & l' & E' & B' & SB').
  assert (l' = l). { apply (best_unique o oob boot ts data lf DR l l' B); [rewrite <- un_K; apply B'|]. destruct B' as [_ B']. destruct B as [FB _]. rewrite <- un_K in FB. specialize (B' l FB). rewrite !un_loss in B'. eapply Rmult_le_reg_l; [|exact B']. nra. }
  subst l'. exists f, l. split; [exact E|]. rewrite E'. f_equal. f_equal. apply (smoothed_unique (all_scaled c o) ts' l f' _ WF' SB'). clear E' SB' B' E. destruct SB as [Lf P]. split; [unfold ts'; rewrite !map_length; exact Lf|].
  intros q t' N. apply un_at in N. destruct N as (t & N & ->). destruct (P q t N) as (u & NU & SU & VU). exists (scale_tree c u). split; [rewrite nth_error_map, NU; reflexivity|]. destruct SU as (A1&A2&A3&A4&A5&A6&A7&A8). split.
  - unfold same_but_leaf_values. cbn [scale_tree t_left t_right t_feature t_thresh t_value t_weight t_imp]. rewrite !map_length.
    split; [exact A1|]. split; [exact A2|]. split; [exact A3|]. split; [exact A4|]. split; [exact A5|]. split; [rewrite A6; reflexivity|]. split; [exact A7|]. intros v Hv. 
    destruct (Nat.lt_ge_cases v (length (t_value t))) as [Lv|Lv]; [|rewrite !nth_overflow by (rewrite map_length; lia); reflexivity].
    rewrite !nth_map_in with (d := []) by lia. rewrite (A8 v) by exact Hv. reflexivity.
  - intros i Hi. change (leaf_id (scale_tree c t) i) with (leaf_id t i). change (n_leaves (scale_tree c t)) with (n_leaves t) in Hi. specialize (VU i Hi). rewrite un_K. cbn [scale_tree t_value].
    assert (Lv : (leaf_id t i < length (t_value u))%nat). { destruct (Nat.lt_ge_cases (leaf_id t i) (length (t_value u))); auto. rewrite nth_overflow in VU by auto. discriminate. }
    rewrite nth_map_in with (d := []) by auto. rewrite VU. cbn [map]. f_equal. change (nmul c ?z) with (c * z). rewrite <- sumto_scal. apply sumto_ext. intros k Hk. change (lmean (all_scaled c o)) with (lmean o). rewrite un_mean. ring.
Qed.
End Units.
Lemma p_all_units : forall c fuel feps solve in_null (o : all_opts R) oob boot ts D data lf, 0 < c -> Forall wf_tree ts -> deepest ts D -> Forall pos_leaves ts ->
  length (a_y o) = length (a_X o) -> all_data o oob boot ts data lf -> (forall q, (q < length ts)%nat -> usable (data q)) ->
  determined ts (a_parents_all o) (S D) data lf -> a_sanity o = false -> solves (a_no_constraint o) (S D) solve ->
  exists f lamb, smooth_all fuel feps solve in_null o oob boot ts = Ok (f, lamb) /\ smooth_all fuel feps solve in_null (all_scaled c o) oob boot (map (scale_tree c) ts) = Ok (map (scale_tree c) f, lamb).
Proof.
  intros c fuel feps solve in_null o oob boot ts D data lf CP WF DP PL LXY DT US DE SA SV. rewrite <- (deepest_K ts D WF DP) in *.
  apply (un_main c o oob boot ts data lf CP); auto. split; [|split; [|split; [|split; [|split; [|split]]]]]; assumption.
Qed.
