(** L_Torch9: pytorch_numpy_prep against its description (C76) and smooth_pytorch as a whole (C61, C74, C75). *)
From Coq Require Import Reals Lra Lia Sorted.
From Verif Require Import Base TreeSpec Spec SpecSmooth SpecTune SpecDepth SpecBox SpecTorch M_Tree M_Gamma M_Levels M_Smooth M_Box M_More M_Torch M_Pytorch L_Base L_Tree L_TreeModel L_TreeModel2 L_Dist L_Gamma L_Gamma2 L_Levels L_Grad L_Sgd L_Sgd2 L_Smooth L_Smooth2 L_Smooth3 L_Smooth4 L_Tune L_Depth L_Depth2 L_Box L_More L_Level8 L_Torch L_Torch2 L_Torch3 L_Torch4 L_Torch5 L_Torch6 L_Torch7 L_Torch8.
Local Open Scope R_scope.

(** ** pytorch_numpy_prep *)

Lemma response_ok : forall kd (y : list R), responses kd y (response_rows kd y).
Proof.
  intros [|nc] y; cbn [responses response_rows]; [reflexivity|]. exists (sorted_set y). split; [apply sorted_set_sorted|]. split; [apply sorted_set_in|].
  unfold get_dummies. generalize (sorted_set y) as cats. intros cats. induction y as [|v y IH]; cbn [map]; constructor; auto.
  rewrite map_length. split; auto. intros c a N.
  assert (Hc : (c < length cats)%nat) by (apply nth_error_Some; congruence).
  rewrite nth_map_in with (d := 0) by auto. rewrite (nth_error_nth _ _ _ N).
  change (@neqb R _ v a) with (Reqb v a). destruct (Reqb_spec v a) as [->|NE]; split; intros; try reflexivity; try contradiction.
Qed.

Lemma own_dec : forall o : @prep_opts R, (own_tuning o /\ (prep_oob o || po_resample o || po_train_only o)%bool = false) \/
  (~ own_tuning o /\ (prep_oob o || po_resample o || po_train_only o)%bool = true).
Proof.
  intros o. unfold own_tuning, prep_oob. destruct (po_train_only o), (po_resample o), (po_X_tune o), (po_y_tune o); cbn; intuition discriminate.
Qed.

Lemma sample_eq : forall (o : @prep_opts R) rd q,
  (if po_train_only o then tr_train rd q else if po_resample o then tr_boot rd q else tr_oob rd q) = prep_sample o rd q.
Proof. reflexivity. Qed.

Lemma prep_data_spec : forall kd (o : @prep_opts R) rd q X Y, prep_data kd o rd q = Ok (X, Y) -> prep_set kd o rd q X Y.
Proof.
  intros kd o rd q X Y H. unfold prep_data in H. destruct (own_dec o) as [(OW&E)|(OW&E)]; rewrite E in H; (split; [intros A|intros A]); try contradiction.
  - destruct (po_X_tune o), (po_y_tune o); try discriminate. injection H as -> ->. auto.
  - destruct (po_X_trained o) as [X0|]; [|discriminate]. destruct (po_y_trained o) as [y0|]; [|discriminate]. rewrite sample_eq in H.
    apply bind_ok in H. destruct H as (Xt&H1&H). apply bind_ok in H. destruct H as (yt&H2&H).
    assert (X = Xt /\ Y = response_rows kd yt) as (->&->) by (split; congruence).
    exists X0, y0, yt. split; auto. split; auto. split; [apply picked_take; auto|]. split; [apply picked_take; auto|]. apply response_ok.
Qed.

Lemma prep_data_total : forall kd (o : @prep_opts R) rd ts q, good_prep kd o rd ts -> (q < length ts)%nat ->
  exists X Y, prep_data kd o rd q = Ok (X, Y) /\ X <> [] /\ length Y = length X /\ forall r, In r Y -> length r = n_gamma kd.
Proof.
  intros kd o rd ts q GP Hq. unfold prep_data. destruct (own_dec o) as [(OW&E)|(OW&E)]; rewrite E.
  - destruct GP as [(_&X&Y&HX&HY&NE&L&RW)|(NO&_)]; [|contradiction]. rewrite HX, HY. eauto 8.
  - destruct GP as [(NO&_)|(_&X&y&HX&HY&L&S0)]; [contradiction|]. rewrite HX, HY, sample_eq. destruct (S0 q Hq) as (NE&RG&CL).
    destruct (take_rows_total X (prep_sample o rd q) RG) as (Xr&E1&L1).
    destruct (take_rows_total y (prep_sample o rd q)) as (yr&E2&L2); [rewrite L; auto|].
    rewrite E1. cbn [bind]. rewrite E2. cbn [bind]. exists Xr, (response_rows kd yr). split; auto.
    split; [intros ->; destruct (prep_sample o rd q); [congruence|discriminate]|].
    destruct (take_rows_nth _ _ _ E2) as (_&V2).
    destruct kd as [|nc]; cbn [response_rows n_gamma].
    + rewrite map_length. split; [lia|]. intros r Hr. apply in_map_iff in Hr. destruct Hr as (v&<-&_). reflexivity.
    + unfold get_dummies. rewrite map_length. split; [lia|]. intros r Hr. apply in_map_iff in Hr. destruct Hr as (v&<-&_). rewrite map_length.
      destruct CL as (cs&ND&LC&CI). rewrite <- LC. apply Nat.le_antisymm.
      * apply NoDup_incl_length; [apply sorted_set_nodup|]. intros x Hx. apply (proj1 (sorted_set_in yr x)) in Hx. apply CI. apply V2. auto.
      * apply NoDup_incl_length; auto. intros x Hx. apply sorted_set_in. apply CI in Hx. destruct Hx as (i&Hi&Hn). eapply take_rows_in; eauto.
Qed.

Lemma prep_total : forall kd ts (o : @prep_opts R) rd M, Forall (@wf_tree R) ts -> ts <> [] -> po_style o <> MinStyle -> is_max_depth ts M ->
  good_prep kd o rd ts -> exists p, pytorch_numpy_prep (Forest kd ts) o rd = Ok p.
Proof.
  intros kd ts o rd M W NE NS MX GP. unfold pytorch_numpy_prep.
  assert (A : ((prep_oob o || po_resample o || po_train_only o) && (isNone (po_X_trained o) || isNone (po_y_trained o)))%bool = false).
  { destruct (own_dec o) as [(OW&->)|(OW&->)]; [reflexivity|]. destruct GP as [(NO&_)|(_&X&y&->&->&_)]; [contradiction|reflexivity]. }
  rewrite A. destruct (p_C52_full ts kd (po_parents_all o) (po_style o) M W NE NS MX) as (out&Ti&F&_). rewrite F. cbn [bind].
  assert (T : forall l, (forall it, In it l -> (fst it < length ts)%nat) -> forall acc, exists r, foldM (fun acc it =>
           do '(X, y) <- prep_data kd o rd (fst it);
           do '(yl, w) <- leaf_targets (n_gamma kd) (snd it) X y;
           Ok (fst acc ++ yl, snd acc ++ w)) l acc = Ok r).
  { induction l as [|it l IH]; intros H acc; [cbn; eauto|]. cbn [foldM].
    destruct (prep_data_total kd o rd ts (fst it) GP) as (X&Y&E&N&L&RW); [apply H; left; auto|]. rewrite E. cbn [bind].
    destruct (leaf_targets_total (n_gamma kd) (snd it) X Y N L RW) as (yl&w&E2&_). rewrite E2. cbn [bind]. apply IH. intros; apply H; right; auto. }
  destruct (T (combine (seq 0 (length ts)) ts)) with (acc := (@nil (list R), @nil R)) as ([Y Wt]&E).
  { intros [a b] H. apply in_combine_l in H. apply in_seq in H. cbn. lia. }
  unfold prep_targets. rewrite E. cbn [bind]. eauto.
Qed.

Lemma mats_selects : forall kd ts s pa M G E Ti q t i c k, Forall (@wf_tree R) ts -> mats kd ts (S M) (tsel ts s pa) G E Ti -> nth_error ts q = Some t ->
  (i < n_leaves t)%nat -> (c < n_gamma kd)%nat -> (k <= M)%nat -> exists sel, selects t s pa i k sel /\
    nth k (nth (offset ts q + i) E []) 0 = sum_sel (n_leaves t) sel (leaf_w t) /\
    nth k (nth (offset ts q + i) (nth c G []) []) 0 = sum_sel (n_leaves t) sel (leaf_ny t kd c).
Proof.
  intros kd ts s pa M G E Ti q t i c k W MT N Hi Hc Hk. destruct MT as (_&_&_&_&MV). destruct (MV q t N i Hi) as (_&_&_&ME&MG).
  assert (WF : wf_tree t) by (rewrite Forall_forall in W; apply W; eapply nth_error_In; eauto).
  exists (csel t s pa i k). split; [apply csel_selects; auto|]. rewrite ME by lia. destruct (MG c Hc) as (_&MG2). rewrite MG2 by lia. unfold tsel. rewrite N. auto.
Qed.

Lemma prepared_ok : forall kd ts (o : @prep_opts R) rd M p, Forall (@wf_tree R) ts -> ts <> [] -> po_style o <> MinStyle -> is_max_depth ts M ->
  pytorch_numpy_prep (Forest kd ts) o rd = Ok p ->
  exists xn xd xi xdf xif, pr_one p = [(Leaf_n, xn); (Leaf_d, xd); (Leaf_i, xi)] /\ pr_two p = [(Full_d, xdf); (Full_i, xif)] /\
    pr_dim p = S M /\ pr_nc p = n_gamma kd /\ prepared kd ts o rd M (pr_y p) (pr_Gamma p) (pr_eta p) (pr_w p) (pr_t p) xn xd xi xdf xif.
Proof.
  intros kd ts o rd M p W NE NS MX H. destruct (prep_ok kd ts o rd p M W NE NS MX H) as (G&E&Ti&_&MT&PR).
  destruct PR as (PD&PN&L1&L2&L3&L4&L5&R1&R2&PT&xn&xd&xi&xdf&xif&E1&E2&(SO1&SO2)&ROW).
  exists xn, xd, xi, xdf, xif. split; auto. split; auto. split; auto. split; auto. unfold prepared.
  rewrite E1 in SO1. rewrite E2 in SO2.
  split; auto. split; auto. split; auto. split; auto. split; auto.
  split; [apply (SO1 (Leaf_n, xn)); cbn; auto|]. split; [apply (SO1 (Leaf_d, xd)); cbn; auto|]. split; [apply (SO1 (Leaf_i, xi)); cbn; auto|].
  split; [apply (SO2 (Full_d, xdf)); cbn; auto|]. split; [apply (SO2 (Full_i, xif)); cbn; auto|]. split; auto. split; auto.
  split; [apply (SO2 (Full_d, xdf)); cbn; auto|]. split; [apply (SO2 (Full_i, xif)); cbn; auto|].
  intros q t d N TD. destruct (ROW q t d N TD) as (X&Y&yl&w&PD1&LT&RW).
  assert (WF : wf_tree t) by (rewrite Forall_forall in W; apply W; eapply nth_error_In; eauto).
  destruct (p_C27 _ t X Y yl w WF LT) as (lf&RT&LW&LY&_&TG).
  exists X, Y, lf. split; [apply prep_data_spec; auto|]. split; auto. intros c i Hc Hi. destruct (RW c i Hc Hi) as (A1&A2&A3&A4&A5&A6&A7&A8&A9&A10).
  destruct (TG i Hi) as (T1&T2). destruct (T2 c Hc) as (T3&T4).
  split; auto. split; auto. rewrite A6, A5. split; auto. split; auto. split; auto. split; [|auto].
  intros k Hk. rewrite A3, A4. apply (mats_selects kd ts _ _ M G E Ti q t i c k); auto.
Qed.

Lemma p_C76 : forall kd ts (o : @prep_opts R) rd M, Forall (@wf_tree R) ts -> ts <> [] -> po_style o <> MinStyle -> is_max_depth ts M ->
  (good_prep kd o rd ts -> exists p, pytorch_numpy_prep (Forest kd ts) o rd = Ok p) /\
  forall p, pytorch_numpy_prep (Forest kd ts) o rd = Ok p ->
  exists y G E w tv xn xd xi xdf xif,
    p = {| pr_y := y; pr_Gamma := G; pr_eta := E; pr_w := w; pr_t := tv; pr_one := [(Leaf_n, xn); (Leaf_d, xd); (Leaf_i, xi)];
           pr_two := [(Full_d, xdf); (Full_i, xif)]; pr_dim := S M; pr_nc := n_gamma kd |} /\
    prepared kd ts o rd M y G E w tv xn xd xi xdf xif.
Proof.
  intros kd ts o rd M W NE NS MX. split; [apply (prep_total kd ts o rd M); auto|]. intros p H.
  destruct (prepared_ok kd ts o rd M p W NE NS MX H) as (xn&xd&xi&xdf&xif&E1&E2&E3&E4&P).
  exists (pr_y p), (pr_Gamma p), (pr_eta p), (pr_w p), (pr_t p), xn, xd, xi, xdf, xif. split; [|exact P]. destruct p. cbn in *. congruence.
Qed.
