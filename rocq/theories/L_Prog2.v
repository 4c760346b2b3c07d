(** L_Prog2: the gradient at the start of smooth, in terms of the tuning data. *)
From Verif Require Import Base TreeSpec Spec M_Tree M_Gamma M_Levels M_Prox M_Grad M_Sgd M_Smooth SpecSmooth SpecTune SpecRel SpecProg.
From Verif Require Import L_Base L_TreeModel L_Prox L_Grad L_Gamma L_Gamma2 L_Sgd L_Sgd2 L_Smooth L_Smooth2 L_Smooth3 L_Smooth4 L_Tune L_Rel L_Rel2 L_Rel4 L_Rel7 L_Prog.
From Coq Require Import Reals Lra Permutation.
Local Open Scope R_scope.

Lemma derivable_local : forall f g x d, (exists e, 0 < e /\ forall z, Rabs (z - x) < e -> f z = g z) -> derivable_pt_lim f x d -> derivable_pt_lim g x d.
Proof.
  intros f g x d (e&EP&HE) H eps He. destruct (H eps He) as ([dl DP]&Hd). cbn [pos] in Hd.
  exists (mkposreal (Rmin e dl) (Rmin_pos _ _ EP DP)). cbn [pos]. intros h H1 H2. pose proof (Rmin_l e dl). pose proof (Rmin_r e dl).
  rewrite <- (HE (x + h)), <- (HE x); [apply Hd; auto; lra| |].
  - rewrite Rminus_diag_eq by reflexivity. rewrite Rabs_R0. auto.
  - replace (x + h - x) with h by ring. lra.
Qed.
Lemma derivable_sumto : forall n (f : nat -> R -> R) (d : nat -> R) x, (forall i, (i < n)%nat -> derivable_pt_lim (f i) x (d i)) ->
  derivable_pt_lim (fun z => sumto n (fun i => f i z)) x (sumto n d).
Proof.
  induction n as [|n IH]; intros f d x H; cbn [sumto]; [apply derivable_pt_lim_const|].
  apply (derivable_pt_lim_plus (fun z => sumto n (fun i => f i z)) (f n)); [apply IH; intros; apply H; lia|apply H; lia].
Qed.
Lemma kernel_unique : forall (o : smooth_opts R) ts t lamb i k1 k2, wf_tree t -> (i < n_leaves t)%nat -> smooth_kernel o ts t lamb i k1 -> smooth_kernel o ts t lamb i k2 ->
  forall j, (j < n_leaves t)%nat -> k1 j = k2 j.
Proof.
  intros o ts t lamb i k1 k2 W Hi H1 H2 j Hj. unfold smooth_kernel in *. destruct (o_dist o) as [pa|lv].
  - destruct (H1 j Hj) as (d1&D1&->). destruct (H2 j Hj) as (d2&D2&->). assert (d1 = d2) by (eapply leaf_dist_unique; eauto). subst. reflexivity.
  - destruct H1 as (a1&D1&e1&A1&B1&C1). destruct H2 as (a2&D2&e2&A2&B2&C2).
    assert (a1 = a2) by (unfold level_array in *; destruct lv; congruence). subst a2. assert (D1 = D2) by congruence. subst D2. rewrite C1, C2 by auto. reflexivity.
Qed.
Lemma only_corner : forall n, only (S n) 0 = corner n.
Proof. reflexivity. Qed.
Lemma only_length : forall K k, length (only K k) = K.
Proof. intros. unfold only. rewrite upd_length, repeat_length. auto. Qed.
Lemma dot_only : forall K k (g : list R), length g = K -> (k < K)%nat -> dot (only K k) g = nth k g 0.
Proof.
  intros K k g LG HK. rewrite dot_comm. unfold only. rewrite dot_upd by (rewrite repeat_length; auto). rewrite nth_repeat, (dot_comm g), dot_repeat0. ring.
Qed.
Lemma kap_along : forall sel l d t q i j, length d = length l -> kap_sel sel (along l d t) q i j = kap_sel sel l q i j + t * kap_sel sel d q i j.
Proof.
  intros sel l d t q i j LD. unfold kap_sel. rewrite along_length, LD by auto. rewrite <- sumto_scal, <- sumto_plus. apply sumto_ext. intros k Hk.
  assert (X : nth k (along l d t) 0 = nth k l 0 + t * nth k d 0) by (unfold along; rewrite nth_map2 with (da := 0) (db := 0); auto; lia).
  rewrite X. destruct (sel q i k j); ring.
Qed.
(** the smoothed value of a leaf when a little weight is moved from the leaf itself *)
Lemma kmean_ray : forall t k0 k1 i, (i < n_leaves t)%nat -> leaf_w t i <> 0 -> (forall j, (j < n_leaves t)%nat -> k0 j = if Nat.eqb i j then 1 else 0) ->
  exists e, 0 < e /\ forall x, Rabs (x - 0) < e -> (leaf_ny t Reg 0 i + sumto (n_leaves t) (fun j => k1 j * leaf_ny t Reg 0 j) * (x - 0)) / (leaf_w t i + kmass t k1 * (x - 0)) = kmean t Reg (fun j => k0 j + x * k1 j) 0.
Proof.
  intros t k0 k1 i Hi NZ U. destruct (affine_nonzero (leaf_w t i) (kmass t k1) 0 NZ) as (e&EP&HE). exists e. split; auto. intros x Hx.
  destruct (HE x Hx) as [N _].
  assert (X : forall f, sumto (n_leaves t) (fun j => (k0 j + x * k1 j) * f j) = f i + sumto (n_leaves t) (fun j => k1 j * f j) * (x - 0)).
  { intros f. rewrite (sumto_ext _ _ (fun j => k0 j * f j + x * (k1 j * f j))) by (intros; ring). rewrite sumto_plus, sumto_scal. rewrite Rminus_0_r, (Rmult_comm _ x). f_equal.
    rewrite (sumto_single _ _ i); auto.
    - rewrite U by auto. rewrite Nat.eqb_refl. ring.
    - intros j Hj NE. rewrite U by auto. destruct (Nat.eqb_spec i j); [congruence|]. ring. }
  assert (XM : kmass t (fun j => k0 j + x * k1 j) = leaf_w t i + kmass t k1 * (x - 0)) by (unfold kmass; apply X).
  unfold kmean. rewrite XM, X. destruct (Req_EM_T _ 0) as [Z|_]; [contradiction|]. reflexivity.
Qed.

Section Start.
Variables (ts : list (tree R)) (o : smooth_opts R) (rd : randomness) (n : nat) (sel : nat -> nat -> nat -> nat -> bool).
Variables (G : list (mat R)) (E : mat R) (Ti : list nat) (Y : mat R) (W : list R).
Hypothesis WF : Forall (@wf_tree R) ts.
Hypothesis PL : Forall pos_leaves ts.
Hypothesis NE : ts <> [].
Hypothesis SEP : separated o ts.
Hypothesis AT : o_all_trees o = true.
Hypothesis M : mats Reg ts (S n) sel G E Ti.
Hypothesis KS : forall q t i lamb, nth_error ts q = Some t -> (i < n_leaves t)%nat -> length lamb = S n -> smooth_kernel o ts t lamb i (kap_sel sel lamb q i).
Hypothesis HT : all_targets Reg o rd ts = Ok (Y, W).
Definition sprob : problem R := flatten Reg o G E Ti Y W.
Definition srows : list prow := zip5 (p_y sprob) (p_w sprob) (p_Gamma sprob) (p_eta sprob) (p_tidx sprob).

Lemma start_kernel : forall q t i, nth_error ts q = Some t -> (i < n_leaves t)%nat -> forall j, (j < n_leaves t)%nat -> kap_sel sel (corner n) q i j = if Nat.eqb i j then 1 else 0.
Proof using WF SEP KS.
  intros q t i N Hi. apply (unit_kernel o ts t (S n)); auto; [eapply nth_error_In; eauto|lia|]. apply (KS q t i (corner n)); auto. apply corner_len.
Qed.
Lemma sprob_lens : length (p_y sprob) = length E /\ length (p_w sprob) = length E /\ length (p_Gamma sprob) = length E /\ length (p_eta sprob) = length E /\ length (p_tidx sprob) = length E.
Proof using WF M HT.
  clear NE PL SEP AT KS. destruct (L_Tune.targets_blocks Reg o rd ts Y W WF HT) as (LY&LW&_). pose proof M as (_&LE&LT&_). pose proof (concat_G_len Reg ts (S n) sel G E Ti M) as LG.
  unfold sprob, flatten. cbn [p_y p_w p_Gamma p_eta p_tidx]. rewrite LG. cbn [n_gamma repeat concat]. rewrite !app_length. cbn [length].
  split; [|destruct (o_all_trees o); rewrite ?map_length; lia]. unfold transpose. cbn [seq map concat]. rewrite app_length, map_length. cbn [length]. lia.
Qed.
Lemma srows_of : of_rows srows = sprob.
Proof using WF M HT.
  destruct sprob_lens as (A&B&C&D&F). destruct (zip5_comp _ _ _ _ _ _ A B C D F) as (a&b&c&d&e). unfold of_rows. fold srows in a, b, c, d, e. rewrite a, b, c, d, e.
  destruct sprob; reflexivity.
Qed.
Lemma srows_ne : srows <> [].
Proof using WF NE M HT.
  destruct (ncols_mats _ _ _ _ _ _ _ WF NE M) as (_&_&EN). intros Z. pose proof srows_of as S0. rewrite Z in S0.
  destruct sprob_lens as (_&_&_&D&_). rewrite <- S0 in D. cbn in D. destruct E; [congruence|discriminate].
Qed.
Lemma srows_one : forall r, In r srows -> r_q r = 0%nat.
Proof using WF M HT AT.
  intros r Hr. assert (H : In (r_q r) (p_tidx (of_rows srows))) by (cbn; apply in_map; auto). rewrite srows_of in H.
  unfold sprob, flatten in H. cbn [p_tidx] in H. rewrite AT in H. apply concat_repeat_in in H; [|discriminate]. apply in_map_iff in H. destruct H as (x&<-&_). reflexivity.
Qed.
Lemma srows_rows : forall r, In r srows -> length (r_g r) = S n /\ length (r_e r) = S n /\ dot (r_e r) (corner n) <> 0.
Proof using WF PL SEP M HT KS.
  intros r Hr. destruct (problem_rows_len _ _ (flatten_ok Reg o ts (S n) sel G E Ti Y W M PL)) as [RG RE]. fold sprob in RG, RE. rewrite <- srows_of in RG, RE. cbn [of_rows p_Gamma p_eta] in RG, RE.
  split; [apply RG; apply in_map; auto|]. assert (LE : length (r_e r) = S n) by (apply RE; apply in_map; auto). split; auto.
  assert (H : In (r_e r) (p_eta (of_rows srows))) by (cbn; apply in_map; auto). rewrite srows_of in H. unfold sprob, flatten in H. cbn [p_eta] in H. apply concat_repeat_in in H; [|discriminate].
  destruct (In_nth _ _ [] H) as (row&Hrow&ER). pose proof M as (_&LEE&_&_&V). rewrite LEE in Hrow. destruct (offset_find ts row Hrow) as (q&t&i&N&Hi&->).
  destruct (V q t N i Hi) as (_&_&_&VE&_). rewrite ER in VE.
  rewrite (sum_sel_kap sel (corner n) q i (n_leaves t) (leaf_w t) (r_e r)); [|rewrite corner_len; auto|rewrite corner_len; auto].
  rewrite (sumto_single _ _ i); auto.
  - rewrite (start_kernel q t i N Hi i Hi), Nat.eqb_refl. rewrite Forall_forall in PL. pose proof (PL t (nth_error_In _ _ N) i Hi). lra.
  - intros j Hj NJ. rewrite (start_kernel q t i N Hi j Hj). destruct (Nat.eqb_spec i j); [congruence|]. ring.
Qed.

Lemma start_grad : forall g k p, l_grad l2_loss sprob (corner n) = Ok g -> (k < S n)%nat -> is_pull o rd ts (S n) k p -> nth k g 0 = -2 * p.
Proof using WF PL SEP M HT KS.
  intros g k p HG HK (data&lf&kap&TO&HKap&EP).
  assert (LG : length g = S n) by (rewrite <- (corner_len n); eapply take_gradient_length; exact HG).
  assert (RW : forall r, In r srows -> length (r_g r) = length (corner n) /\ length (r_e r) = length (corner n) /\ dot (r_e r) (corner n) <> 0) by (rewrite corner_len; apply srows_rows).
  rewrite <- srows_of in HG.
  destruct (dir_deriv srows (corner n) (only (S n) k) g RW ltac:(rewrite only_length, corner_len; auto) HG) as (f&dl&DP&HC&DF). rewrite dot_only in DF by auto.
  destruct (loss_split Reg ts o rd (S n) sel G E Ti Y W WF M HT) as (data'&lf'&wss&TO'&LS). cbv zeta in LS. fold sprob in LS.
  set (F := fun x => sumto (length ts) (fun q => sumto (length (fst (data q))) (fun ob =>
      (resp (snd (data q)) ob 0 - kmean (nth q ts no_tree) Reg (kap_sel sel (along (corner n) (only (S n) k) x) q (lf q ob)) 0) *
      (resp (snd (data q)) ob 0 - kmean (nth q ts no_tree) Reg (kap_sel sel (along (corner n) (only (S n) k) x) q (lf q ob)) 0)))).
  assert (FE : forall x, Rabs (x - 0) < dl -> F x - wss = f x).
  { intros x Hx. rewrite Rminus_0_r in Hx. specialize (HC x Hx). rewrite srows_of in HC.
    specialize (LS _ _ ltac:(rewrite along_length; [apply corner_len|rewrite only_length, corner_len; auto]) HC).
    assert (X : F x = f x + wss); [|lra]. rewrite LS. unfold F. apply sumto_ext. intros q Hq. assert (N : nth_error ts q = Some (nth q ts no_tree)) by (apply nth_error_nth'; auto).
    destruct (tuning_unique Reg o rd ts data lf data' lf' TO TO' q _ N) as [ED EL]. unfold sse. rewrite <- ED. apply sumto_ext. intros ob Hob. rewrite <- EL by auto. cbn [n_gamma sumto]. ring. }
  assert (DF2 : derivable_pt_lim F 0 (-2 * p)).
  { rewrite EP, <- sumto_scal. unfold F. apply derivable_sumto. intros q Hq. cbv zeta. rewrite <- sumto_scal. apply derivable_sumto. intros ob Hob.
    assert (N : nth_error ts q = Some (nth q ts no_tree)) by (apply nth_error_nth'; auto). set (t := nth q ts no_tree) in *.
    destruct (TO q t N) as [_ RT]. destruct (RT ob Hob) as [[Hl _] _]. set (i := lf q ob) in *.
    assert (WT : wf_tree t) by (rewrite Forall_forall in WF; apply WF; eapply nth_error_In; eauto).
    assert (WP : 0 < leaf_w t i) by (rewrite Forall_forall in PL; apply (PL t (nth_error_In _ _ N)); auto).
    assert (KE : forall j, (j < n_leaves t)%nat -> kap_sel sel (only (S n) k) q i j = kap q i j).
    { apply (kernel_unique o ts t (only (S n) k) i); auto. apply KS; auto. apply only_length. }
    set (y := resp (snd (data q)) ob 0).
    set (A := sumto (n_leaves t) (fun j => kap_sel sel (only (S n) k) q i j * leaf_ny t Reg 0 j)). set (B := kmass t (kap_sel sel (only (S n) k) q i)).
    assert (DK : derivable_pt_lim (fun x => kmean t Reg (kap_sel sel (along (corner n) (only (S n) k) x) q i) 0) 0 ((A * leaf_w t i - leaf_ny t Reg 0 i * B) / (leaf_w t i * leaf_w t i))).
    { eapply derivable_local; [|apply (derivable_ratio (leaf_ny t Reg 0 i) A (leaf_w t i) B 0); lra].
      destruct (kmean_ray t (kap_sel sel (corner n) q i) (kap_sel sel (only (S n) k) q i) i Hl ltac:(lra) (start_kernel q t i N Hl)) as (e&EE&HE).
      exists e. split; auto. intros x Hx. unfold A, B. rewrite HE by auto. unfold kmean, kmass.
      assert (X : forall h, sumto (n_leaves t) (fun j => (kap_sel sel (corner n) q i j + x * kap_sel sel (only (S n) k) q i j) * h j) = sumto (n_leaves t) (fun j => kap_sel sel (along (corner n) (only (S n) k) x) q i j * h j)).
      { intros h. apply sumto_ext. intros j Hj. rewrite kap_along by (rewrite only_length, corner_len; auto). reflexivity. }
      rewrite !X. reflexivity. }
    pose proof (derivable_pt_lim_minus (fun _ => y) _ 0 _ _ (derivable_pt_lim_const y 0) DK) as DM.
    pose proof (derivable_pt_lim_mult _ _ 0 _ _ DM DM) as DD. eapply derivable_val; [exact DD|].
    assert (K0 : kmean t Reg (kap_sel sel (along (corner n) (only (S n) k) 0) q i) 0 = leaf_v t 0 i).
    { rewrite (kmean_unit t Reg _ i 0 Hl ltac:(lra)).
      - unfold leaf_ny, node_ny, leaf_w, leaf_v in *. field. lra.
      - intros j Hj. rewrite kap_along by (rewrite only_length, corner_len; auto). rewrite (start_kernel q t i N Hl j Hj). ring. }
    unfold minus_fct. rewrite K0.
    assert (NV : leaf_ny t Reg 0 i = leaf_w t i * leaf_v t 0 i) by reflexivity. rewrite NV.
    assert (SM : sumto (n_leaves t) (fun j => kap q i j * leaf_w t j * (leaf_v t 0 j - leaf_v t 0 i)) = A - leaf_v t 0 i * B).
    { unfold A, B, kmass. rewrite <- sumto_scal. rewrite <- (Rplus_0_r (sumto _ _ - _)). unfold Rminus. 
      rewrite Rplus_0_r. rewrite <- (Rmult_1_l (sumto _ (fun i0 => leaf_v t 0 i * _))), <- Ropp_mult_distr_l_reverse, <- sumto_scal, <- sumto_plus.
      apply sumto_ext. intros j Hj. rewrite KE by auto. change (leaf_ny t Reg 0 j) with (leaf_w t j * leaf_v t 0 j). ring. }
    rewrite SM. field. lra. }
  assert (DF3 : derivable_pt_lim f 0 (-2 * p)).
  { apply (derivable_local (fun x => F x - wss)); [exists dl; auto|]. eapply derivable_val; [apply (derivable_pt_lim_minus F (fun _ => wss)); [exact DF2|apply derivable_pt_lim_const]|ring]. }
  exact (uniqueness_limite f 0 _ _ DF DF3).
Qed.
Lemma pull_exists : forall k, (k < S n)%nat -> exists p, is_pull o rd ts (S n) k p.
Proof using WF M HT KS.
  intros k HK. destruct (loss_split Reg ts o rd (S n) sel G E Ti Y W WF M HT) as (data&lf&wss&TO&_).
  eexists. exists data, lf, (fun q i => kap_sel sel (only (S n) k) q i). split; auto. split; [|reflexivity]. intros q t i N Hi. apply KS; auto. apply only_length.
Qed.
End Start.

Lemma corner_grad_ok : forall L n, (forall r, In r L -> dot (r_e r) (corner n) <> 0) -> exists g, l_grad l2_loss (of_rows L) (corner n) = Ok g.
Proof.
  intros L n H. cbn [l_grad l2_loss]. unfold take_gradient, fills. cbn [of_rows p_y p_w p_Gamma p_eta].
  assert (Z : zero_ok (mv (map r_g L) (corner n)) (mv (map r_e L) (corner n)) = true).
  { pose proof (rows_ok L (corner n)) as X. cbn [of_rows p_Gamma p_eta] in X. rewrite X. apply forallb_forall. intros r Hr. unfold okr. rewrite Reqb_false; auto. }
  rewrite Z. cbn [bind]. eauto.
Qed.
Lemma sse_strict : forall lg ts (o : smooth_opts R) rd out, smooth lg (Forest Reg ts) o rd = Ok out ->
  Forall (@wf_tree R) ts -> Forall pos_leaves ts -> ts <> [] -> o_sanity o = false -> o_lamb_draws o = None -> separated o ts ->
  (exists c0 c1, hd_error (s_costs out) = Some c0 /\ In c1 (s_costs out) /\ c1 < c0) ->
  forall data lf, tuning_of Reg o rd ts data lf -> forest_sse 1 data lf (s_forest out) < forest_sse 1 data lf ts.
Proof.
  intros lg ts o rd out H WF PL NE SA SD SEP (d0&d1&HD0&HD1&LT) d l T1. destruct (p_C16 lg Reg ts o rd out H WF NE) as (LF&_).
  destruct (smooth_loss lg Reg ts o rd out H WF NE SA (or_introl eq_refl)) as (data&lf&wss&cb&c0&K&T0&H0&_&B2&KP&B3&pred&HP&B4).
  change 1%nat with (n_gamma Reg). rewrite (forest_sse_unique Reg o rd ts d l data lf _ LF T1 T0).
  rewrite (forest_sse_unique Reg o rd ts d l data lf ts eq_refl T1 T0). rewrite <- B3.
  assert (E0 : c0 + wss = forest_sse (n_gamma Reg) data lf ts).
  { rewrite B4. unfold forest_sse. apply sumto_ext. intros q Hq.
    assert (N : nth_error ts q = Some (nth q ts no_tree)) by (apply nth_error_nth'; auto).
    destruct (T0 q _ N) as [_ RT]. apply sse_ext. intros x Hx. split; auto. intros c Hc. destruct (RT x Hx) as [[Hl _] _].
    destruct (HP q _ _ N Hl) as (kap&HK&EP). rewrite EP by auto. rewrite (unit_start o K SD) in HK.
    assert (It : In (nth q ts no_tree) ts) by (eapply nth_error_In; eauto).
    assert (LP : 0 < leaf_w (nth q ts no_tree) (lf q x)) by (rewrite Forall_forall in PL; apply (PL _ It); auto).
    rewrite (kmean_unit _ Reg kap (lf q x) c Hl ltac:(lra) (unit_kernel o ts _ K _ kap WF It SEP KP Hl HK)).
    cbn [n_gamma] in Hc. assert (c = 0%nat) by lia. subst c. unfold leaf_ny, leaf_v, leaf_w, node_ny in *. field. lra. }
  rewrite <- E0. assert (c0 = d0) by congruence. subst d0. specialize (B2 d1 HD1). lra.
Qed.

(** a run with another step size and other draws descends on the same problem *)
Lemma run_again : forall lg ts (o : smooth_opts R) rd out, smooth lg (Forest Reg ts) o rd = Ok out ->
  Forall (@wf_tree R) ts -> Forall pos_leaves ts -> ts <> [] -> plain_l2 Reg o -> o_all_trees o = true -> o_lamb_draws o = None -> separated o ts ->
  exists n L g, length (s_lamb out) = S n /\ L <> [] /\
    (forall r, In r L -> length (r_g r) = S n /\ length (r_e r) = S n /\ dot (r_e r) (corner n) <> 0) /\ (forall r, In r L -> r_q r = 0%nat) /\
    l_grad l2_loss (of_rows L) (corner n) = Ok g /\ length g = S n /\
    (forall k, (k < S n)%nat -> (exists p, is_pull o rd ts (S n) k p) /\ forall p, is_pull o rd ts (S n) k p -> nth k g 0 = -2 * p) /\
    forall t draws out', smooth lg (Forest Reg ts) (stepped t o) (drawing draws rd) = Ok out' ->
      stocastic_grad_descent (of_rows L) (corner n) t (negb (o_no_constraint o)) None draws = Ok (s_lamb out', s_lamb_last out', s_costs out') /\
      (s_lamb out' = corner n -> forall q tr tr' i, nth_error ts q = Some tr -> nth_error (s_forest out') q = Some tr' -> (i < n_leaves tr)%nat -> leaf_v tr' 0 i = leaf_v tr 0 i).
Proof.
  intros lg ts o rd out H WF PL NE (SA&AD&_) AT SD SEP.
  destruct (smooth_desc lg Reg ts o rd out H WF NE) as (_&(G&E&Ti&Y0&W0&K0&FM&_)&_).
  destruct (forest_matrices_mats Reg o ts G E Ti WF NE FM) as (K&sel&KP&M&KS0).
  destruct (smooth_inv lg Reg ts o rd out K sel G E Ti H WF NE FM M) as (_&(Y&W&HT&_)&_&LK&_).
  destruct K as [|n]; [lia|]. assert (KS : forall q t i lamb, nth_error ts q = Some t -> (i < n_leaves t)%nat -> length lamb = S n -> smooth_kernel o ts t lamb i (kap_sel sel lamb q i)) by (intros; apply KS0; auto).
  pose proof (srows_of ts o rd n sel G E Ti Y W WF M HT) as SO. set (L := srows o G E Ti Y W) in *.
  pose proof (srows_rows ts o rd n sel G E Ti Y W WF PL SEP M KS HT) as SR. fold L in SR.
  destruct (corner_grad_ok L n) as (g&HG); [intros; apply SR; auto|].
  exists n, L, g. split; auto. split; [apply (srows_ne ts o rd n sel G E Ti Y W WF NE M HT)|]. split; auto. split; [apply (srows_one ts o rd n sel G E Ti Y W WF AT M HT)|]. split; auto.
  split; [rewrite <- (corner_len n); eapply take_gradient_length; exact HG|]. split.
  - intros k Hk. split; [eapply pull_exists; eauto|]. intros p HP. rewrite SO in HG. eapply start_grad; eauto.
  - intros t draws out' H'. assert (FM' : forest_matrices Reg (stepped t o) ts = Ok (G, E, Ti)) by exact FM.
    destruct (smooth_inv lg Reg ts (stepped t o) (drawing draws rd) out' (S n) sel G E Ti H' WF NE FM' M) as (_&(Y'&W'&HT'&OP)&_&_&_&_&_&D1&_).
    assert (EY : all_targets Reg (stepped t o) (drawing draws rd) ts = all_targets Reg o rd ts) by reflexivity.
    rewrite EY, HT in HT'. inversion HT'; subst Y' W'. split.
    + rewrite SO. unfold optimise in OP. cbn [stepped o_sanity o_adam o_t_fix o_no_constraint drawing r_draws] in OP. rewrite SA, AD in OP.
      rewrite (unit_start (stepped t o) (S n) SD) in OP. exact OP.
    + intros EC q tr tr' i N N' Hi. destruct (D1 q tr N) as (t'&N1&S'&V'). assert (t' = tr') by congruence. subst t'.
      destruct (V' i Hi) as [_ V2]. unfold leaf_v. rewrite (proj1 (same_leaf_id _ tr' i S')). rewrite (V2 0%nat ltac:(cbn; lia)), EC.
      assert (WP : 0 < leaf_w tr i) by (rewrite Forall_forall in PL; apply (PL tr (nth_error_In _ _ N)); auto).
      rewrite (kmean_unit tr Reg _ i 0 Hi ltac:(lra) (start_kernel ts o n sel WF SEP KS q tr i N Hi)). unfold leaf_ny, node_ny, leaf_w in *. field. lra.
Qed.

Lemma p_C91_improves : forall lg ts (o : smooth_opts R) rd out, smooth lg (Forest Reg ts) o rd = Ok out ->
  Forall (@wf_tree R) ts -> Forall pos_leaves ts -> ts <> [] -> plain_l2 Reg o -> o_all_trees o = true -> o_lamb_draws o = None -> separated o ts ->
  forall k p, (k < length (s_lamb out))%nat -> is_pull o rd ts (length (s_lamb out)) k p -> (if o_no_constraint o then p <> 0 else 0 < p) ->
  exists t0, 0 < t0 /\ forall t draws out', 0 < t < t0 -> draws <> [] ->
    smooth lg (Forest Reg ts) (stepped t o) (drawing draws rd) = Ok out' ->
    forall data lf, tuning_of Reg o rd ts data lf -> forest_sse 1 data lf (s_forest out') < forest_sse 1 data lf ts.
Proof.
  intros lg ts o rd out H WF PL NE PP AT SD SEP k p HK HP SG.
  destruct (run_again lg ts o rd out H WF PL NE PP AT SD SEP) as (n&L&g&LK&LN&RW&ON&HG&LG&PU&AG). rewrite LK in *.
  destruct (PU k HK) as [_ GP]. specialize (GP p HP).
  assert (X : if negb (o_no_constraint o) then exists x, In x g /\ x < 0 else exists x, In x g /\ x <> 0).
  { destruct (o_no_constraint o); cbn [negb]; exists (nth k g 0); (split; [apply nth_In; lia|lra]). }
  destruct (corner_improves L n LN RW ON _ g HG X) as (c0&t0&HC&T0&HI). exists t0. split; auto. intros t draws out' HT ND H' data lf TO.
  destruct (AG t draws out' H') as [SGD _]. destruct (HI t draws _ _ _ HT ND SGD) as (c1&I1&LT).
  apply (sse_strict lg ts (stepped t o) (drawing draws rd) out' H' WF PL NE (proj1 PP) SD SEP); [|exact TO].
  destruct (sgd_best _ _ _ _ _ _ _ _ _ SGD) as (_&c0'&_&HC'&_&HH&_). exists c0', c1. split; auto. split; auto.
  assert (c0' = c0) by (cbn [l_cost l2_loss] in HC; congruence). lra.
Qed.
Lemma p_C91_stays : forall lg ts (o : smooth_opts R) rd out, smooth lg (Forest Reg ts) o rd = Ok out ->
  Forall (@wf_tree R) ts -> Forall pos_leaves ts -> ts <> [] -> plain_l2 Reg o -> o_all_trees o = true -> o_lamb_draws o = None -> separated o ts ->
  (forall k p, (k < length (s_lamb out))%nat -> is_pull o rd ts (length (s_lamb out)) k p -> if o_no_constraint o then p = 0 else p <= 0) ->
  forall t draws out', 0 <= t -> smooth lg (Forest Reg ts) (stepped t o) (drawing draws rd) = Ok out' ->
    s_lamb out' = only (length (s_lamb out)) 0 /\ s_lamb_last out' = only (length (s_lamb out)) 0 /\
    (forall c c', In c (s_costs out') -> In c' (s_costs out') -> c = c') /\
    forall q tr tr' i, nth_error ts q = Some tr -> nth_error (s_forest out') q = Some tr' -> (i < n_leaves tr)%nat -> leaf_v tr' 0 i = leaf_v tr 0 i.
Proof.
  intros lg ts o rd out H WF PL NE PP AT SD SEP NP t draws out' HT H'.
  destruct (run_again lg ts o rd out H WF PL NE PP AT SD SEP) as (n&L&g&LK&LN&RW&ON&HG&LG&PU&AG). rewrite LK in *.
  destruct (AG t draws out' H') as [SGD LV].
  assert (X : if negb (o_no_constraint o) then forall x, In x g -> 0 <= x else forall x, In x g -> x = 0).
  { assert (Y : forall x, In x g -> exists p, x = -2 * p /\ if o_no_constraint o then p = 0 else p <= 0).
    { intros x Hx. destruct (In_nth _ _ 0 Hx) as (k&Hk&<-). destruct (PU k ltac:(lia)) as [(p&HP) GP]. exists p. split; [auto|]. apply (NP k p); auto; lia. }
    destruct (o_no_constraint o); cbn [negb]; intros x Hx; destruct (Y x Hx) as (p&->&Z); lra. }
  destruct (corner_stays L n LN RW ON _ g t draws _ _ _ HG HT X SGD) as (B&LS&c0&_&HC). rewrite only_corner.
  split; auto. split; auto. split; [intros c c' I1 I2; rewrite (HC c I1), (HC c' I2); reflexivity|exact (LV B)].
Qed.
