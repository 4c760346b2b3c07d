(** L_Smooth2: the forests smooth returns. *)
From Verif Require Import Base TreeSpec Spec M_Tree M_Gamma M_Levels M_Prox M_Grad M_Sgd M_Smooth SpecSmooth
  L_Base L_Tree L_TreeModel L_TreeModel2 L_Dist L_Gamma L_Gamma2 L_PropsTree L_Sgd L_Sgd2 L_Grad L_Levels L_Smooth.
From Coq Require Import Reals Lra.
Local Open Scope R_scope.

(** *** both distances at once *)
Lemma level_kernel : forall s arr t D e lamb i j, wf_tree t -> impurity_levels s (LArr arr) t = Ok (D, e) ->
  (i < n_leaves t)%nat -> (j < n_leaves t)%nat ->
  sumto (length lamb) (fun k => if Z.eqb (lvl s arr t i j) (Z.of_nat k) then nth k lamb 0 else 0)
  = nth (Z.to_nat (nth j (nth i D []) 0%Z)) lamb 0.
Proof.
  intros s arr t D e lamb i j WF H Hi Hj. unfold lvl. rewrite H.
  destruct (levels_spec s _ t D e WF H) as (_&_&_&_&_&RG&_&_). specialize (RG i j Hi Hj).
  set (d := nth j (nth i D []) 0%Z) in *. destruct (Nat.lt_ge_cases (Z.to_nat d) (length lamb)).
  - rewrite (sumto_single _ _ (Z.to_nat d)); auto.
    + rewrite Z2Nat.id by lia. rewrite Z.eqb_refl. auto.
    + intros k Hk NE. destruct (Z.eqb_spec d (Z.of_nat k)); auto. lia.
  - rewrite nth_overflow by auto. apply sumto_zero. intros k Hk. destruct (Z.eqb_spec d (Z.of_nat k)); auto. lia.
Qed.

Lemma kap_sel_pos : forall sel lamb q i j k, (k < length lamb)%nat -> sel q i k j = true ->
  (forall x, In x lamb -> 0 < x) -> 0 < kap_sel sel lamb q i j.
Proof.
  intros sel lamb q i j k Hk S P. unfold kap_sel.
  assert (NN : forall k, (k < length lamb)%nat -> 0 <= (if sel q i k j then nth k lamb 0 else 0)).
  { intros k' Hk'. destruct (sel q i k' j); [|lra]. left. apply P, nth_In; auto. }
  pose proof (sumto_elem_le _ _ k NN Hk) as X. cbv beta in X. rewrite S in X.
  pose proof (P _ (nth_In lamb 0 Hk)). lra.
Qed.
Lemma forest_matrices_mats : forall kd (o : smooth_opts R) ts G E Ti, Forall (@wf_tree R) ts -> ts <> [] ->
  forest_matrices kd o ts = Ok (G, E, Ti) ->
  exists K sel, (0 < K)%nat /\ mats kd ts K sel G E Ti /\
  forall q t i lamb, nth_error ts q = Some t -> (i < n_leaves t)%nat -> length lamb = K ->
    smooth_kernel o ts t lamb i (kap_sel sel lamb q i) /\
    ((forall x, In x lamb -> 0 < x) -> forall j, (j < n_leaves t)%nat -> 0 < kap_sel sel lamb q i j).
Proof.
  intros kd o ts G E Ti W NE H. unfold forest_matrices in H. unfold smooth_kernel. destruct (o_dist o) as [pa|lv].
  - destruct (depth_mats kd pa (o_style o) ts W) as (G'&E'&Ti'&E0&M). rewrite E0 in H. inversion H; subst.
    eexists. eexists. split; [|split; [exact M|]]; [lia|]. intros q t i lamb N Hi LL. split; [apply depth_kernel; auto|]. intros P j Hj.
    destruct (depth_kernel pa (o_style o) ts q t i lamb W N Hi LL j Hj) as (d&Dd&_).
    assert (WF : wf_tree t) by (rewrite Forall_forall in W; apply W; eapply nth_error_In; eauto).
    destruct (leaf_dist_conv t (o_style o) i j WF Hi Hj) as (d'&ED&Dd').
    assert (d' = d) by (eapply leaf_dist_unique; eauto). subst d'.
    apply (kap_sel_pos _ _ _ _ _ d); auto.
    + destruct Dd as (d1&d2&C1&C2&EE). rewrite LL.
      destruct C1 as (a&di&da&_&D1&_&->). destruct C2 as (a'&di'&da'&_&D1'&_&->).
      pose proof (calc_depth_upper ts W t _ _ (nth_error_In _ _ N) D1).
      pose proof (calc_depth_upper ts W t _ _ (nth_error_In _ _ N) D1').
      destruct (o_style o); lia.
    + rewrite N. unfold csel. rewrite ED. destruct pa; [apply Z.leb_refl|apply Z.eqb_refl].
  - destruct (imp_forest_inv kd _ lv ts G E Ti W H) as (arr&t0&D0&e&HD&HA&H0&AL&LG&LE&LT&LC&V).
    assert (E2 : (2 <= e)%nat).
    { destruct ts as [|t1 ts1]; [congruence|]. inversion HD; subst t1. pose proof (Forall_inv W) as W1.
      destruct (levels_spec _ _ t0 D0 e W1 H0) as (_&_&_&_&_&RG&_&_). pose proof (n_leaves_pos t0 W1) as LP.
      specialize (RG 0%nat 0%nat LP LP). lia. }
    exists e, (fun q i k j => match nth_error ts q with Some t => Z.eqb (lvl (o_style o) arr t i j) (Z.of_nat k) | None => false end).
    split; [lia|]. split.
    + split; auto. split; auto. split; auto. split; auto. intros q t N i Hi. rewrite N. apply V; auto.
    + intros q t i lamb N Hi LL. destruct (AL t (nth_error_In _ _ N)) as (D&e'&HI&EB).
      assert (WF : wf_tree t) by (rewrite Forall_forall in W; apply W; eapply nth_error_In; eauto).
      split; [|intros P j Hj].
      2:{ destruct (levels_spec _ _ t D e' WF HI) as (_&_&_&_&_&RG&_&_). specialize (RG i j Hi Hj).
          apply (kap_sel_pos _ _ _ _ _ (Z.to_nat (nth j (nth i D []) 0%Z))); auto; [lia|].
          rewrite N. unfold lvl. rewrite HI, Z2Nat.id by lia. apply Z.eqb_refl. }
      exists arr, D, e'. split; [destruct lv; cbn in *; [auto|congruence]|]. split; auto. intros j Hj.
      unfold kap_sel. rewrite N. apply (level_kernel _ arr t D e'); auto.
Qed.

(** the result of smooth, leaf by leaf *)
Definition leaves_as (kd : kind) (o : smooth_opts R) (ts : list (tree R)) (lamb : list R) (t t' : tree R) : Prop :=
  same_but_leaf_values t t' /\
  forall i, (i < n_leaves t)%nat -> exists kap, smooth_kernel o ts t lamb i kap /\
    ((forall x, In x lamb -> 0 < x) -> forall j, (j < n_leaves t)%nat -> 0 < kap j) /\
    length (nth (leaf_id t i) (t_value t') []) = n_gamma kd /\
    forall c, (c < n_gamma kd)%nat -> node_v t' c (leaf_id t i) = kmean t kd kap c.

Lemma smooth_desc : forall lg kd ts (o : smooth_opts R) rd out,
  smooth lg (Forest kd ts) o rd = Ok out -> Forall (@wf_tree R) ts -> ts <> [] ->
  (match kd with Class _ => o_no_constraint o = false | Reg => True end) /\
  (exists G E Ti Y W K, forest_matrices kd o ts = Ok (G, E, Ti) /\ (0 < K)%nat /\ all_targets kd o rd ts = Ok (Y, W) /\
     optimise lg kd o rd (flatten kd o G E Ti Y W) (initial_lamb kd o K) = Ok (s_lamb out, s_lamb_last out, s_costs out) /\
     length (s_lamb out) = K /\ length (s_lamb_last out) = K) /\
  s_lamb2 out = s_lamb_last out /\
  length (s_forest out) = length ts /\ length (s_forest2 out) = length ts /\
  (forall q t, nth_error ts q = Some t -> exists t', nth_error (s_forest out) q = Some t' /\ leaves_as kd o ts (s_lamb out) t t') /\
  (forall q t, nth_error ts q = Some t -> exists t', nth_error (s_forest2 out) q = Some t' /\ same_but_leaf_values t t' /\
     forall i, (i < n_leaves t)%nat -> length (nth (leaf_id t i) (t_value t') []) = n_gamma kd /\
       exists q0 t0 i0 kap, nth_error ts q0 = Some t0 /\ (i0 < n_leaves t0)%nat /\ i = (offset ts q0 + i0)%nat /\
       smooth_kernel o ts t0 (s_lamb_last out) i0 kap /\
       forall c, (c < n_gamma kd)%nat -> node_v t' c (leaf_id t i) = kmean t0 kd kap c).
Proof.
  intros lg kd ts o rd out H W NE.
  assert (FM : exists G E Ti, forest_matrices kd o ts = Ok (G, E, Ti)).
  { unfold smooth in H. destruct (_ && _)%bool; [discriminate|].
    destruct (match kd with Class _ => o_no_constraint o | Reg => false end); [discriminate|].
    apply bind_ok in H. destruct H as ([[G E] Ti]&HF&_). eauto. }
  destruct FM as (G&E&Ti&FM). destruct (forest_matrices_mats kd o ts G E Ti W NE FM) as (K&sel&KP&M&KER).
  destruct (smooth_inv lg kd ts o rd out K sel G E Ti H W NE FM M) as (CC&(Y&W0&AT&OP)&L2&LK&LK2&LF1&LF2&D1&D2).
  split; [exact CC|]. split. { exists G, E, Ti, Y, W0, K. auto 10. }
  split; auto. split; auto. split; auto. split.
  - intros q t N. destruct (D1 q t N) as (t'&N'&S&V). exists t'. split; auto. split; auto. intros i Hi.
    exists (kap_sel sel (s_lamb out) q i). split; [apply KER; auto|]. split; [apply KER; auto|]. apply V; auto.
  - intros q t N. destruct (D2 q t N) as (t'&N'&S&V). exists t'. split; auto. split; auto. intros i Hi.
    destruct (V i Hi) as (LR&q0&t0&i0&N0&Hi0&EI&VV). split; auto.
    exists q0, t0, i0, (kap_sel sel (s_lamb_last out) q0 i0).
    split; [exact N0|]. split; [exact Hi0|]. split; [exact EI|]. split; [apply KER; auto|exact VV].
Qed.

(** non-negative weights *)
Lemma smooth_lamb_nonneg : forall lg kd ts (o : smooth_opts R) rd out,
  smooth lg (Forest kd ts) o rd = Ok out -> Forall (@wf_tree R) ts -> ts <> [] ->
  o_no_constraint o = false -> draws_nonneg o -> (kd = Reg \/ 0 <= o_class_eps o) ->
  (forall x, In x (s_lamb out) -> 0 <= x) /\ (forall x, In x (s_lamb_last out) -> 0 <= x).
Proof.
  intros lg kd ts o rd out H W NE NC DN EP.
  destruct (smooth_desc lg kd ts o rd out H W NE) as (CC&(G&E&Ti&Y&W0&K&_&_&_&OP&_&_)&_).
  destruct (optimise_good _ _ _ _ _ _ _ _ _ CC OP) as (_&_&X). apply X; auto.
  intros x Hx. apply (initial_lamb_nonneg kd o K); auto.
Qed.

Lemma nth_nonneg : forall (l : list R) k, (forall x, In x l -> 0 <= x) -> 0 <= nth k l 0.
Proof. intros l k H. destruct (nth_in_or_default k l 0) as [I| ->]; [auto|lra]. Qed.
Lemma kernel_nonneg : forall o ts t lamb i kap, (forall x, In x lamb -> 0 <= x) -> smooth_kernel o ts t lamb i kap ->
  forall j, (j < n_leaves t)%nat -> 0 <= kap j.
Proof.
  intros o ts t lamb i kap H HK j Hj. unfold smooth_kernel in HK. destruct (o_dist o) as [pa|lv].
  - destruct (HK j Hj) as (d&_&->). unfold dweight. destruct pa; [|apply nth_nonneg; auto].
    apply sumto_nonneg. intros k Hk. destruct (Nat.leb d k); [apply nth_nonneg; auto|lra].
  - destruct HK as (arr&D&e&_&_&HK). rewrite HK by auto. apply nth_nonneg; auto.
Qed.

(** *** weighted means *)
Lemma kmass_zero : forall t kap, pos_leaves t -> (forall j, (j < n_leaves t)%nat -> 0 <= kap j) ->
  kmass t kap = 0 -> forall j, (j < n_leaves t)%nat -> kap j = 0.
Proof.
  intros t kap PL NN Z j Hj. unfold kmass in Z.
  assert (NN' : forall i, (i < n_leaves t)%nat -> 0 <= kap i * leaf_w t i).
  { intros i Hi. apply Rmult_le_pos; auto. left. apply PL; auto. }
  pose proof (sumto_elem_le (n_leaves t) (fun j => kap j * leaf_w t j) j NN' Hj) as X. rewrite Z in X. specialize (PL j Hj). specialize (NN j Hj). specialize (NN' j Hj).
  assert (kap j * leaf_w t j = 0) by (cbv beta in X; lra). apply Rmult_integral in H. destruct H; lra.
Qed.
Lemma kmass_nonneg : forall t kap, pos_leaves t -> (forall j, (j < n_leaves t)%nat -> 0 <= kap j) -> 0 <= kmass t kap.
Proof. intros t kap PL NN. apply sumto_nonneg. intros i Hi. apply Rmult_le_pos; auto. left. apply PL; auto. Qed.

Lemma kmean_range : forall t kap lo hi, pos_leaves t -> (forall j, (j < n_leaves t)%nat -> 0 <= kap j) ->
  (forall j, (j < n_leaves t)%nat -> lo <= leaf_v t 0 j <= hi) ->
  lo <= kmean t Reg kap 0 <= hi \/ (kmean t Reg kap 0 = 0 /\ forall j, (j < n_leaves t)%nat -> kap j = 0).
Proof.
  intros t kap lo hi PL NN B. unfold kmean. destruct (Req_EM_T (kmass t kap) 0) as [Z|NZ].
  - right. split; auto. apply kmass_zero; auto.
  - left. pose proof (kmass_nonneg t kap PL NN) as MN. assert (MP : 0 < kmass t kap) by lra.
    set (num := sumto (n_leaves t) (fun j => kap j * leaf_ny t Reg 0 j)).
    assert (X : lo * kmass t kap <= num <= hi * kmass t kap).
    { unfold num, kmass. rewrite <- !sumto_scal. split; apply sumto_le; intros j Hj;
      unfold leaf_ny, node_ny; fold (leaf_w t j); fold (leaf_v t 0 j);
      specialize (B j Hj); specialize (PL j Hj); specialize (NN j Hj);
      assert (0 <= kap j * leaf_w t j) by (apply Rmult_le_pos; lra); nra. }
    split; apply Rmult_le_reg_r with (kmass t kap); auto; unfold Rdiv; rewrite Rmult_assoc, Rinv_l by lra; lra.
Qed.

Lemma kmean_class : forall t nc kap, class_counts nc t -> pos_leaves t -> (forall j, (j < n_leaves t)%nat -> 0 <= kap j) ->
  (forall c, (c < nc)%nat -> 0 <= kmean t (Class nc) kap c <= 1) /\
  (sumto nc (kmean t (Class nc) kap) = 1 \/
   ((forall c, (c < nc)%nat -> kmean t (Class nc) kap c = 0) /\ forall j, (j < n_leaves t)%nat -> kap j = 0)).
Proof.
  intros t nc kap CC PL NN. unfold kmean. destruct (Req_EM_T (kmass t kap) 0) as [Z|NZ].
  - split; [intros; lra|]. right. split; auto. apply kmass_zero; auto.
  - pose proof (kmass_nonneg t kap PL NN) as MN. assert (MP : 0 < kmass t kap) by lra.
    assert (LN : forall c j, (c < nc)%nat -> (j < n_leaves t)%nat -> 0 <= kap j * leaf_ny t (Class nc) c j).
    { intros c j Hc Hj. apply Rmult_le_pos; auto. apply (CC j Hj); auto. }
    assert (TOT : sumto nc (fun c => sumto (n_leaves t) (fun j => kap j * leaf_ny t (Class nc) c j)) = kmass t kap).
    { rewrite sumto_swap. unfold kmass. apply sumto_ext. intros j Hj. rewrite sumto_scal. f_equal. apply (CC j Hj). }
    assert (NNC : forall c, (c < nc)%nat -> 0 <= sumto (n_leaves t) (fun j => kap j * leaf_ny t (Class nc) c j)).
    { intros c Hc. apply sumto_nonneg. intros; auto. }
    split.
    + intros c Hc. pose proof (sumto_elem_le nc (fun c => sumto (n_leaves t) (fun j => kap j * leaf_ny t (Class nc) c j)) c NNC Hc) as X.
      rewrite TOT in X. specialize (NNC c Hc). cbv beta in *.
      split; apply Rmult_le_reg_r with (kmass t kap); auto; unfold Rdiv; rewrite Rmult_assoc, Rinv_l by lra; lra.
    + left. unfold Rdiv. rewrite sumto_scal_r, TOT. apply Rinv_r. lra.
Qed.

Lemma p_C13 : forall lg ts (o : smooth_opts R) rd out,
  smooth lg (Forest Reg ts) o rd = Ok out -> Forall (@wf_tree R) ts -> Forall pos_leaves ts -> ts <> [] ->
  o_no_constraint o = false -> draws_nonneg o ->
  forall q t, nth_error ts q = Some t -> exists t', nth_error (s_forest out) q = Some t' /\
  forall i lo hi, (i < n_leaves t)%nat -> (forall j, (j < n_leaves t)%nat -> lo <= leaf_v t 0 j <= hi) ->
    lo <= leaf_v t' 0 i <= hi \/
    (leaf_v t' 0 i = 0 /\ exists kap, smooth_kernel o ts t (s_lamb out) i kap /\ forall j, (j < n_leaves t)%nat -> kap j = 0).
Proof.
  intros lg ts o rd out H W PL NE NC DN q t N.
  destruct (smooth_lamb_nonneg lg Reg ts o rd out H W NE NC DN (or_introl eq_refl)) as (LN&_).
  destruct (smooth_desc lg Reg ts o rd out H W NE) as (_&_&_&_&_&D1&_).
  destruct (D1 q t N) as (t'&N'&S&V). exists t'. split; auto. intros i lo hi Hi B.
  destruct (V i Hi) as (kap&KK&_&_&VV). specialize (VV 0%nat ltac:(cbn; lia)).
  assert (EL : leaf_v t' 0 i = kmean t Reg kap 0).
  { unfold leaf_v. rewrite <- VV. destruct S as (S1&_). unfold leaf_id, leaf_ids, size. rewrite S1.
    unfold is_leafb, lc. rewrite S1. reflexivity. }
  rewrite EL. rewrite Forall_forall in PL.
  destruct (kmean_range t kap lo hi (PL t (nth_error_In _ _ N)) (kernel_nonneg _ _ _ _ _ _ LN KK) B) as [X|[X Y]]; auto.
  right. split; auto. exists kap. auto.
Qed.
