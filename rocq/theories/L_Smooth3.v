(** L_Smooth3: sanity_check, scaling, class values, determinism, errors. *)
From Verif Require Import Base TreeSpec Spec M_Tree M_Gamma M_Levels M_Prox M_Grad M_Sgd M_Smooth SpecSmooth
  L_Base L_Tree L_TreeModel L_TreeModel2 L_Dist L_Gamma L_Gamma2 L_PropsTree L_Sgd L_Sgd2 L_Grad L_Levels L_Smooth L_Smooth2.
From Coq Require Import Reals Lra.
Local Open Scope R_scope.

Lemma nth_error_eq : forall {A} (l m : list A), (forall q, nth_error l q = nth_error m q) -> l = m.
Proof.
  induction l; destruct m; intros H; auto; try (specialize (H 0%nat); discriminate).
  pose proof (H 0%nat) as E. inversion E. f_equal. apply IHl. intros q. apply (H (S q)).
Qed.

(** *** equality of trees *)
Lemma same_leaf_id : forall (t t' : tree R) i, same_but_leaf_values t t' -> leaf_id t' i = leaf_id t i /\ n_leaves t' = n_leaves t.
Proof.
  intros t t' i (S1&_).
  assert (E : leaf_ids t' = leaf_ids t).
  { unfold leaf_ids, size, is_leafb, lc. rewrite S1. reflexivity. }
  unfold leaf_id, n_leaves. rewrite E. auto.
Qed.
Lemma leaf_index : forall (t : tree R) v, (v < size t)%nat -> is_leafb t v = true -> exists i, (i < n_leaves t)%nat /\ leaf_id t i = v.
Proof.
  intros t v Hv L. assert (In v (leaf_ids t)) by (apply filter_In; split; auto; apply in_seq; lia).
  destruct (In_nth _ _ 0%nat H) as (i&Hi&E). exists i. auto.
Qed.
Lemma tree_eq : forall (t t' : tree R), wf_tree t -> same_but_leaf_values t t' ->
  (forall i, (i < n_leaves t)%nat -> nth (leaf_id t i) (t_value t') [] = nth (leaf_id t i) (t_value t) []) -> t' = t.
Proof.
  intros t t' WF (S1&S2&S3&S4&S5&S6&S7&S8) H.
  assert (EV : t_value t' = t_value t).
  { apply nth_eq_ext with (d := []); auto. intros v Hv. rewrite S7, (wf_len_value t WF) in Hv.
    destruct (is_leafb t v) eqn:L; auto. destruct (leaf_index t v Hv L) as (i&Hi&<-). auto. }
  destruct t, t'; cbn in *. congruence.
Qed.


Lemma unit_nth : forall K k, nth k (upd (repeat 0 K) 0 1) 0 = if (Nat.eqb k 0 && Nat.ltb 0 K)%bool then 1 else 0.
Proof.
  intros K k. destruct K as [|K]; [cbn; destruct k; auto|].
  cbn [repeat upd]. destruct k; [reflexivity|]. cbn [nth Nat.eqb andb].
  destruct (Nat.lt_ge_cases k K); [apply nth_repeat_lt; auto|]. apply nth_overflow. rewrite repeat_length. auto.
Qed.

Lemma quantiles_forest_nonneg : forall s n ts arr, Forall (@wf_tree R) ts ->
  (forall t Dm m, In t ts -> impurity_dist_leaves s t = Ok (Dm, m) ->
     forall i j, (i < n_leaves t)%nat -> (j < n_leaves t)%nat -> 0 <= nth j (nth i Dm []) 0) ->
  quantiles_distance_trees s (firstn 5 ts) n = Ok arr -> forall x, In x arr -> 0 <= x.
Proof.
  intros s n ts arr W H E. unfold quantiles_distance_trees in E. apply (quantiles_nonneg n _ _) with (2 := E).
  intros x Hx. apply in_flat_map in Hx. destruct Hx as (t&Ht&Hx).
  assert (It : In t ts). { rewrite <- (firstn_skipn 5 ts). apply in_or_app; auto. }
  rewrite Forall_forall in W. destruct (p_C06 t s (W t It)) as (Dm&m&ED&LD&LR&_).
  assert (ES : style_num s (standard_impurity t) = Dm).
  { unfold impurity_dist_leaves in ED. apply bind_ok in ED. destruct ED as (m'&_&E'). inversion E'; auto. }
  rewrite ES in Hx. destruct (in_concat_mat _ 0 _ Hx) as (i&j&Hi&Hj&->). rewrite LR in Hj by lia.
  apply (H t Dm m It ED); lia.
Qed.

Lemma unit_kernel : forall (o : smooth_opts R) ts t K i kap, Forall (@wf_tree R) ts -> In t ts -> separated o ts -> (0 < K)%nat ->
  (i < n_leaves t)%nat -> smooth_kernel o ts t (upd (repeat 0 K) 0 1) i kap ->
  forall j, (j < n_leaves t)%nat -> kap j = if Nat.eqb i j then 1 else 0.
Proof.
  intros o ts t K i kap W It SEP KP Hi HK j Hj.
  assert (WF : wf_tree t) by (rewrite Forall_forall in W; auto).
  unfold smooth_kernel, separated in *. destruct (o_dist o) as [pa|lv].
  - destruct (HK j Hj) as (d&Dd&->).
    assert (DZ : d = 0%nat <-> i = j).
    { destruct (leaf_dist_conv t (o_style o) i j WF Hi Hj) as (d'&E&Dd').
      assert (d' = d) by (eapply leaf_dist_unique; eauto). subst d'. split.
      - intros ->. destruct (Nat.eq_dec i j); auto. pose proof (ddist_off t (o_style o) i j WF Hi Hj n). lia.
      - intros <-. pose proof (ddist_diag t (o_style o) i WF Hi). lia. }
    assert (X : dweight (upd (repeat 0 K) 0 1) pa d = if Nat.eqb d 0 then 1 else 0).
    { unfold dweight. destruct pa.
      - rewrite upd_length, repeat_length. rewrite (sumto_single K _ 0%nat); [|lia|].
        + rewrite unit_nth. destruct (Nat.ltb_spec 0 K); [|lia]. destruct d; reflexivity.
        + intros k Hk NE. rewrite unit_nth. destruct (Nat.leb d k), k; auto; lia.
      - rewrite unit_nth. destruct (Nat.ltb_spec 0 K); [|lia]. destruct d; reflexivity. }
    rewrite X. destruct (Nat.eqb_spec d 0), (Nat.eqb_spec i j); auto; tauto.
  - destruct HK as (arr&D&e&HA&HI&HK). destruct SEP as [NN SP]. rewrite HK by auto.
    destruct (levels_spec _ _ t D e WF HI) as (Dm&m&ED&_&_&RG&_&ZL).
    destruct (p_C06 t (o_style o) WF) as (Dm'&m'&ED'&_&_&_&DG&_). assert (Dm' = Dm) by congruence. subst Dm'.
    assert (PN : forall t Dm m, In t ts -> impurity_dist_leaves (o_style o) t = Ok (Dm, m) ->
       forall i j, (i < n_leaves t)%nat -> (j < n_leaves t)%nat -> 0 <= nth j (nth i Dm []) 0).
    { intros t1 D1 m1 I1 E1 i1 j1 Hi1 Hj1. destruct (Nat.eq_dec i1 j1) as [->|NE].
      - rewrite Forall_forall in W. destruct (p_C06 t1 (o_style o) (W t1 I1)) as (D2&m2&E2&_&_&_&DG2&_).
        assert (D2 = D1) by congruence. subst D2. rewrite DG2 by auto. lra.
      - left. apply (SP t1 D1 m1); auto. }
    assert (AN : forall x, In x arr -> 0 <= x).
    { destruct lv as [n|l]; cbn in HA; [|subst; auto]. apply (quantiles_forest_nonneg (o_style o) n ts arr); auto. }
    specialize (ZL AN i j Hi Hj). specialize (RG i j Hi Hj). rewrite unit_nth.
    destruct (Nat.ltb_spec 0 K); [|lia]. rewrite andb_true_r.
    destruct (Nat.eqb_spec i j) as [<-|NE].
    + rewrite (DG i Hi) in ZL. assert (E0 : nth i (nth i D []) 0%Z = 0%Z) by (apply ZL; lra). rewrite E0. auto.
    + specialize (SP t Dm m It ED i j Hi Hj NE). destruct (Nat.eqb_spec (Z.to_nat (nth j (nth i D []) 0%Z)) 0); auto.
      exfalso. assert (E0 : nth j (nth i D []) 0%Z = 0%Z) by lia. apply ZL in E0. lra.
Qed.

Lemma kmean_unit : forall t kd kap i c, (i < n_leaves t)%nat -> leaf_w t i <> 0 ->
  (forall j, (j < n_leaves t)%nat -> kap j = if Nat.eqb i j then 1 else 0) -> kmean t kd kap c = leaf_ny t kd c i / leaf_w t i.
Proof.
  intros t kd kap i c Hi NZ U.
  assert (X : forall f, sumto (n_leaves t) (fun j => kap j * f j) = f i).
  { intros f. rewrite (sumto_single _ _ i); auto.
    - rewrite U by auto. rewrite Nat.eqb_refl. lra.
    - intros j Hj NE. rewrite U by auto. destruct (Nat.eqb_spec i j); [congruence|]. lra. }
  unfold kmean, kmass. rewrite !X. destruct (Req_EM_T (leaf_w t i) 0); [contradiction|]. auto.
Qed.

Lemma unit_start : forall (o : smooth_opts R) K, o_lamb_draws o = None -> initial_lamb Reg o K = upd (repeat 0 K) 0 1.
Proof. intros o K H. unfold initial_lamb. rewrite H. reflexivity. Qed.

Lemma sanity_start : forall lg kd ts (o : smooth_opts R) rd out, smooth lg (Forest kd ts) o rd = Ok out ->
  Forall (@wf_tree R) ts -> ts <> [] -> o_sanity o = true ->
  exists K, (0 < K)%nat /\ s_lamb out = initial_lamb kd o K /\ s_lamb_last out = initial_lamb kd o K /\ s_costs out = [].
Proof.
  intros lg kd ts o rd out H W NE SA.
  destruct (smooth_desc lg kd ts o rd out H W NE) as (_&(G&E&Ti&Y&W0&K&_&KP&_&OP&_)&_).
  exists K. split; auto. unfold optimise in OP. rewrite SA in OP. inversion OP; auto.
Qed.

Lemma nth_row1 : forall (r : list R) x, length r = 1%nat -> nth 0 r 0 = x -> r = [x].
Proof. intros [|a [|b r]] x H E; cbn in *; try lia. subst; auto. Qed.

Lemma p_C11 : forall lg ts (o : smooth_opts R) rd out, smooth lg (Forest Reg ts) o rd = Ok out ->
  Forall (@wf_tree R) ts -> Forall (wf_values Reg) ts -> Forall pos_leaves ts -> ts <> [] ->
  o_sanity o = true -> o_lamb_draws o = None -> separated o ts ->
  s_forest out = ts /\ s_costs out = [].
Proof.
  intros lg ts o rd out H W WV PL NE SA SD SEP.
  destruct (sanity_start lg Reg ts o rd out H W NE SA) as (K&KP&EL&_&EC). split; auto.
  destruct (smooth_desc lg Reg ts o rd out H W NE) as (_&_&_&LF&_&D1&_).
  apply nth_error_eq. intros q.
  destruct (nth_error ts q) as [t|] eqn:N.
  - destruct (D1 q t N) as (t'&->&S&V). f_equal. pose proof (nth_error_In _ _ N) as It.
    assert (WF : wf_tree t) by (rewrite Forall_forall in W; auto).
    apply (tree_eq t t' WF S). intros i Hi. destruct (V i Hi) as (kap&KK&_&LR&VV).
    rewrite EL, (unit_start o K SD) in KK.
    pose proof (unit_kernel o ts t K i kap W It SEP KP Hi KK) as U.
    rewrite Forall_forall in PL. pose proof (PL t It i Hi) as WP.
    specialize (VV 0%nat ltac:(cbn; lia)). rewrite (kmean_unit t Reg kap i 0 Hi ltac:(lra) U) in VV.
    assert (EV : node_v t' 0 (leaf_id t i) = leaf_v t 0 i).
    { rewrite VV. unfold leaf_ny, node_ny. fold (leaf_w t i). fold (leaf_v t 0 i). field. lra. }
    cbn in LR. rewrite (nth_row1 _ _ LR eq_refl).
    rewrite Forall_forall in WV. pose proof (WV t It (leaf_id t i) (leaf_id_lt t i Hi)) as LR'. cbn in LR'.
    rewrite (nth_row1 _ _ LR' eq_refl). f_equal. exact EV.
  - apply nth_error_None in N. apply nth_error_None. lia.
Qed.

(** *** classification start *)
Lemma nsum_map_plus_const : forall (l : list R) c, nsum (map (fun x => x + c) l) = nsum l + INR (length l) * c.
Proof.
  induction l; intros; cbn [map length]; rewrite ?nsum_nil, ?nsum_cons; [cbn; lra|]. rewrite IHl, S_INR. lra.
Qed.
Lemma nsum_unit : forall K, (0 < K)%nat -> nsum (upd (repeat 0 K) 0 1) = 1.
Proof.
  intros [|K] H; [lia|]. cbn [repeat upd]. rewrite nsum_cons.
  assert (nsum (repeat 0 K) = 0); [|lra]. clear H. induction K; cbn [repeat]; rewrite ?nsum_nil, ?nsum_cons; lra.
Qed.
Lemma class_start : forall nc (o : smooth_opts R) K, (0 < K)%nat -> o_lamb_draws o = None -> 1 + o_class_eps o <> 0 ->
  forall k, (k < K)%nat -> nth k (initial_lamb (Class nc) o K) 0 =
    ((if Nat.eqb k 0 then 1 else 0) + o_class_eps o / INR K) / (1 + o_class_eps o).
Proof.
  intros nc o K KP SD NZ k Hk. unfold initial_lamb. rewrite SD. rn.
  set (l0 := upd (repeat 0 K) 0 1). assert (LL : length l0 = K) by (unfold l0; rewrite upd_length, repeat_length; auto).
  set (l1 := map (fun x => x + 1 * o_class_eps o / INR (length l0)) l0).
  assert (KI : INR K <> 0) by (apply not_0_INR; lia).
  assert (S1 : nsum l1 = 1 + o_class_eps o).
  { unfold l1. rewrite nsum_map_plus_const. unfold l0. rewrite nsum_unit by auto. fold l0. rewrite LL. field. auto. }
  rewrite (normalise_one (normalise l1)) by (apply normalise_sum; lra).
  unfold normalise. rewrite S1. rn. rewrite nth_map_in with (d := 0) by (unfold l1; rewrite map_length; lia).
  unfold l1. rewrite nth_map_in with (d := 0) by lia. unfold l0 at 1. rewrite unit_nth.
  destruct (Nat.ltb_spec 0 K); [|lia]. rewrite andb_true_r, LL. f_equal. f_equal. field. auto.
Qed.
Lemma class_start_unit : forall nc (o : smooth_opts R) K, (0 < K)%nat -> o_lamb_draws o = None -> o_class_eps o = 0 ->
  initial_lamb (Class nc) o K = upd (repeat 0 K) 0 1.
Proof.
  intros nc o K KP SD EZ. apply nth_eq_ext with (d := 0).
  - rewrite initial_lamb_length, upd_length, repeat_length. auto.
  - intros k Hk. rewrite initial_lamb_length in Hk. rewrite class_start by (auto; lra). rewrite EZ, unit_nth.
    destruct (Nat.ltb_spec 0 K); [|lia]. rewrite andb_true_r. destruct (Nat.eqb k 0); unfold Rdiv; rewrite Rplus_0_r, ?Rinv_1; lra.
Qed.

Lemma p_C12_zero : forall lg nc ts (o : smooth_opts R) rd out, smooth lg (Forest (Class nc) ts) o rd = Ok out ->
  Forall (@wf_tree R) ts -> Forall pos_leaves ts -> ts <> [] ->
  o_sanity o = true -> o_lamb_draws o = None -> o_class_eps o = 0 -> separated o ts ->
  forall q t, nth_error ts q = Some t -> exists t', nth_error (s_forest out) q = Some t' /\
  forall i c, (i < n_leaves t)%nat -> (c < nc)%nat -> leaf_v t' c i = leaf_v t c i / leaf_w t i.
Proof.
  intros lg nc ts o rd out H W PL NE SA SD EZ SEP q t N.
  destruct (sanity_start lg _ ts o rd out H W NE SA) as (K&KP&EL&_).
  destruct (smooth_desc lg _ ts o rd out H W NE) as (_&_&_&LF&_&D1&_).
  destruct (D1 q t N) as (t'&N'&S&V). exists t'. split; auto. intros i c Hi Hc.
  pose proof (nth_error_In _ _ N) as It. destruct (V i Hi) as (kap&KK&_&_&VV).
  rewrite EL, class_start_unit in KK by auto.
  pose proof (unit_kernel o ts t K i kap W It SEP KP Hi KK) as U.
  rewrite Forall_forall in PL. pose proof (PL t It i Hi) as WP.
  unfold leaf_v at 1. destruct (same_leaf_id t t' i S) as [-> _]. rewrite VV by auto.
  rewrite (kmean_unit t _ kap i c Hi ltac:(lra) U). reflexivity.
Qed.

Lemma p_C12_pos : forall lg nc ts (o : smooth_opts R) rd out, smooth lg (Forest (Class nc) ts) o rd = Ok out ->
  Forall (@wf_tree R) ts -> Forall pos_leaves ts -> Forall (class_counts nc) ts -> ts <> [] ->
  o_sanity o = true -> o_lamb_draws o = None -> 0 < o_class_eps o ->
  forall q t, nth_error ts q = Some t -> exists t', nth_error (s_forest out) q = Some t' /\
  forall i j c, (i < n_leaves t)%nat -> (j < n_leaves t)%nat -> (c < nc)%nat -> leaf_v t c i = 0 -> 0 < leaf_v t c j ->
    0 < leaf_v t' c i.
Proof.
  intros lg nc ts o rd out H W PL CC NE SA SD EP q t N.
  destruct (sanity_start lg _ ts o rd out H W NE SA) as (K&KP&EL&_).
  destruct (smooth_desc lg _ ts o rd out H W NE) as (_&_&_&LF&_&D1&_).
  destruct (D1 q t N) as (t'&N'&S&V). exists t'. split; auto. intros i j c Hi Hj Hc Zi Pj.
  pose proof (nth_error_In _ _ N) as It. destruct (V i Hi) as (kap&_&KPOS&_&VV).
  assert (LP : forall x, In x (s_lamb out) -> 0 < x).
  { rewrite EL. intros x Hx. destruct (In_nth _ _ 0 Hx) as (k&Hk&<-). rewrite initial_lamb_length in Hk.
    rewrite class_start by (auto; lra). apply Rdiv_lt_0_compat; [|lra].
    assert (0 < o_class_eps o / INR K) by (apply Rdiv_lt_0_compat; auto; apply lt_0_INR; auto).
    destruct (Nat.eqb k 0); lra. }
  specialize (KPOS LP). rewrite Forall_forall in PL, CC. specialize (PL t It). specialize (CC t It).
  unfold leaf_v at 1. destruct (same_leaf_id t t' i S) as [-> _]. rewrite VV by auto.
  assert (MP : 0 < kmass t kap).
  { pose proof (kmass_nonneg t kap PL) as X. destruct X as [X|X]; auto.
    - intros k Hk. left. auto.
    - exfalso. assert (kap i = 0); [|specialize (KPOS i Hi); lra].
      apply (kmass_zero t kap PL); auto. intros k Hk. left. auto. }
  unfold kmean. destruct (Req_EM_T (kmass t kap) 0); [lra|]. apply Rdiv_lt_0_compat; auto.
  assert (NN : forall k, (k < n_leaves t)%nat -> 0 <= kap k * leaf_ny t (Class nc) c k).
  { intros k Hk. apply Rmult_le_pos; [left; auto|]. apply (CC k Hk); auto. }
  pose proof (sumto_elem_le _ _ j NN Hj) as X. cbv beta in X.
  assert (0 < kap j * leaf_ny t (Class nc) c j) by (apply Rmult_lt_0_compat; auto). lra.
Qed.

(** *** scaling *)
Lemma fills_scale : forall (G E : mat R) l r, r <> 0 ->
  new_values G E (map (Rmult r) l) = new_values G E l.
Proof.
  intros G E l r NZ. unfold new_values, mv. rewrite !map2_map_l, !map2_map_r.
  assert (X : forall a b : list R, (if neqb (dot b (map (Rmult r) l)) n0 then n0
     else ndiv (dot a (map (Rmult r) l)) (if neqb (dot b (map (Rmult r) l)) n0 then n1 else dot b (map (Rmult r) l)))
   = (if neqb (dot b l) n0 then n0 else ndiv (dot a l) (if neqb (dot b l) n0 then n1 else dot b l))).
  { intros a b. change (map (Rmult r) l) with (map (fun x => r * x) l). rewrite !dot_scal_r. rn.
    destruct (Reqb_spec (dot b l) 0) as [Z|Z].
    - rewrite Z, Rmult_0_r, (Reqb_true 0 0); auto.
    - rewrite (Reqb_false (r * dot b l) 0); [field; auto|]. intro Q. apply Rmult_integral in Q. tauto. }
  apply map2_ext_in. intros a b _ _. apply X.
Qed.
Lemma mv_scale : forall (M : mat R) l r, mv M (map (Rmult r) l) = map (Rmult r) (mv M l).
Proof. intros. unfold mv. rewrite map_map. apply map_ext. intros a. change (map (Rmult r) l) with (map (fun x => r * x) l). apply dot_scal_r. Qed.
Lemma cost_scale : forall y (G E : mat R) w l r, r <> 0 -> length G = length E ->
  (forall i, (i < length E)%nat -> dot (nth i E []) l = 0 -> dot (nth i G []) l = 0) ->
  calc_cost y G E w (map (Rmult r) l) = calc_cost y G E w l.
Proof.
  intros y G E w l r NZ LG Z. unfold calc_cost.
  assert (RZ : forall x, r * x = 0 <-> x = 0).
  { intros x. split; [intros Q; apply Rmult_integral in Q; tauto|intros ->; ring]. }
  assert (F1 : fills G E (map (Rmult r) l) = Ok (map (Rmult r) (mv G l), fill1 (map (Rmult r) (mv E l)))).
  { unfold fills. rewrite !mv_scale. rewrite (proj2 (zero_ok_spec (map (Rmult r) (mv G l)) (map (Rmult r) (mv E l)) ltac:(rewrite !map_length, !mv_length; auto))); auto.
    intros i Hi. rewrite map_length, mv_length in Hi. rewrite !nth_map_in with (d := 0) by (rewrite mv_length; lia).
      rewrite !mv_nth. rewrite !RZ. intros Q. apply Z; auto. lia. }
  assert (F2 : fills G E l = Ok (mv G l, fill1 (mv E l))).
  { unfold fills. rewrite (proj2 (zero_ok_spec (mv G l) (mv E l) ltac:(rewrite !mv_length; auto))); auto.
    intros i Hi. rewrite mv_length in Hi. rewrite !mv_nth. intros Q. apply Z; auto. lia. }
  rewrite F1, F2. cbn [bind]. do 4 f_equal.
  apply nth_eq_ext with (d := 0).
  - rewrite !map2_length. unfold fill1. rewrite !map_length. auto.
  - intros i Hi. rewrite map2_length in Hi. unfold fill1 in Hi. rewrite !map_length, !mv_length in Hi.
    rewrite !nth_map2 with (da := 0) (db := 0) by (unfold fill1; rewrite ?map_length, ?mv_length; lia).
    rewrite !fill1_nth by (rewrite ?map_length, ?mv_length; lia).
    rewrite !nth_map_in with (d := 0) by (rewrite mv_length; lia). rewrite !mv_nth. rn.
    specialize (Z i ltac:(lia)). set (g := dot (nth i G []) l) in *. set (e := dot (nth i E []) l) in *.
    destruct (Req_EM_T (r * e) 0) as [Q|Q], (Req_EM_T e 0) as [Q'|Q']; try (exfalso; apply (proj1 (RZ e)) in Q; tauto).
    + rewrite (Z Q'). unfold Rdiv. ring.
    + exfalso. apply Q, (proj2 (RZ e)). auto.
    + field. auto.
Qed.

(** *** classes *)
Lemma p_C15 : forall lg nc ts (o : smooth_opts R) rd out,
  smooth lg (Forest (Class nc) ts) o rd = Ok out -> Forall (@wf_tree R) ts -> Forall pos_leaves ts ->
  Forall (class_counts nc) ts -> ts <> [] -> draws_nonneg o -> 0 <= o_class_eps o ->
  forall q t, nth_error ts q = Some t -> exists t', nth_error (s_forest out) q = Some t' /\
  forall i, (i < n_leaves t)%nat ->
    (forall c, (c < nc)%nat -> 0 <= leaf_v t' c i <= 1) /\
    (sumto nc (fun c => leaf_v t' c i) = 1 \/
     ((forall c, (c < nc)%nat -> leaf_v t' c i = 0) /\
      exists kap, smooth_kernel o ts t (s_lamb out) i kap /\ forall j, (j < n_leaves t)%nat -> kap j = 0)).
Proof.
  intros lg nc ts o rd out H W PL CC NE DN EP q t N.
  destruct (smooth_desc lg _ ts o rd out H W NE) as (NC&_&_&_&_&D1&_).
  destruct (smooth_lamb_nonneg lg _ ts o rd out H W NE NC DN (or_intror EP)) as (LN&_).
  destruct (D1 q t N) as (t'&N'&S&V). exists t'. split; auto. intros i Hi.
  destruct (V i Hi) as (kap&KK&_&_&VV). pose proof (nth_error_In _ _ N) as It.
  rewrite Forall_forall in PL, CC.
  destruct (kmean_class t nc kap (CC t It) (PL t It) (kernel_nonneg _ _ _ _ _ _ LN KK)) as [A B].
  assert (EL : forall c, (c < nc)%nat -> leaf_v t' c i = kmean t (Class nc) kap c).
  { intros c Hc. unfold leaf_v. destruct (same_leaf_id t t' i S) as [-> _]. apply VV. auto. }
  split; [intros c Hc; rewrite EL; auto|]. destruct B as [B|[B1 B2]].
  - left. rewrite <- B. apply sumto_ext. intros; apply EL; auto.
  - right. split; [intros c Hc; rewrite EL; auto|]. exists kap. auto.
Qed.

(** *** structure *)
Lemma p_C16 : forall lg kd ts (o : smooth_opts R) rd out, smooth lg (Forest kd ts) o rd = Ok out ->
  Forall (@wf_tree R) ts -> ts <> [] ->
  length (s_forest out) = length ts /\ length (s_forest2 out) = length ts /\
  forall q t, nth_error ts q = Some t ->
    exists t1 t2, nth_error (s_forest out) q = Some t1 /\ nth_error (s_forest2 out) q = Some t2 /\
      same_but_leaf_values t t1 /\ same_but_leaf_values t t2 /\
      (wf_values kd t -> wf_values kd t1 /\ wf_values kd t2).
Proof.
  intros lg kd ts o rd out H W NE.
  destruct (smooth_desc lg _ ts o rd out H W NE) as (_&_&_&L1&L2&D1&D2). split; auto. split; auto.
  intros q t N. destruct (D1 q t N) as (t1&N1&S1&V1). destruct (D2 q t N) as (t2&N2&S2&V2).
  exists t1, t2. repeat (split; [solve [auto]|]). intros WV.
  assert (X : forall t', same_but_leaf_values t t' -> (forall i, (i < n_leaves t)%nat -> length (nth (leaf_id t i) (t_value t') []) = n_gamma kd) -> wf_values kd t').
  { intros t' S LR v Hv. pose proof S as (SL&_&_&_&_&_&_&SV). unfold size in Hv. rewrite SL in Hv. fold (size t) in Hv.
    destruct (is_leafb t v) eqn:EL; [|rewrite SV; auto]. destruct (leaf_index t v Hv EL) as (i&Hi&<-). auto. }
  split; apply X; auto.
  - intros i Hi. destruct (V1 i Hi) as (kap&_&_&LR&_). auto.
  - intros i Hi. destruct (V2 i Hi) as (LR&_). auto.
Qed.

(** *** all_trees *)
Lemma in_concat_repeat : forall {A} (l : list A) n x, In x (concat (repeat l n)) -> In x l.
Proof. induction n; cbn [repeat concat]; intros x H; [destruct H|]. apply in_app_or in H. destruct H; auto. Qed.
Lemma targets_ext : forall kd (o : smooth_opts R) rd1 rd2 ts, (forall q, r_oob rd1 q = r_oob rd2 q) -> (forall q, r_boot rd1 q = r_boot rd2 q) ->
  all_targets kd o rd1 ts = all_targets kd o rd2 ts.
Proof.
  intros kd o rd1 rd2 ts H1 H2. unfold all_targets. generalize (combine (seq 0 (length ts)) ts). intros l.
  generalize (@nil (list R), @nil R). induction l as [|it l IH]; intros acc; auto. cbn [foldM].
  assert (E : add_targets kd o rd1 acc it = add_targets kd o rd2 acc it).
  { unfold add_targets, tuning_data. rewrite H1, H2. auto. }
  rewrite E. destruct (add_targets kd o rd2 acc it); cbn [bind]; auto.
Qed.
Lemma p_C19 : forall lg rf (o : smooth_opts R) rd1 rd2, o_all_trees o = true ->
  (forall q, r_oob rd1 q = r_oob rd2 q) -> (forall q, r_boot rd1 q = r_boot rd2 q) -> length (r_draws rd1) = length (r_draws rd2) ->
  smooth lg rf o rd1 = smooth lg rf o rd2.
Proof.
  intros lg rf o rd1 rd2 AT H1 H2 HL. destruct rf as [kd ts|]; [|reflexivity]. unfold smooth.
  destruct (_ && _)%bool; auto. destruct (match kd with Class _ => o_no_constraint o | Reg => false end); auto.
  destruct (forest_matrices kd o ts) as [[[G E] Ti]|]; cbn [bind]; auto.
  rewrite (targets_ext kd o rd1 rd2 ts H1 H2). destruct (all_targets kd o rd2 ts) as [[Y W]|]; cbn [bind]; auto.
  set (P := flatten kd o G E Ti Y W).
  assert (ZI : forall i, In i (p_tidx P) -> i = 0%nat).
  { intros i Hi. unfold P, flatten in Hi. cbn [p_tidx] in Hi. rewrite AT in Hi. apply in_concat_repeat in Hi.
    apply in_map_iff in Hi. destruct Hi as (_&<-&_). auto. }
  assert (EO : optimise lg kd o rd1 P (initial_lamb kd o (ncols E)) = optimise lg kd o rd2 P (initial_lamb kd o (ncols E))).
  { unfold optimise. destruct (o_sanity o); auto.
    assert (E1 : forall c, stocastic_grad_descent P (initial_lamb kd o (ncols E)) (o_t_fix o) c (o_adam o) (r_draws rd1)
        = stocastic_grad_descent P (initial_lamb kd o (ncols E)) (o_t_fix o) c (o_adam o) (r_draws rd2)).
    { intros c. unfold stocastic_grad_descent. destruct (negb _); auto. destruct (c && _)%bool; auto. apply sgd_run_draws; auto. }
    assert (E2 : forall c, stocastic_grad_descent_ce lg P (initial_lamb kd o (ncols E)) (o_t_fix o) c (o_class_eps o) (o_adam o) (r_draws rd1)
        = stocastic_grad_descent_ce lg P (initial_lamb kd o (ncols E)) (o_t_fix o) c (o_class_eps o) (o_adam o) (r_draws rd2)).
    { intros c. unfold stocastic_grad_descent_ce. destruct (negb _); auto. apply sgd_run_draws; auto. }
    destruct kd; auto. destruct (o_class_loss o); auto. }
  rewrite EO. reflexivity.
Qed.

(** *** cross entropy *)
Lemma p_C22 : forall lg nc ts (o : smooth_opts R) rd, o_class_loss o = CE -> o_sanity o = false -> r_draws rd <> [] ->
  exists e, smooth lg (Forest (Class nc) ts) o rd = Err e.
Proof.
  intros lg nc ts o rd LC SA DR. unfold smooth. destruct (_ && _)%bool; eauto.
  destruct (o_no_constraint o) eqn:NC; eauto. destruct (forest_matrices _ o ts) as [[[G E] Ti]|]; cbn [bind]; eauto.
  destruct (all_targets _ o rd ts) as [[Y W]|]; cbn [bind]; eauto.
  unfold optimise. rewrite SA, LC, NC. cbn [negb].
  edestruct sgd_ce_never with (lg := lg) as (e&He); [exact DR|]. rewrite He. cbn [bind]. eauto.
Qed.
Lemma p_C22_exact : forall lg nc ts (o : smooth_opts R) rd m YW, o_class_loss o = CE -> o_sanity o = false -> r_draws rd <> [] ->
  (0 < nc)%nat -> Forall (@wf_tree R) ts -> ts <> [] -> o_no_constraint o = false ->
  (o_X_trained o <> None /\ o_y_trained o <> None) ->
  forest_matrices (Class nc) o ts = Ok m -> all_targets (Class nc) o rd ts = Ok YW ->
  smooth lg (Forest (Class nc) ts) o rd = Err AssertionError.
Proof.
  intros lg nc ts o rd [[G E] Ti] [Y W] LC SA DR NP WT NE NC [T1 T2] FM AT. unfold smooth.
  assert (X : (isNone (o_X_trained o) || isNone (o_y_trained o))%bool = false).
  { destruct (o_X_trained o), (o_y_trained o); congruence || reflexivity. }
  rewrite X, andb_false_r, NC, FM. cbn [bind]. rewrite AT. cbn [bind].
  destruct (forest_matrices_mats _ o ts G E Ti WT NE FM) as (K&sel&KP&M&_).
  destruct (ncols_mats _ _ _ _ _ _ _ WT NE M) as (NC1&NC2&NE2).
  unfold optimise. rewrite SA, LC, NC. cbn [negb]. rewrite sgd_ce_fails; auto.
  - cbn [p_Gamma flatten]. rewrite initial_lamb_length, NC1. apply NC2. cbn. lia.
  - cbn [p_tidx flatten n_gamma]. destruct M as (_&_&LT&_). destruct nc; [lia|]. cbn [repeat concat].
    destruct E; [congruence|]. cbn [length] in LT. destruct Ti; [cbn in LT; lia|].
    destruct (o_all_trees o); discriminate.
Qed.

(** *** argument errors *)
Lemma p_C30 : forall lg (o : smooth_opts R) rd,
  (smooth lg OtherObject o rd = Err ValueError) /\
  (forall kd ts, (o_resample o = true \/ o_X_tune o = None \/ o_y_tune o = None) ->
     (o_X_trained o = None \/ o_y_trained o = None) -> smooth lg (Forest kd ts) o rd = Err TypeError) /\
  (forall nc ts, ~ ((o_resample o = true \/ o_X_tune o = None \/ o_y_tune o = None) /\ (o_X_trained o = None \/ o_y_trained o = None)) ->
     o_no_constraint o = true -> smooth lg (Forest (Class nc) ts) o rd = Err ValueError).
Proof.
  intros lg o rd. split; [reflexivity|].
  assert (A : (oob_logic o || o_resample o)%bool = true <-> (o_resample o = true \/ o_X_tune o = None \/ o_y_tune o = None)).
  { unfold oob_logic. destruct (o_resample o), (o_X_tune o), (o_y_tune o); cbn; split; intros; auto; try discriminate;
    intuition discriminate. }
  assert (B : (isNone (o_X_trained o) || isNone (o_y_trained o))%bool = true <-> (o_X_trained o = None \/ o_y_trained o = None)).
  { destruct (o_X_trained o), (o_y_trained o); cbn; split; intros; auto; try discriminate; intuition discriminate. }
  split.
  - intros kd ts H1 H2. unfold smooth. apply A in H1. apply B in H2. rewrite H1, H2. reflexivity.
  - intros nc ts H1 H2. unfold smooth.
    destruct (oob_logic o || o_resample o)%bool eqn:EA; cbn [andb].
    + destruct (isNone (o_X_trained o) || isNone (o_y_trained o))%bool eqn:EB; [exfalso; apply H1; split; tauto|].
      rewrite H2. reflexivity.
    + rewrite H2. reflexivity.
Qed.

(** *** missing classes *)
Lemma targets_inv : forall kd (o : smooth_opts R) rd ts Y W, all_targets kd o rd ts = Ok (Y, W) ->
  forall q t, nth_error ts q = Some t -> exists X y yl w, tuning_data kd o rd q = Ok (X, y) /\ leaf_targets (n_gamma kd) t X y = Ok (yl, w).
Proof.
  intros kd o rd ts Y W H q t N. unfold all_targets in H. pose proof (in_combine_seq ts 0 q t N) as IN. cbn [Nat.add] in IN.
  revert IN H. generalize (combine (seq 0 (length ts)) ts) (@nil (list R), @nil R).
  induction l as [|it l IH]; intros acc IN H; [destruct IN|]. cbn [foldM] in H.
  apply bind_ok in H. destruct H as (acc1&H1&H2). destruct IN as [->|IN]; [|eauto].
  unfold add_targets in H1. cbn [fst snd] in H1. apply bind_ok in H1. destruct H1 as ([X y]&HX&H1).
  apply bind_ok in H1. destruct H1 as ([yl w]&HY&_). eauto 8.
Qed.
Lemma take_rows_nth : forall {A} (l : list A) idx r, take_rows l idx = Ok r ->
  length r = length idx /\ forall x, In x r -> exists i, In i idx /\ nth_error l i = Some x.
Proof.
  intros A l idx. induction idx as [|i idx IH]; intros r H; cbn in H; [inversion H; subst; split; auto; intros x []|].
  destruct (nth_error l i) eqn:E; [|discriminate]. cbn [bind] in H. apply bind_ok in H. destruct H as (r'&H1&H2).
  inversion H2; subst. destruct (IH r' H1) as [L V]. split; [cbn; lia|]. intros x [<-|Hx]; [exists i; split; [left|]; auto|].
  destruct (V x Hx) as (i'&I1&I2). exists i'. split; [right|]; auto.
Qed.
Lemma sorted_set_nodup : forall l : list R, NoDup (sorted_set l).
Proof.
  intros l. pose proof (sorted_set_sorted l) as S. induction S as [|a m S IH F]; [constructor|]. constructor; auto.
  intros I0. rewrite Forall_forall in F. specialize (F a I0). lra.
Qed.
Lemma p_C31 : forall lg nc ts (o : smooth_opts R) rd q X y classes a,
  (q < length ts)%nat -> o_X_trained o = Some X -> o_y_trained o = Some y ->
  (o_resample o = true \/ o_X_tune o = None \/ o_y_tune o = None) ->
  NoDup classes -> length classes = nc -> (forall v, In v y -> In v classes) -> In a classes ->
  (forall i, In i (if o_resample o then r_boot rd q else r_oob rd q) -> nth_error y i <> Some a) ->
  exists e, smooth lg (Forest (Class nc) ts) o rd = Err e.
Proof.
  intros lg nc ts o rd q X y classes a Hq HX HY OOB ND LC INC IA MISS.
  unfold smooth. destruct (_ && _)%bool; eauto. destruct (o_no_constraint o); eauto.
  destruct (forest_matrices _ o ts) as [[[G E] Ti]|]; cbn [bind]; eauto.
  destruct (all_targets _ o rd ts) as [[Y W]|] eqn:AT; cbn [bind]; eauto. exfalso.
  destruct (nth_error ts q) as [t|] eqn:N; [|apply nth_error_None in N; lia].
  destruct (targets_inv _ o rd ts Y W AT q t N) as (Xt&yt&yl&w&TD&LT).
  unfold tuning_data in TD.
  assert (A : (oob_logic o || o_resample o)%bool = true).
  { unfold oob_logic. destruct (o_resample o), (o_X_tune o), (o_y_tune o); cbn; auto. intuition discriminate. }
  rewrite A, HX, HY in TD.
  assert (EI : (if oob_logic o then r_oob rd q else r_boot rd q) = (if o_resample o then r_boot rd q else r_oob rd q)).
  { unfold oob_logic. destruct (o_resample o), (o_X_tune o), (o_y_tune o); cbn; auto. intuition discriminate. }
  rewrite EI in TD. set (idx := if o_resample o then r_boot rd q else r_oob rd q) in *.
  apply bind_ok in TD. destruct TD as (Xr&T1&TD). apply bind_ok in TD. destruct TD as (yr&T2&TD).
  inversion TD; subst Xt yt; clear TD. destruct (take_rows_nth _ _ _ T1) as [L1 _]. destruct (take_rows_nth _ _ _ T2) as [L2 V2].
  unfold leaf_targets in LT. apply bind_ok in LT. destruct LT as (Vm&HV&LT).
  destruct Xr as [|x0 Xr]; [discriminate|]. destruct yr as [|y0 yr]; [cbn in *; lia|].
  destruct (negb (Nat.eqb _ _)); [discriminate|]. destruct (negb (forallb _ _)) eqn:FB; [discriminate|].
  apply negb_false_iff in FB. rewrite forallb_forall in FB.
  set (ys := y0 :: yr) in *. cbn [n_gamma response_rows] in FB.
  assert (EN : length (sorted_set ys) = nc).
  { unfold get_dummies in FB. specialize (FB _ (or_introl eq_refl)). rewrite map_length in FB. apply Nat.eqb_eq in FB. auto. }
  assert (SUB : incl (a :: sorted_set ys) classes).
  { intros v [<-|Hv]; auto. apply (proj1 (sorted_set_in ys v)) in Hv. destruct (V2 v Hv) as (i&_&Hi). apply INC. eapply nth_error_In; eauto. }
  assert (ND' : NoDup (a :: sorted_set ys)).
  { constructor; [|apply sorted_set_nodup]. intros Ha. apply (proj1 (sorted_set_in ys a)) in Ha. destruct (V2 a Ha) as (i&Hi&Hn). apply (MISS i Hi Hn). }
  pose proof (NoDup_incl_length ND' SUB) as LE. cbn [length] in LE. lia.
Qed.

(** *** alignment *)
Lemma p_C28 : forall kd (o : smooth_opts R) G E Ti Y W r c, length G = n_gamma kd -> length Y = length E -> length W = length E ->
  length Ti = length E -> (forall g, In g G -> length g = length E) -> (r < length E)%nat -> (c < n_gamma kd)%nat ->
  let P := flatten kd o G E Ti Y W in let row := (c * length E + r)%nat in
  (row < length (p_Gamma P))%nat /\
  nth row (p_Gamma P) [] = nth r (nth c G []) [] /\ nth row (p_eta P) [] = nth r E [] /\
  nth row (p_y P) 0 = nth c (nth r Y []) 0 /\ nth row (p_w P) 0 = nth r W 0 /\
  nth row (p_tidx P) 0%nat = (if o_all_trees o then 0%nat else nth r Ti 0%nat) /\
  length (p_Gamma P) = (n_gamma kd * length E)%nat /\ length (p_eta P) = (n_gamma kd * length E)%nat /\
  length (p_y P) = (n_gamma kd * length E)%nat /\ length (p_w P) = (n_gamma kd * length E)%nat /\
  length (p_tidx P) = (n_gamma kd * length E)%nat.
Proof.
  intros kd o G E Ti Y W r c LG LY LW LT LC Hr Hc P row. unfold P, flatten. cbn [p_Gamma p_eta p_y p_w p_tidx].
  assert (LGC : length (concat G) = (n_gamma kd * length E)%nat) by (rewrite (length_concat_block _ (length E)); auto).
  assert (HT : length (if o_all_trees o then map (fun _ => 0%nat) Ti else Ti) = length E) by (destruct (o_all_trees o); rewrite ?map_length; auto).
  assert (TR : forall M, In M (transpose 0 (n_gamma kd) Y) -> length M = length E).
  { intros M HM. unfold transpose in HM. apply in_map_iff in HM. destruct HM as (k&<-&_). rewrite map_length. auto. }
  assert (LTR : length (transpose 0 (n_gamma kd) Y) = n_gamma kd) by (unfold transpose; rewrite map_length, seq_length; auto).
  assert (ROW : (row < n_gamma kd * length E)%nat) by (unfold row; nia).
  split; [lia|]. split; [apply nth_concat_block; auto; lia|]. split; [apply nth_concat_repeat; auto|].
  split.
  { unfold row. rn. rewrite (nth_concat_block _ (length E)); auto; [|lia]. unfold transpose. rewrite nth_map_seq by auto.
    rewrite nth_map_in with (d := []) by lia. reflexivity. }
  split; [unfold row; rewrite <- LW; apply nth_concat_repeat; auto; lia|].
  split.
  { unfold row. rewrite <- HT. rewrite nth_concat_repeat by (auto; lia). destruct (o_all_trees o); auto.
    rewrite nth_map_in with (d := 0%nat) by lia. auto. }
  split; auto. split; [rewrite length_concat_repeat; auto|].
  split; [rn; rewrite (length_concat_block _ (length E)); auto|]. split; rewrite length_concat_repeat; auto.
Qed.
