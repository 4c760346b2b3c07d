(** L_Torch7: update_rf (C74, C75). *)
From Verif Require Import Base TreeSpec Spec SpecSmooth SpecDepth SpecTorch M_Tree M_Gamma M_Smooth M_More M_Torch M_Pytorch L_Base L_Tree L_TreeModel L_TreeModel2 L_Dist L_Gamma L_Gamma2 L_Grad L_Sgd L_Sgd2 L_Smooth L_Smooth2 L_Smooth4 L_Tune L_Depth L_More L_Torch L_Torch2 L_Torch3 L_Torch4 L_Torch5 L_Torch6.
From Coq Require Import Reals Lra Lia.
Local Open Scope R_scope.

Lemma nodup_count : forall (l : list nat) n, (forall q, In q l <-> (q < n)%nat) -> length (nodup Nat.eq_dec l) = n.
Proof.
  intros l n H. pose proof (NoDup_nodup Nat.eq_dec l) as ND. apply Nat.le_antisymm.
  - rewrite <- (seq_length n 0). apply NoDup_incl_length; auto. intros q Hq. apply nodup_In, H in Hq. apply in_seq. lia.
  - rewrite <- (seq_length n 0). apply NoDup_incl_length; [apply seq_NoDup|]. intros q Hq. apply nodup_In, H. apply in_seq in Hq. lia.
Qed.

Lemma write_tree_ok : forall nc (t : tree R) flat, wf_tree t -> (0 < nc)%nat -> length flat = (nc * n_leaves t)%nat ->
  exists t', write_tree nc t flat = Ok t' /\ same_but_leaf_values t t' /\
  forall i, (i < n_leaves t)%nat -> length (nth (leaf_id t i) (t_value t') []) = nc /\
    forall c, (c < nc)%nat -> node_v t' c (leaf_id t i) = nth (c * n_leaves t + i) flat 0.
Proof.
  intros nc t flat WF Hnc HL. unfold write_tree.
  assert (D : Nat.div (length flat) nc = n_leaves t) by (rewrite HL, Nat.mul_comm; apply Nat.div_mul; lia).
  rewrite D, HL, (Nat.mul_comm (n_leaves t)), Nat.eqb_refl. cbn [negb]. rewrite num_leaf_eq, Nat.eqb_refl. cbn [orb].
  destruct (write_leaves_ok t WF (unflatten nc (n_leaves t) flat) 0) as (t'&E&SB&V); [rewrite unflatten_length; lia|].
  exists t'. split; auto. split; auto. intros i Hi. cbn [Nat.add] in V. rewrite V by auto. split; [apply unflatten_row_length; auto|].
  intros c Hc. unfold node_v. rewrite V by auto. apply unflatten_nth; auto.
Qed.

Section Upd.
Variables (kd : kind) (ts : list (tree R)) (o : @prep_opts R) (rd : torch_rows) (p : @prep_out R) (M : nat) (G : list (mat R)) (E : mat R) (Ti : list nat).
Hypothesis W : Forall (@wf_tree R) ts.
Hypothesis NE : ts <> [].
Hypothesis Hnc : (0 < n_gamma kd)%nat.
Hypothesis MT : mats kd ts (S M) (tsel ts (po_style o) (po_parents_all o)) G E Ti.
Hypothesis PR : prep_rows kd ts o rd M G E Ti p.
Let nc := n_gamma kd.
Let B := offset ts (length ts).

Lemma tree_wf : forall q t, nth_error ts q = Some t -> wf_tree t.
Proof using W. intros q t N. rewrite Forall_forall in W. apply W. eapply nth_error_In; eauto. Qed.

Lemma ti_len : length Ti = B.
Proof using MT. destruct MT as (_&LE&LT&_). unfold B. congruence. Qed.

Lemma ti_rows : forall q t, nth_error ts q = Some t -> rows_of q Ti = seq (offset ts q) (n_leaves t).
Proof using MT.
  intros q t N. apply rows_tree; auto; [apply ti_len|]. intros q' t' i N' Hi. destruct MT as (_&_&_&_&MV). apply (MV q' t' N' i Hi).
Qed.

Lemma t_rows : forall q t, nth_error ts q = Some t -> length (rows_of q (pr_t p)) = (nc * n_leaves t)%nat /\
  forall c i, (c < nc)%nat -> (i < n_leaves t)%nat -> nth (c * n_leaves t + i) (rows_of q (pr_t p)) 0%nat = (c * B + (offset ts q + i))%nat.
Proof using MT PR.
  intros q t N. destruct PR as (_&_&_&_&_&_&_&_&_&ET&_). rewrite ET, <- ti_len. apply rows_tile. apply ti_rows; auto.
Qed.

Lemma t_trees : forall q, In q (pr_t p) <-> (q < length ts)%nat.
Proof using All.
  intros q. destruct PR as (_&_&_&_&_&_&_&_&_&ET&_). rewrite ET. split.
  - intros H. apply tile_in in H. apply (In_nth _ _ 0%nat) in H. destruct H as (r&Hr&<-). rewrite ti_len in Hr.
    revert r Hr. apply rows_all. intros q' t' i N' Hi. destruct MT as (_&_&_&_&MV). destruct (MV q' t' N' i Hi) as (_&->&_). apply nth_error_Some. congruence.
  - intros H. destruct (nth_error ts q) as [t|] eqn:N; [|apply nth_error_None in N; lia].
    pose proof (n_leaves_pos t (tree_wf q t N)) as NP. destruct MT as (_&_&LT&_&MV). destruct (MV q t N 0%nat NP) as (R0&R1&_).
    rewrite <- R1. unfold tile. apply in_concat. exists Ti. split; [|apply nth_In; lia].
    destruct (n_gamma kd); [lia|]. left. reflexivity.
Qed.

Lemma t_num : length (nodup Nat.eq_dec (pr_t p)) = length ts.
Proof using All. apply nodup_count, t_trees. Qed.
Lemma t_nonempty : forall q, (q < length ts)%nat -> rows_of q (pr_t p) <> [].
Proof using All.
  intros q H. apply t_trees in H. intros Z. apply (In_nth _ _ 0%nat) in H. destruct H as (r&Hr&E1).
  assert (In r (rows_of q (pr_t p))); [|rewrite Z in H; destruct H]. unfold rows_of. apply filter_In. split; [apply in_seq; lia|]. rewrite E1. apply Nat.eqb_refl.
Qed.

(** *** the attributes in the dataset of the full dictionaries *)
Lemma attrs_ok : forall X q t d, softmax_structure (length (pr_eta p)) (pr_dim p) (pr_one p) (pr_two p) = Ok X ->
  nth_error ts q = Some t -> tree_depth t d -> forall c i, (c < nc)%nat -> (i < n_leaves t)%nat ->
  leaf_attrs t M i (nth (c * B + (offset ts q + i)) X []) /\
  forall v l, (v < 5)%nat -> (l <= M)%nat -> nth (S M * v + l) (nth (c * B + (offset ts q + i)) X []) 0 = nth (S M * v + l) (nth (offset ts q + i) X []) 0.
Proof using All.
  intros X q t d HX N TD. destruct PR as (PD&_&_&_&LPE&_&_&_&_&_&xn&xd&xi&xdf&xif&E1&E2&SO&V).
  rewrite LPE, PD in HX. destruct (structure_ok _ _ _ _ SO) as (X'&HX'&LX&RX&AX). assert (X' = X) by congruence. subst X'.
  destruct (V q t d N TD) as (XX&YY&yl&w&_&_&V2). clear V.
  assert (WF := tree_wf q t N).
  assert (A5 : (length (pr_one p) + length (pr_two p))%nat = 5%nat) by (rewrite E1, E2; reflexivity).
  assert (AT : forall c i, (c < nc)%nat -> (i < n_leaves t)%nat -> leaf_attrs t M i (nth (c * B + (offset ts q + i)) X [])).
  { intros c i Hc Hi l Hl. destruct (V2 c i Hc Hi) as (R0&_&_&_&_&_&VN&VD&VI&VF). fold nc B in R0, VN, VD, VI, VF. cbn zeta in *.
    set (r := (c * B + (offset ts q + i))%nat) in *.
    pose proof (AX r 0%nat l R0 ltac:(lia) ltac:(lia)) as A0. pose proof (AX r 1%nat l R0 ltac:(lia) ltac:(lia)) as A1.
    pose proof (AX r 2%nat l R0 ltac:(lia) ltac:(lia)) as A2. pose proof (AX r 3%nat l R0 ltac:(lia) ltac:(lia)) as A3.
    pose proof (AX r 4%nat l R0 ltac:(lia) ltac:(lia)) as A4.
    unfold attr in A0, A1, A2, A3, A4. rewrite E1, E2 in A0, A1, A2, A3, A4. cbn [length Nat.ltb Nat.leb Nat.sub nth snd] in A0, A1, A2, A3, A4.
    rewrite Nat.mul_0_r in A0. rewrite Nat.mul_1_r in A1. cbn [Nat.add] in A0.
    split; [rewrite A0; exact VN|]. split; [destruct VD as (dp&D1&D2); exists dp; split; auto; rewrite A1; exact D2|].
    split; [rewrite A2; exact VI|]. intros a U. destruct (VF l a Hl U) as ((dp&D1&D2)&F1&F2). split; [exists dp; split; auto; rewrite A3; exact D2|].
    intros d' TD'. assert (d' = d) by (apply (tree_depth_iff t WF) in TD; apply (tree_depth_iff t WF) in TD'; congruence). subst d'.
    split; intros Hd; rewrite A4; auto. }
  intros c i Hc Hi. split; [apply AT; auto|].
  intros v l Hv Hl. destruct (AT c i Hc Hi l Hl) as (P0&(dp&D1&P1)&P2&PA). destruct (AT 0%nat i Hnc Hi l Hl) as (Q0&(dq&D2&Q1)&Q2&QA).
  cbn [Nat.mul Nat.add] in Q0, Q1, Q2, QA.
  destruct (up_ex t WF l (leaf_id t i) (leaf_id_lt t i Hi)) as (a&U). destruct (PA a U) as ((ep&F1&P3)&P4). destruct (QA a U) as ((eq&F2&Q3)&Q4).
  assert (dp = dq) by (eapply depth_unique; eauto). assert (ep = eq) by (eapply depth_unique; eauto). subst dq eq.
  destruct v as [|[|[|[|[|v]]]]]; [| | | | |lia].
  - rewrite Nat.mul_0_r. cbn [Nat.add]. rewrite P0, Q0. reflexivity.
  - rewrite Nat.mul_1_r, P1. cbn [Nat.add] in *. rewrite Q1. reflexivity.
  - rewrite P2. cbn [Nat.mul Nat.add] in *. rewrite Q2. reflexivity.
  - rewrite P3. cbn [Nat.mul Nat.add] in *. rewrite Q3. reflexivity.
  - destruct (P4 d TD) as (P5&P6). destruct (Q4 d TD) as (Q5&Q6). destruct (le_lt_dec l d) as [L|L].
    + rewrite P5 by auto. cbn [Nat.mul Nat.add] in *. rewrite Q5 by auto. reflexivity.
    + rewrite P6 by auto. cbn [Nat.mul Nat.add] in *. rewrite Q6 by auto. reflexivity.
Qed.

(** *** one tree *)
Variables (V : nat) (par : list (list R * R)).
Hypothesis PK : par_ok (S M) V par.
Hypothesis HS : po_style o <> MinStyle.
Hypothesis MX : is_max_depth ts M.
Hypothesis PL : forall t, In t ts -> pos_leaves t.

Lemma score_ext : forall K xs ys l, (forall v, (v < V)%nat -> nth (K * v + l) xs 0 = nth (K * v + l) ys 0) -> score K V par xs l = score K V par ys l.
Proof using. intros K xs ys l H. unfold score. f_equal. apply sumto_ext. intros v Hv. rewrite H by auto. reflexivity. Qed.
Lemma soft_ext : forall K s1 s2 k, (forall l, (l < K)%nat -> s1 l = s2 l) -> (k < K)%nat -> soft K s1 k = soft K s2 k.
Proof using. intros K s1 s2 k H Hk. unfold soft. rewrite H by auto. f_equal. apply sumto_ext. intros l Hl. rewrite H by auto. reflexivity. Qed.

Lemma leaf_ratio : forall q t i c (lamf : nat -> R), nth_error ts q = Some t -> (i < n_leaves t)%nat -> (c < nc)%nat ->
  (forall k, (k < S M)%nat -> 0 < lamf k) ->
  exists kap, is_kernel t (po_style o) (po_parents_all o) (map lamf (seq 0 (S M))) i kap /\
   (forall j, (j < n_leaves t)%nat -> 0 < kap j) /\
   kap = kap_sel (tsel ts (po_style o) (po_parents_all o)) (map lamf (seq 0 (S M))) q i /\
   ratio (S M) (nth (offset ts q + i) (nth c G []) []) (nth (offset ts q + i) E []) lamf = kmean t kd kap c.
Proof using All.
  intros q t i c lamf N Hi Hc LP. set (lamb := map lamf (seq 0 (S M))).
  assert (LL : length lamb = S M) by (unfold lamb; rewrite map_length, seq_length; auto).
  assert (KN := depth_kernel (po_parents_all o) (po_style o) ts q t i lamb W N Hi).
  rewrite (max_depth_calc ts M W NE MX) in KN. specialize (KN ltac:(lia)).
  assert (PP : forall x, In x lamb -> 0 < x).
  { intros x Hx. unfold lamb in Hx. apply in_map_iff in Hx. destruct Hx as (k&<-&Hk). apply in_seq in Hk. apply LP. lia. }
  exists (kap_sel (tsel ts (po_style o) (po_parents_all o)) lamb q i). split; [exact KN|].
  assert (KP : forall j, (j < n_leaves t)%nat -> 0 < kap_sel (tsel ts (po_style o) (po_parents_all o)) lamb q i j).
  { intros j Hj. destruct (KN j Hj) as (d&Dd&_). pose proof (tree_wf q t N) as WF.
    destruct (leaf_dist_conv t (po_style o) i j WF Hi Hj) as (d'&ED&Dd').
    assert (d' = d) by (eapply leaf_dist_unique; eauto). subst d'.
    pose proof (create_tree_ok t WF (po_style o) kd (po_parents_all o)) as (m&_&_&_&MM&_).
    assert (DM : (d <= M)%nat).
    { assert (D1 : (d <= max_depth_of t)%nat).
      { pose proof (max_dist_is_depth t WF (po_style o) HS) as [M1 _]. apply (M1 i j d); auto. }
      destruct (proj2 (tree_depth_iff t WF _) eq_refl) as [_ (t2&v&[<-|[]]&D2)]. destruct MX as [M2 _].
      pose proof (M2 t v _ (nth_error_In _ _ N) D2). lia. }
    apply (kap_sel_pos _ _ _ _ _ d); auto; [lia|]. unfold tsel. rewrite N. unfold csel. rewrite ED. destruct (po_parents_all o); [apply Z.leb_refl|apply Z.eqb_refl]. }
  split; [exact KP|]. split; [reflexivity|].
  assert (PT : pos_leaves t) by (apply PL; eapply nth_error_In; eauto).
  assert (MP : 0 < kmass t (kap_sel (tsel ts (po_style o) (po_parents_all o)) lamb q i)).
  { unfold kmass. apply sumto_pos; [apply n_leaves_pos, (tree_wf q t N)|]. intros j Hj. apply Rmult_lt_0_compat; auto. }
  unfold kmean. destruct (Req_EM_T _ 0) as [Z|_]; [lra|].
  rewrite <- (mats_eta kd ts (S M) _ G E Ti MT q t i lamb N Hi LL), <- (mats_gamma kd ts (S M) _ G E Ti MT q t i lamb c N Hi LL Hc).
  destruct MT as (_&_&_&_&MV). destruct (MV q t N i Hi) as (_&_&LE&_&VG). destruct (VG c Hc) as (LG&_).
  rewrite !dot_sumto by congruence. rewrite LE, LG. unfold ratio.
  apply (f_equal2 Rdiv); apply sumto_ext; intros k Hk; unfold lamb; rewrite nth_map_seq by auto; reflexivity.
Qed.

Lemma tree_forward : forall d, (V <= 5)%nat ->
  forest_dataset (pr_y p) (pr_Gamma p) (pr_eta p) (pr_w p) (pr_t p) (pr_one p) (pr_two p) (pr_dim p) = Ok d ->
  forall q t, nth_error ts q = Some t -> exists yt w la t',
    forward exp {| m_vars := V; m_dim := S M; m_lin := par |} (getitem d q) = Ok (yt, w, la) /\
    write_tree nc t (dat yt) = Ok t' /\ same_but_leaf_values t t' /\
    forall i, (i < n_leaves t)%nat -> soft_leaf kd (po_style o) (po_parents_all o) M V par t t' i.
Proof using All.
  intros d HV FD q t N. unfold forest_dataset in FD.
  destruct (softmax_structure (length (pr_eta p)) (pr_dim p) (pr_one p) (pr_two p)) as [X|] eqn:HX; [|discriminate]. cbn [bind] in FD.
  assert (Ed : d = {| ds_y := pr_y p; ds_Gamma := pr_Gamma p; ds_eta := pr_eta p; ds_w := pr_w p; ds_t := pr_t p; ds_x := X; ds_num := length (nodup Nat.eq_dec (pr_t p)) |}) by congruence.
  clear FD. pose proof (tree_wf q t N) as WF. pose proof (n_leaves_pos t WF) as NP.
  pose proof (attrs_ok X q t _ HX N (proj2 (tree_depth_iff t WF _) eq_refl)) as AT.
  destruct (t_rows q t N) as (RL&RN).
  pose proof PR as (PD&_&LPY&LPG&LPE&LPW&LPT&RG&RE&_&xn&xd&xi&xdf&xif&E1&E2&SO&PV).
  rewrite LPE, PD in HX. destruct (structure_ok _ _ _ _ SO) as (X'&HX'&LX&RX&_). assert (X' = X) by congruence. subst X'. clear HX'.
  assert (A5 : (length (pr_one p) + length (pr_two p))%nat = 5%nat) by (rewrite E1, E2; reflexivity). rewrite A5 in RX.
  destruct (PV q t _ N (proj2 (tree_depth_iff t WF _) eq_refl)) as (XX&YY&yl&w0&_&_&PV2). clear PV. fold nc B in PV2.
  set (msk := map (fun i => Nat.eqb i q) (pr_t p)).
  assert (ML : forall A (l : list A), length l = (nc * B)%nat -> length (mask_select msk l) = (nc * n_leaves t)%nat).
  { intros A l Hl. rewrite <- RL. symmetry. eapply F2_length. apply (picked_mask l (pr_t p) q). rewrite LPT. exact Hl. }
  assert (MN : forall A (l : list A) dd c i, length l = (nc * B)%nat -> (c < nc)%nat -> (i < n_leaves t)%nat ->
    nth (c * n_leaves t + i) (mask_select msk l) dd = nth (c * B + (offset ts q + i)) l dd).
  { intros A l dd c i Hl Hc Hi. rewrite (picked_nth _ l (rows_of q (pr_t p)) (mask_select msk l) dd).
    - rewrite RN by auto. reflexivity.
    - apply picked_mask. rewrite LPT. exact Hl.
    - rewrite RL. nia. }
  destruct (forward_batch (S M) V par (getitem d q) (mask_select msk (pr_y p)) (mask_select msk (pr_w p)) (mask_select msk (pr_Gamma p)) (mask_select msk (pr_eta p)) (mask_select msk X)
     (nc * n_leaves t) (S M * 5)) as (yt&la&F&_&LY&VY&_); auto.
  { rewrite Ed. reflexivity. }
  { lia. }
  { unfold nc. nia. }
  { intros r Hr. apply RG. eapply mask_select_incl; eauto. }
  { intros r Hr. apply RE. eapply mask_select_incl; eauto. }
  { intros r Hr. apply RX. eapply mask_select_incl; eauto. }
  { nia. }
  destruct (write_tree_ok nc t (dat yt) WF Hnc LY) as (t'&WT&SB&TV).
  exists yt, (batch_vec (mask_select msk (pr_w p))), la, t'. split; [exact F|]. split; auto. split; auto.
  intros i Hi. destruct (TV i Hi) as (TL&TC). split; [exact TL|].
  set (xs := nth (offset ts q + i) X []).
  set (lamf := soft (S M) (score (S M) V par xs)).
  assert (LP : forall k, (k < S M)%nat -> 0 < lamf k) by (intros; apply soft_pos; lia).
  exists xs, (kap_sel (tsel ts (po_style o) (po_parents_all o)) (map lamf (seq 0 (S M))) q i).
  split; [apply (AT 0%nat i Hnc Hi)|].
  destruct (leaf_ratio q t i 0 lamf N Hi Hnc LP) as (kap&K1&K2&K3&_). rewrite <- K3. split; [exact K1|]. split; [exact K2|].
  intros c Hc. destruct (leaf_ratio q t i c lamf N Hi Hc LP) as (kap'&_&_&K3'&K4). rewrite K3, <- K3', <- K4.
  rewrite TC by auto. rewrite VY by (unfold nc; nia).
  destruct (PV2 c i Hc Hi) as (R0&_&RE2&RG2&_). cbn zeta in *.
  rewrite !MN by auto. rewrite RE2, RG2. unfold ratio.
  assert (SE : forall k, (k < S M)%nat -> soft (S M) (score (S M) V par (nth (c * B + (offset ts q + i)) X [])) k = lamf k).
  { intros k Hk. unfold lamf. apply soft_ext; auto. intros l Hl. apply score_ext. intros v Hv. unfold xs. apply (AT c i Hc Hi); lia. }
  apply (f_equal2 Rdiv); apply sumto_ext; intros k Hk; rewrite SE by auto; reflexivity.
Qed.

Definition upd_body (d : @dataset R) (f : list (tree R)) (i : nat) : result (list (tree R)) :=
  do '(yt, _, _) <- forward exp {| m_vars := V; m_dim := S M; m_lin := par |} (getitem d i);
  match nth_error f i with
  | None => Err IndexError
  | Some t => do t' <- write_tree nc t (dat yt); Ok (upd f i t')
  end.

Lemma upd_loop : forall d, (V <= 5)%nat ->
  forest_dataset (pr_y p) (pr_Gamma p) (pr_eta p) (pr_w p) (pr_t p) (pr_one p) (pr_two p) (pr_dim p) = Ok d ->
  forall n, (n <= length ts)%nat -> exists f, foldM (upd_body d) (seq 0 n) ts = Ok f /\ length f = length ts /\
  forall q t, nth_error ts q = Some t ->
    ((n <= q)%nat -> nth_error f q = Some t) /\
    ((q < n)%nat -> exists t', nth_error f q = Some t' /\ same_but_leaf_values t t' /\
       forall i, (i < n_leaves t)%nat -> soft_leaf kd (po_style o) (po_parents_all o) M V par t t' i).
Proof using All.
  intros d HV FD n. induction n as [|n IH]; intros Hn.
  - exists ts. split; [reflexivity|]. split; auto. intros q t N. split; [auto|intros; lia].
  - destruct IH as (f&F&LF&P); [lia|].
    destruct (nth_error ts n) as [t|] eqn:N; [|apply nth_error_None in N; lia].
    destruct (tree_forward d HV FD n t N) as (yt&w&la&t'&FW&WT&SB&SL).
    exists (upd f n t'). rewrite seq_S, foldM_app, F. cbn [bind foldM Nat.add]. unfold upd_body. rewrite FW. cbn [bind].
    rewrite (proj1 (P n t N) (le_n n)), WT. cbn [bind]. split; [reflexivity|]. split; [rewrite upd_length; auto|].
    intros q t2 N2. destruct (Nat.eq_dec q n) as [->|NQ].
    + assert (t2 = t) by congruence. subst t2. split; [lia|]. intros _. exists t'. split; [|auto].
      rewrite (nth_error_nth' _ t) by (rewrite upd_length; lia). rewrite nth_upd_eq by lia. reflexivity.
    + assert (EQ : nth_error (upd f n t') q = nth_error f q).
      { assert (q < length ts)%nat by (apply nth_error_Some; congruence).
        rewrite (nth_error_nth' _ t) by (rewrite upd_length; lia). rewrite (nth_error_nth' f t) by lia. rewrite nth_upd_neq by auto. reflexivity. }
      rewrite EQ. destruct (P q t2 N2) as (P1&P2). split; intros; [apply P1; lia|apply P2; lia].
Qed.

Lemma upd_error : forall d, (5 < V)%nat ->
  forest_dataset (pr_y p) (pr_Gamma p) (pr_eta p) (pr_w p) (pr_t p) (pr_one p) (pr_two p) (pr_dim p) = Ok d ->
  foldM (upd_body d) (seq 0 (length ts)) ts = Err IndexError.
Proof using All.
  intros d HV FD. assert (HT : exists n, length ts = S n) by (destruct ts; [congruence|eexists; reflexivity]). destruct HT as (n&HT).
  rewrite HT. cbn [seq foldM]. unfold upd_body at 1.
  unfold forest_dataset in FD.
  destruct (softmax_structure (length (pr_eta p)) (pr_dim p) (pr_one p) (pr_two p)) as [X|] eqn:HX; [|discriminate]. cbn [bind] in FD.
  assert (Ed : d = {| ds_y := pr_y p; ds_Gamma := pr_Gamma p; ds_eta := pr_eta p; ds_w := pr_w p; ds_t := pr_t p; ds_x := X; ds_num := length (nodup Nat.eq_dec (pr_t p)) |}) by congruence.
  pose proof PR as (PD&_&_&_&LPE&_&LPT&_&_&_&xn&xd&xi&xdf&xif&E1&E2&SO&_).
  rewrite LPE, PD in HX. destruct (structure_ok _ _ _ _ SO) as (X'&HX'&LX&RX&_). assert (X' = X) by congruence. subst X'.
  assert (A5 : (length (pr_one p) + length (pr_two p))%nat = 5%nat) by (rewrite E1, E2; reflexivity). rewrite A5 in RX.
  rewrite (forward_index_error (S M) V par (getitem d 0) (mask_select (map (fun i => Nat.eqb i 0) (pr_t p)) X) (S M * 5)); [reflexivity| | | | | |].
  - rewrite Ed. reflexivity.
  - lia.
  - intros Z. assert (L := F2_length _ _ _ (picked_mask X (pr_t p) 0 ltac:(rewrite LPT; exact LX))). rewrite Z in L.
    apply (t_nonempty 0); [lia|]. destruct (rows_of 0 (pr_t p)); [reflexivity|discriminate].
  - intros r Hr. apply RX. eapply mask_select_incl; eauto.
  - nia.
  - lia.
Qed.
End Upd.

Lemma update_ok : forall kd ts X y pa s rd p M V par, Forall (@wf_tree R) ts -> ts <> [] -> (0 < n_gamma kd)%nat -> s <> MinStyle -> is_max_depth ts M ->
  (forall t, In t ts -> pos_leaves t) -> par_ok (S M) V par ->
  pytorch_numpy_prep (Forest kd ts) (train_opts X y s pa) rd = Ok p ->
  ((V <= 5)%nat -> exists f, update_rf exp (Forest kd ts) {| m_vars := V; m_dim := S M; m_lin := par |} X y pa s rd = Ok f /\ length f = length ts /\
    forall q t, nth_error ts q = Some t -> exists t', nth_error f q = Some t' /\ same_but_leaf_values t t' /\
      forall i, (i < n_leaves t)%nat -> soft_leaf kd s pa M V par t t' i) /\
  ((5 < V)%nat -> update_rf exp (Forest kd ts) {| m_vars := V; m_dim := S M; m_lin := par |} X y pa s rd = Err IndexError).
Proof.
  intros kd ts X y pa s rd p M V par W NE Hnc HS MX PL PK HP.
  destruct (prep_ok kd ts (train_opts X y s pa) rd p M W NE HS MX HP) as (G&E&Ti&_&MT&PR).
  assert (FD : exists d, forest_dataset (pr_y p) (pr_Gamma p) (pr_eta p) (pr_w p) (pr_t p) (pr_one p) (pr_two p) (pr_dim p) = Ok d /\ ds_num d = length ts).
  { pose proof PR as (PD&_&_&_&LPE&_&_&_&_&_&xn&xd&xi&xdf&xif&E1&E2&SO&_). unfold forest_dataset. rewrite LPE, PD.
    destruct (structure_ok _ _ _ _ SO) as (XX&->&_). cbn [bind]. eexists. split; [reflexivity|]. cbn [ds_num].
    apply (t_num kd ts (train_opts X y s pa) rd p M G E Ti); auto. }
  destruct FD as (d&FD&DN). unfold update_rf. rewrite HP. cbn [bind]. rewrite FD. cbn [bind]. rewrite DN. split; intros HV.
  - destruct (upd_loop kd ts (train_opts X y s pa) rd p M G E Ti W NE Hnc MT PR V par PK HS MX PL d HV FD (length ts) (le_n _)) as (f&F&LF&P).
    exists f. split; [exact F|]. split; auto. intros q t N. apply (P q t N). apply nth_error_Some. congruence.
  - apply (upd_error kd ts (train_opts X y s pa) rd p M G E Ti W NE Hnc MT PR V par PK HS MX PL d HV FD).
Qed.
