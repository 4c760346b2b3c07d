(** L_PropsTree: assembled statements for Props_Tree and Props_Gamma. *)
From Verif Require Import Base TreeSpec Spec M_Tree M_Gamma L_Base L_Tree L_TreeModel L_TreeModel2 L_Dist L_Gamma L_Gamma2.
From Coq Require Import Reals Lra.
Local Open Scope nat_scope.

Lemma p_C01 : forall {T} (t : tree T), wf_tree t ->
  length (depth_per_node t) = size t /\
  forall v d, v < size t -> (nth v (depth_per_node t) 0 = d <-> depth_of t v d).
Proof.
  intros T t WF. split; [apply depth_per_node_length; auto|].
  intros. rewrite (depth_per_node_iff t WF) by auto. tauto.
Qed.

Lemma p_C02 : forall {T} (ts : list (tree T)), Forall wf_tree ts -> ts <> [] ->
  length (fst (calc_depth_for_forest ts)) = length ts /\
  (forall q t v d, nth_error ts q = Some t -> v < size t ->
     (nth v (nth q (fst (calc_depth_for_forest ts)) []) 0 = d <-> depth_of t v d)) /\
  is_max_depth ts (snd (calc_depth_for_forest ts)).
Proof.
  intros T ts W NE. split; [simpl; apply map_length|]. split.
  - intros q t v d Hq Hv. simpl.
    assert (L : q < length ts) by (apply nth_error_Some; congruence).
    rewrite nth_map_in with (d := t) by auto. rewrite (nth_error_nth ts q t Hq).
    rewrite (depth_per_node_iff t); [tauto| |auto].
    rewrite Forall_forall in W. apply W. eapply nth_error_In; eauto.
  - split.
    + intros. eapply calc_depth_upper; eauto.
    + apply calc_depth_attained; auto.
Qed.

Lemma p_C03 : forall {T} (t : tree T), wf_tree t ->
  let (vl, va) := create_decision_per_leafs t in
  length va = size t /\
  (forall i, i < size t -> length (nth i va []) = size t) /\
  (forall i j, i < size t -> j < size t ->
     (anc t j i -> nth j (nth i va []) 0 = 1) /\ (~ anc t j i -> nth j (nth i va []) 0 = 0)) /\
  vl = map (fun v => nth v va []) (leaf_ids t).
Proof.
  intros T t WF. unfold create_decision_per_leafs.
  split; [apply v_all_length; auto|]. split; [intros; apply v_row_len; auto|].
  split; [intros; split; intros; [apply v_all_anc|apply v_all_not]; auto|].
  apply v_leaf_rows; auto.
Qed.

Lemma p_C04 : forall {T} (t : tree T) (s : dstyle), wf_tree t ->
  let D := depth_dist_leaves s t in
  length D = n_leaves t /\
  (forall i, i < n_leaves t -> length (nth i D []) = n_leaves t) /\
  (forall i j d, i < n_leaves t -> j < n_leaves t ->
     (nth j (nth i D []) 0%Z = Z.of_nat d <-> leaf_dist t s (leaf_id t i) (leaf_id t j) d)) /\
  (forall i, i < n_leaves t -> nth i (nth i D []) 0%Z = 0%Z) /\
  (forall i j, i < n_leaves t -> j < n_leaves t -> i <> j -> (1 <= nth j (nth i D []) 0)%Z) /\
  (s <> Standard -> forall i j, i < n_leaves t -> j < n_leaves t ->
     nth j (nth i D []) 0%Z = nth i (nth j D []) 0%Z).
Proof.
  intros T t s WF. simpl. split; [apply style_depth_length; auto|].
  split; [intros; apply style_depth_row_length; auto|].
  split; [intros; rewrite (depth_dist_iff t WF); tauto|].
  split; [intros; apply ddist_diag; auto|].
  split; [intros; apply ddist_off; auto|].
  intros. apply ddist_sym; auto.
Qed.

Lemma p_C05 : forall {T} (t : tree T) (s : dstyle), wf_tree t -> s <> MinStyle ->
  let D := depth_dist_leaves s t in
  forall i j k, i < n_leaves t -> j < n_leaves t -> k < n_leaves t ->
    (nth k (nth i D []) 0 <= nth j (nth i D []) 0 + nth k (nth j D []) 0)%Z.
Proof. intros. apply ddist_triangle; auto. Qed.

Lemma p_C05r : exists t : tree R, wf_tree t /\
  let D := depth_dist_leaves MinStyle t in
  exists i j k, i < n_leaves t /\ j < n_leaves t /\ k < n_leaves t /\
    (nth j (nth i D []) 0 + nth k (nth j D []) 0 < nth k (nth i D []) 0)%Z.
Proof. exact min_triangle_fails. Qed.

Local Open Scope R_scope.
Lemma nmaximum_spec : forall (l : list R) m, nmaximum l = Ok m -> In m l /\ forall x, In x l -> x <= m.
Proof.
  assert (G : forall l a, (a <= fold_left nmax l a) /\ (forall x : R, In x l -> x <= fold_left nmax l a)
     /\ (fold_left nmax l a = a \/ In (fold_left nmax l a) l)).
  { induction l; simpl; intros; [intuition; lra|].
    destruct (IHl (nmax a0 a)) as (A&B&C). unfold nmax in *. rn.
    destruct (Rltb_spec a0 a).
    - split; [lra|]. split; [intros x [->|]; auto|]. destruct C as [->|]; auto.
    - split; [lra|]. split; [intros x [->|]; auto; lra|]. destruct C as [->|]; auto. }
  destruct l; simpl; intros m H; [discriminate|]. inversion H; subst. destruct (G l r) as (A&B&C). split.
  - destruct C as [->|]; auto.
  - intros x [->|]; auto.
Qed.
Lemma nminimum_spec : forall (l : list R) m, nminimum l = Ok m -> In m l /\ forall x, In x l -> m <= x.
Proof.
  assert (G : forall l a, (fold_left nmin l a <= a) /\ (forall x : R, In x l -> fold_left nmin l a <= x)
     /\ (fold_left nmin l a = a \/ In (fold_left nmin l a) l)).
  { induction l; simpl; intros; [intuition; lra|].
    destruct (IHl (nmin a0 a)) as (A&B&C). unfold nmin in *. rn.
    destruct (Rltb_spec a a0).
    - split; [lra|]. split; [intros x [->|]; auto|]. destruct C as [->|]; auto.
    - split; [lra|]. split; [intros x [->|]; auto; lra|]. destruct C as [->|]; auto. }
  destruct l; simpl; intros m H; [discriminate|]. inversion H; subst. destruct (G l r) as (A&B&C). split.
  - destruct C as [->|]; auto.
  - intros x [->|]; auto.
Qed.

Lemma in_concat_mat : forall {A} (M : list (list A)) d x, In x (concat M) ->
  exists i j, (i < length M)%nat /\ (j < length (nth i M []))%nat /\ x = nth j (nth i M []) d.
Proof.
  intros A M d x H. apply in_concat in H. destruct H as (row&Hr&Hx).
  destruct (In_nth _ _ [] Hr) as (i&Hi&E). destruct (In_nth _ _ d Hx) as (j&Hj&E2).
  exists i, j. subst row. auto.
Qed.
Lemma in_mat_concat : forall {A} (M : list (list A)) d i j,
  (i < length M)%nat -> (j < length (nth i M []))%nat -> In (nth j (nth i M []) d) (concat M).
Proof. intros. apply in_concat. exists (nth i M []). split; apply nth_In; auto. Qed.

Lemma p_C06 : forall (t : tree R) (s : dstyle), wf_tree t ->
  exists D m, impurity_dist_leaves s t = Ok (D, m) /\
  length D = n_leaves t /\ (forall i, (i < n_leaves t)%nat -> length (nth i D []) = n_leaves t) /\
  (forall i j a, (i < n_leaves t)%nat -> (j < n_leaves t)%nat -> is_lca t a (leaf_id t i) (leaf_id t j) ->
     let imp v := nth v (t_imp t) 0 in
     nth j (nth i D []) 0 =
       match s with
       | Standard => imp a - imp (leaf_id t i)
       | MaxStyle => Rmax (imp a - imp (leaf_id t i)) (imp a - imp (leaf_id t j))
       | MinStyle => Rmin (imp a - imp (leaf_id t i)) (imp a - imp (leaf_id t j))
       end) /\
  (forall i, (i < n_leaves t)%nat -> nth i (nth i D []) 0 = 0) /\
  (forall i j, (i < n_leaves t)%nat -> (j < n_leaves t)%nat -> nth j (nth i D []) 0 <= m) /\
  (exists i j, (i < n_leaves t)%nat /\ (j < n_leaves t)%nat /\ nth j (nth i D []) 0 = m).
Proof.
  intros t s WF.
  set (D := style_num s (standard_impurity t)).
  assert (LD : length D = n_leaves t).
  { unfold D, style_num. destruct s; rewrite ?map2_length, ?transpose_length, (standard_impurity_length t WF); lia. }
  assert (LR : forall i, (i < n_leaves t)%nat -> length (nth i D []) = n_leaves t).
  { intros i Hi. unfold D, style_num. destruct s; [apply (standard_impurity_row_length t WF); auto| |];
    rewrite nth_map2 with (da := []) (db := []) by (rewrite ?transpose_length, (standard_impurity_length t WF); auto);
    rewrite map2_length, transpose_row_length, (standard_impurity_row_length t WF), (standard_impurity_length t WF);
    rewrite ?(standard_impurity_length t WF); auto; lia. }
  assert (V : forall i j a, (i < n_leaves t)%nat -> (j < n_leaves t)%nat -> is_lca t a (leaf_id t i) (leaf_id t j) ->
     let imp v := nth v (t_imp t) 0 in
     nth j (nth i D []) 0 =
       match s with
       | Standard => imp a - imp (leaf_id t i)
       | MaxStyle => Rmax (imp a - imp (leaf_id t i)) (imp a - imp (leaf_id t j))
       | MinStyle => Rmin (imp a - imp (leaf_id t i)) (imp a - imp (leaf_id t j))
       end).
  { intros i j a Hi Hj A. simpl. unfold D, style_num.
    destruct s; [apply (standard_impurity_entry t WF); auto| |];
    rewrite nth_map2 with (da := []) (db := []) by (rewrite ?transpose_length, (standard_impurity_length t WF); auto);
    rewrite nth_map2 with (da := 0) (db := 0)
      by (rewrite ?transpose_row_length, ?(standard_impurity_row_length t WF); rewrite ?(standard_impurity_length t WF); auto);
    rewrite (transpose_entry (A := R)) by (rewrite (standard_impurity_length t WF); auto);
    rewrite (standard_impurity_entry t WF i j a), (standard_impurity_entry t WF j i a)
      by (auto using lca_sym).
    - unfold nmax, Rmax. rn. destruct (Rltb_spec (nth a (t_imp t) 0 - nth (leaf_id t i) (t_imp t) 0) (nth a (t_imp t) 0 - nth (leaf_id t j) (t_imp t) 0));
      destruct (Rle_dec (nth a (t_imp t) 0 - nth (leaf_id t i) (t_imp t) 0) (nth a (t_imp t) 0 - nth (leaf_id t j) (t_imp t) 0)); lra.
    - unfold nmin, Rmin. rn. destruct (Rltb_spec (nth a (t_imp t) 0 - nth (leaf_id t j) (t_imp t) 0) (nth a (t_imp t) 0 - nth (leaf_id t i) (t_imp t) 0));
      destruct (Rle_dec (nth a (t_imp t) 0 - nth (leaf_id t i) (t_imp t) 0) (nth a (t_imp t) 0 - nth (leaf_id t j) (t_imp t) 0)); lra. }
  assert (Diag : forall i, (i < n_leaves t)%nat -> nth i (nth i D []) 0 = 0).
  { intros i Hi. rewrite (V i i (leaf_id t i)) by (auto; apply lca_self; apply leaf_id_lt; auto).
    destruct s; [lra|unfold Rmax|unfold Rmin]; destruct (Rle_dec _ _); lra. }
  pose proof (n_leaves_pos t WF) as LP.
  destruct (nmaximum (concat D)) as [m|e] eqn:EM.
  2:{ destruct (concat D) eqn:EC; [|discriminate].
      assert (X : In (nth 0 (nth 0 D []) 0) (concat D)).
      { apply in_mat_concat; [lia|]. rewrite LR; auto. }
      rewrite EC in X. destruct X. }
  exists D, m. split; [unfold impurity_dist_leaves; fold D; rewrite EM; auto|].
  destruct (nmaximum_spec _ _ EM) as [M1 M2].
  do 2 (split; auto). split; auto. split; auto. split.
  - intros. apply M2. apply in_mat_concat; [lia|]. rewrite LR; auto.
  - destruct (in_concat_mat _ 0 _ M1) as (i&j&Hi&Hj&E). rewrite LR in Hj by lia.
    exists i, j. repeat split; auto; lia.
Qed.

(** *** Gamma and eta *)

Definition selects_unique : forall (t : tree R) s pa i k sel, wf_tree t -> (i < n_leaves t)%nat ->
  selects t s pa i k sel -> forall j, (j < n_leaves t)%nat -> sel j = csel t s pa i k j.
Proof. intros t s pa i k sel WF Hi H j Hj. apply (proj1 (ddist_selects t WF s pa i k sel Hi) H j Hj). Qed.

Lemma p_C07 : forall (t : tree R) (kd : kind) (pa : bool) (s : dstyle), wf_tree t ->
  exists m Gamma eta,
  create_Gamma_eta_tree kd pa s t = Ok (Gamma, eta) /\ is_max_dist t s m /\
  length eta = n_leaves t /\ length Gamma = n_gamma kd /\
  (forall i, (i < n_leaves t)%nat -> length (nth i eta []) = S m) /\
  (forall c, (c < n_gamma kd)%nat -> length (nth c Gamma []) = n_leaves t /\
     forall i, (i < n_leaves t)%nat -> length (nth i (nth c Gamma []) []) = S m) /\
  (forall i k, (i < n_leaves t)%nat -> (k <= m)%nat ->
    exists sel, selects t s pa i k sel /\
      nth k (nth i eta []) 0 = sum_sel (n_leaves t) sel (leaf_w t) /\
      forall c, (c < n_gamma kd)%nat ->
        nth k (nth i (nth c Gamma []) []) 0 = sum_sel (n_leaves t) sel (leaf_ny t kd c)).
Proof.
  intros t kd pa s WF. destruct (create_tree_ok t WF s kd pa) as (m&G&E&C&M&LG&LE&NC&RE&RG&VE&VG).
  exists m, G, E. do 6 (split; auto). intros i k Hi Hk.
  exists (csel t s pa i k). split; [apply csel_selects; auto|]. split; auto.
Qed.

Lemma p_C08a : forall (t : tree R) (kd : kind) (s : dstyle), wf_tree t ->
  exists Gamma eta, create_Gamma_eta_tree kd false s t = Ok (Gamma, eta) /\
  forall i, (i < n_leaves t)%nat ->
    nsum (nth i eta []) = sumto (n_leaves t) (leaf_w t) /\
    forall c, (c < n_gamma kd)%nat -> nsum (nth i (nth c Gamma []) []) = sumto (n_leaves t) (leaf_ny t kd c).
Proof.
  intros t kd s WF. destruct (create_tree_ok t WF s kd false) as (m&G&E&C&M&LG&LE&NC&RE&RG&VE&VG).
  exists G, E. split; auto. intros i Hi.
  assert (X : forall j, (j < n_leaves t)%nat -> (ddist t s i j < Z.of_nat (S m))%Z).
  { intros j Hj. pose proof (ddist_le_max t WF s m i j M Hi Hj). lia. }
  split.
  - rewrite nsum_sumto, RE by auto. rewrite <- (csel_false_sum t WF s i (S m)) by auto.
    apply sumto_ext. intros. apply VE; auto. lia.
  - intros c Hc. destruct (RG c Hc) as [_ RG2]. rewrite nsum_sumto, RG2 by auto.
    rewrite <- (csel_false_sum t WF s i (S m)) by auto. apply sumto_ext. intros. apply VG; auto. lia.
Qed.

Lemma p_C08b : forall (t : tree R) (kd : kind) (s : dstyle), wf_tree t ->
  exists m G0 E0 G1 E1,
  create_Gamma_eta_tree kd false s t = Ok (G0, E0) /\
  create_Gamma_eta_tree kd true s t = Ok (G1, E1) /\ is_max_dist t s m /\
  forall i, (i < n_leaves t)%nat ->
    (nth m (nth i E1 []) 0 = sumto (n_leaves t) (leaf_w t)) /\
    (forall c, (c < n_gamma kd)%nat -> nth m (nth i (nth c G1 []) []) 0 = sumto (n_leaves t) (leaf_ny t kd c)) /\
    (forall k, (k <= m)%nat ->
       nth k (nth i E1 []) 0 = sumto (S k) (fun k' => nth k' (nth i E0 []) 0) /\
       forall c, (c < n_gamma kd)%nat ->
         nth k (nth i (nth c G1 []) []) 0 = sumto (S k) (fun k' => nth k' (nth i (nth c G0 []) []) 0)) /\
    ((forall j, (j < n_leaves t)%nat -> 0 <= leaf_w t j) ->
     forall k k', (k <= k' <= m)%nat -> nth k (nth i E1 []) 0 <= nth k' (nth i E1 []) 0).
Proof.
  intros t kd s WF.
  destruct (create_tree_ok t WF s kd false) as (m&G&E&C&M&LG&LE&NC&RE&RG&VE&VG).
  destruct (create_tree_ok t WF s kd true) as (m'&G'&E'&C'&M'&LG'&LE'&NC'&RE'&RG'&VE'&VG').
  assert (m' = m).
  { destruct M as [M1 (i&j&A&B&D)], M' as [M1' (i'&j'&A'&B'&D')].
    apply Nat.le_antisymm; [apply (M1 i' j')|apply (M1' i j)]; auto. }
  subst m'. exists m, G, E, G', E'. do 3 (split; auto). intros i Hi.
  assert (X : forall j, (j < n_leaves t)%nat -> (ddist t s i j <= Z.of_nat m)%Z).
  { intros j Hj. apply (ddist_le_max t WF s m i j M Hi Hj). }
  split; [rewrite VE' by auto; apply csel_true_all; auto|].
  split; [intros; rewrite VG' by auto; apply csel_true_all; auto|].
  split.
  - intros k Hk. split.
    + rewrite VE' by auto. rewrite (csel_cumulative t WF) by auto. apply sumto_ext. intros. symmetry. apply VE; auto. lia.
    + intros. rewrite VG' by auto. rewrite (csel_cumulative t WF) by auto. apply sumto_ext. intros. symmetry. apply VG; auto. lia.
  - intros P k k' Hk. rewrite !VE' by (auto; lia). apply csel_true_mono; auto. lia.
Qed.

Lemma p_C09 : forall (kd : kind) (pa : bool) (s : dstyle) (ts : list (tree R)),
  Forall wf_tree ts -> ts <> [] ->
  exists m Gamma eta t_idx,
  create_Gamma_eta_forest kd pa s ts = Ok (Gamma, eta, t_idx) /\ is_max_depth ts m /\
  length Gamma = n_gamma kd /\ length eta = offset ts (length ts) /\ length t_idx = length eta /\
  (forall c, (c < n_gamma kd)%nat -> length (nth c Gamma []) = length eta) /\
  forall q t, nth_error ts q = Some t -> forall i, (i < n_leaves t)%nat ->
    let r := (offset ts q + i)%nat in
    (r < length eta)%nat /\ nth r t_idx 0%nat = q /\
    length (nth r eta []) = S m /\
    (forall c, (c < n_gamma kd)%nat -> length (nth r (nth c Gamma []) []) = S m) /\
    (forall k, (k <= m)%nat ->
      exists sel, selects t s pa i k sel /\
        nth k (nth r eta []) 0 = sum_sel (n_leaves t) sel (leaf_w t) /\
        forall c, (c < n_gamma kd)%nat ->
          nth k (nth r (nth c Gamma []) []) 0 = sum_sel (n_leaves t) sel (leaf_ny t kd c)).
Proof.
  intros kd pa s ts W NE. destruct (forest_gamma_ok kd pa s ts W) as (G&E&Ti&A&LG&LE&LI&LC&H).
  set (m := snd (calc_depth_for_forest ts)) in *. cbv zeta in *. replace (m + 1)%nat with (S m) in * by lia.
  exists m, G, E, Ti. split; auto.
  split. { split; [intros; eapply calc_depth_upper; eauto|apply calc_depth_attained; auto]. }
  do 4 (split; auto). intros q t Hq i Hi. destruct (H q t Hq i Hi) as (H1&H2&H3&H4&H5).
  simpl. split; auto. split; auto. split; [auto|].
  split; [intros c Hc; destruct (H5 c Hc); auto|].
  assert (WF : wf_tree t). { rewrite Forall_forall in W. apply W. eapply nth_error_In; eauto. }
  intros k Hk. exists (csel t s pa i k). split; [apply csel_selects; auto|].
  split; [apply H4; lia|]. intros c Hc. destruct (H5 c Hc) as [_ H6]. apply H6. lia.
Qed.

(** additive node statistics: weights and weighted responses *)
Definition additive_stats (t : tree R) (kd : kind) : Prop :=
  additive t (node_w t) /\ forall c, (c < n_gamma kd)%nat -> additive t (node_ny t kd c).

Lemma p_C10 : forall (t : tree R) (kd : kind), wf_tree t ->
  exists m Gamma eta, create_Gamma_eta_tree kd true Standard t = Ok (Gamma, eta) /\ is_max_dist t Standard m /\
  forall i k a, (i < n_leaves t)%nat -> (k <= m)%nat -> upk t k (leaf_id t i) a ->
    (exists below, (forall j, (j < n_leaves t)%nat -> (below j = true <-> anc t a (leaf_id t j))) /\
       nth k (nth i eta []) 0 = sum_sel (n_leaves t) below (leaf_w t) /\
       forall c, (c < n_gamma kd)%nat ->
         nth k (nth i (nth c Gamma []) []) 0 = sum_sel (n_leaves t) below (leaf_ny t kd c)) /\
    (additive_stats t kd ->
       nth k (nth i eta []) 0 = node_w t a /\
       forall c, (c < n_gamma kd)%nat -> nth k (nth i (nth c Gamma []) []) 0 = node_ny t kd c a).
Proof.
  intros t kd WF. destruct (create_tree_ok t WF Standard kd true) as (m&G&E&C&M&LG&LE&NC&RE&RG&VE&VG).
  exists m, G, E. do 2 (split; auto). intros i k a Hi Hk U. split.
  - exists (csel t Standard true i k). split; [|split; auto].
    intros j Hj. apply csel_ancestor; auto.
  - intros [A1 A2]. split.
    + rewrite VE by auto. apply (csel_ancestor_sum t WF (node_w t)); auto.
    + intros c Hc. rewrite VG by auto. apply (csel_ancestor_sum t WF (node_ny t kd c)); auto.
Qed.

Lemma p_C50 : forall {T} (t : tree T), wf_tree t ->
  let (dv, pm) := depth_per_node_plus_parent t in
  dv = depth_per_node t /\ length pm = size t /\
  exists m, is_max_depth [t] m /\
  forall v, (v < size t)%nat -> length (nth v pm []) = S m /\
    forall k a, (k <= m)%nat -> (nth k (nth v pm []) 0%nat = a <-> upk t k v a).
Proof.
  intros T t WF. destruct (depth_per_node_plus_parent t) as [dv pm] eqn:E.
  pose proof (pp_fst t) as F. destruct (parent_mat_correct t WF) as [L P]. rewrite E in *. simpl in *.
  split; auto. split; auto. exists (max_depth_of t). split.
  - split.
    + intros t' v d [->|[]] D. apply (depth_le_max t' WF _ _ D).
    + assert (Wl : Forall wf_tree [t]) by (constructor; auto).
      destruct (calc_depth_attained [t] Wl) as (t'&v&[->|[]]&D); [congruence|].
      exists t', v. split; [left; auto|]. exact D.
  - intros v Hv. destruct (P v Hv) as [P1 P2]. split; [lia|]. intros k a Hk. split.
    + intros <-. auto.
    + intros U. eapply (up_unique t WF); eauto.
Qed.
