(** L_Gamma2: conservation of mass, columns as ancestors. *)
From Verif Require Import Base TreeSpec Spec M_Tree M_Gamma L_Base L_Tree L_TreeModel L_TreeModel2 L_Dist L_Gamma.
From Coq Require Import Reals Lra.
Local Open Scope R_scope.

Lemma sumto_ext : forall n f g, (forall i, (i < n)%nat -> f i = g i) -> sumto n f = sumto n g.
Proof. induction n; simpl; intros; auto. rewrite (IHn f g), H; auto. Qed.
Lemma sumto_zero : forall n f, (forall i, (i < n)%nat -> f i = 0) -> sumto n f = 0.
Proof. induction n; simpl; intros; auto. rewrite IHn, H; auto. lra. Qed.
Lemma sumto_plus : forall n f g, sumto n (fun i => f i + g i) = sumto n f + sumto n g.
Proof. induction n; simpl; intros; [lra|]. rewrite IHn. lra. Qed.
Lemma sumto_scal : forall n c f, sumto n (fun i => c * f i) = c * sumto n f.
Proof. induction n; simpl; intros; [lra|]. rewrite IHn. lra. Qed.
Lemma sumto_scal_r : forall n c f, sumto n (fun i => f i * c) = sumto n f * c.
Proof. induction n; simpl; intros; [lra|]. rewrite IHn. lra. Qed.
Lemma sumto_le : forall n f g, (forall i, (i < n)%nat -> f i <= g i) -> sumto n f <= sumto n g.
Proof. induction n; simpl; intros; [lra|]. specialize (IHn f g ltac:(auto)). specialize (H n ltac:(lia)). lra. Qed.
Lemma sumto_nonneg : forall n f, (forall i, (i < n)%nat -> 0 <= f i) -> 0 <= sumto n f.
Proof. induction n; simpl; intros; [lra|]. specialize (IHn f ltac:(auto)). specialize (H n ltac:(lia)). lra. Qed.
Lemma sumto_swap : forall n m f, sumto n (fun i => sumto m (f i)) = sumto m (fun j => sumto n (fun i => f i j)).
Proof.
  induction n; intros; simpl.
  - symmetry. apply sumto_zero. auto.
  - rewrite IHn, <- sumto_plus. auto.
Qed.
Lemma sumto_single : forall n f a, (a < n)%nat -> (forall i, (i < n)%nat -> i <> a -> f i = 0) -> sumto n f = f a.
Proof.
  induction n; simpl; intros; [lia|]. destruct (Nat.eq_dec a n).
  - subst. rewrite sumto_zero; [lra|]. intros. apply H0; lia.
  - rewrite (IHn f a); [rewrite (H0 n) by lia; lra|lia|]. intros; apply H0; lia.
Qed.
Lemma sumto_elem_le : forall n f a, (forall i, (i < n)%nat -> 0 <= f i) -> (a < n)%nat -> f a <= sumto n f.
Proof.
  intros. apply Rle_trans with (sumto n (fun i => if Nat.eqb i a then f i else 0)).
  - rewrite (sumto_single n _ a); auto; [rewrite Nat.eqb_refl; lra|].
    intros. destruct (Nat.eqb_spec i a); auto; contradiction.
  - apply sumto_le. intros. destruct (Nat.eqb i a); auto. lra.
Qed.
Lemma sumto_const : forall n c, sumto n (fun _ => c) = INR n * c.
Proof. induction n; intros; [simpl; lra|]. simpl sumto. rewrite IHn, S_INR. lra. Qed.

Lemma dot_sumto : forall a b : list R, length a = length b ->
  dot a b = sumto (length a) (fun k => nth k a 0 * nth k b 0).
Proof. intros. rewrite dot_as_seq, sumto_nsum; auto. Qed.
Lemma nsum_sumto : forall l : list R, nsum l = sumto (length l) (fun i => nth i l 0).
Proof. intros. rewrite sumto_nsum, <- list_as_seq. auto. Qed.

Section Tree.
Variable t : tree R.
Hypothesis WF : wf_tree t.
Local Notation L := (n_leaves t).

Lemma csel_false_sum : forall s i K f, (i < L)%nat ->
  (forall j, (j < L)%nat -> (ddist t s i j < Z.of_nat K)%Z) ->
  sumto K (fun k => sum_sel L (csel t s false i k) f) = sumto L f.
Proof.
  intros s i K f Hi HK. unfold sum_sel. rewrite sumto_swap. apply sumto_ext. intros j Hj.
  destruct (leaf_dist_conv t s i j WF Hi Hj) as (d&E&_). specialize (HK j Hj).
  rewrite (sumto_single K _ d).
  - unfold csel. rewrite E, Z.eqb_refl. auto.
  - lia.
  - intros k Hk NE. unfold csel. rewrite E. destruct (Z.eqb_spec (Z.of_nat d) (Z.of_nat k)); auto. lia.
Qed.

Lemma csel_cumulative : forall s i k f, (i < L)%nat ->
  sum_sel L (csel t s true i k) f = sumto (S k) (fun k' => sum_sel L (csel t s false i k') f).
Proof.
  intros s i k f Hi. unfold sum_sel. rewrite (sumto_swap (S k)). apply sumto_ext. intros j Hj.
  destruct (leaf_dist_conv t s i j WF Hi Hj) as (d&E&_).
  unfold csel. rewrite E. destruct (Z.leb_spec (Z.of_nat d) (Z.of_nat k)).
  - rewrite (sumto_single _ _ d); [rewrite Z.eqb_refl; auto|lia|].
    intros k' Hk NE. destruct (Z.eqb_spec (Z.of_nat d) (Z.of_nat k')); auto. lia.
  - symmetry. apply sumto_zero. intros k' Hk. destruct (Z.eqb_spec (Z.of_nat d) (Z.of_nat k')); auto. lia.
Qed.

Lemma csel_true_mono : forall s i k k' f, (k <= k')%nat -> (forall j, (j < L)%nat -> 0 <= f j) ->
  sum_sel L (csel t s true i k) f <= sum_sel L (csel t s true i k') f.
Proof.
  intros. unfold sum_sel. apply sumto_le. intros j Hj. specialize (H0 j Hj). unfold csel.
  destruct (Z.leb_spec (ddist t s i j) (Z.of_nat k)), (Z.leb_spec (ddist t s i j) (Z.of_nat k')); try lra. lia.
Qed.

Lemma csel_true_all : forall s i K f, (forall j, (j < L)%nat -> (ddist t s i j <= Z.of_nat K)%Z) ->
  sum_sel L (csel t s true i K) f = sumto L f.
Proof.
  intros. unfold sum_sel. apply sumto_ext. intros j Hj. unfold csel.
  destruct (Z.leb_spec (ddist t s i j) (Z.of_nat K)); auto. specialize (H j Hj). lia.
Qed.

Lemma ddist_le_max : forall s m i j, is_max_dist t s m -> (i < L)%nat -> (j < L)%nat -> (ddist t s i j <= Z.of_nat m)%Z.
Proof.
  intros s m i j [M _] Hi Hj. destruct (leaf_dist_conv t s i j WF Hi Hj) as (d&E&Dd).
  rewrite E. specialize (M i j d Hi Hj Dd). lia.
Qed.

(** *** the leaves within distance k are those below the k-th ancestor *)
Lemma csel_ancestor : forall i k a j, (i < L)%nat -> (j < L)%nat -> upk t k (leaf_id t i) a ->
  (csel t Standard true i k j = true <-> anc t a (leaf_id t j)).
Proof.
  intros i k a j Hi Hj U.
  destruct (leaf_dist_conv t Standard i j WF Hi Hj) as (d&E&(d1&d2&C1&C2&X)). simpl in X. subst d.
  unfold csel. rewrite E. rewrite Z.leb_le.
  destruct C1 as (b&di&db&(B1&B2&B3)&Di&Db&->).
  pose proof (up_anc t WF _ _ _ U) as A. pose proof (up_depth t WF _ _ _ U _ Di) as Da.
  destruct (depth_anc t WF _ _ _ _ B1 Db Di) as [Lb _].
  split.
  - intros H. apply anc_trans with (b := b); auto. apply (anc_by_depth t WF a b (leaf_id t i) (di - k) db); auto. lia.
  - intros H. specialize (B3 a A H). destruct (depth_anc t WF _ _ _ _ B3 Da Db). lia.
Qed.

(** sum over the leaf ids below a *)
Lemma additive_leaf_sum : forall f, additive t f -> forall a, (a < size t)%nat ->
  forall sel, (forall v, (v < size t)%nat -> (sel v = true <-> anc t a v)) ->
  nsum (map f (filter sel (leaf_ids t))) = f a.
Proof.
  intros f AD a. remember (size t - a)%nat as h. revert a Heqh.
  induction h as [h IH] using lt_wf_ind. intros a Hh Ha sel Hs.
  destruct (is_leafb t a) eqn:LE.
  - rewrite nsum_filter.
    rewrite (nsum_single Nat.eq_dec _ _ a).
    + assert (S : sel a = true) by (apply Hs; auto; apply anc_refl; auto). rewrite S. auto.
    + apply leaf_ids_NoDup.
    + apply leaf_ids_spec. auto.
    + intros v Hv NE. apply leaf_ids_spec in Hv. destruct (sel v) eqn:S; auto.
      apply Hs in S; [|tauto]. apply (leaf_anc_eq t WF) in S; auto. congruence.
  - destruct (nonleaf_children t WF a Ha LE) as (l&r&E1&E2&Bl&Br&NE).
    rewrite (AD a l r) by auto.
    set (sl := fun v => ancb t l v). set (sr := fun v => ancb t r v).
    assert (Hl : forall v, (v < size t)%nat -> (sl v = true <-> anc t l v)) by (intros; apply (ancb_iff t WF); lia).
    assert (Hr : forall v, (v < size t)%nat -> (sr v = true <-> anc t r v)) by (intros; apply (ancb_iff t WF); lia).
    rewrite <- (IH (size t - l)%nat) with (a := l) (sel := sl) by (auto; lia).
    rewrite <- (IH (size t - r)%nat) with (a := r) (sel := sr) by (auto; lia).
    rewrite !nsum_filter, <- nsum_plus. apply nsum_ext. intros v Hv. apply leaf_ids_spec in Hv. destruct Hv as [Hv Lv].
    assert (Cl : child t a l) by (left; auto). assert (Cr : child t a r) by (right; auto).
    assert (X : sel v = true <-> sl v = true \/ sr v = true).
    { rewrite Hs, Hl, Hr by auto. split.
      - intros A. assert (v <> a) by (intro; subst; congruence).
        clear - A Cl Cr H E1 E2 WF. induction A.
        + contradiction.
        + destruct (Nat.eq_dec p a) as [->|NP].
          * destruct (child_two t a c l r E1 E2 H0); subst; [left|right]; apply anc_refl;
              apply (child_lt t WF) in H0; lia.
          * destruct (IHA E1 E2 Cl Cr NP) as [Q|Q]; [left|right]; apply (anc_step t _ p c); auto.
      - intros [A|A]; eapply anc_trans; eauto; (eapply anc_step; [apply anc_refl; auto|auto]). }
    assert (Y : ~ (sl v = true /\ sr v = true)).
    { rewrite Hl, Hr by auto. intros [A B]. destruct (anc_comparable t WF _ _ _ A B) as [C|C].
      - apply (anc_child t WF _ _ Cr) in C. destruct C as [C|C]; [congruence|]. apply (anc_lt t WF) in C. lia.
      - apply (anc_child t WF _ _ Cl) in C. destruct C as [C|C]; [congruence|]. apply (anc_lt t WF) in C. lia. }
    destruct (sel v), (sl v), (sr v); intuition; try lra; discriminate.
Qed.

Lemma leaf_sum_ids : forall (sel : nat -> bool) f (sel' : nat -> bool),
  (forall j, (j < L)%nat -> sel j = sel' (leaf_id t j)) ->
  sum_sel L sel (fun j => f (leaf_id t j)) = nsum (map f (filter sel' (leaf_ids t))).
Proof.
  intros. unfold sum_sel. rewrite nsum_filter, sumto_nsum.
  rewrite (map_as_seq _ (leaf_ids t) 0%nat). apply nsum_ext. intros j Hj. apply in_seq in Hj.
  unfold n_leaves in *. rewrite H by lia. reflexivity.
Qed.

Lemma csel_ancestor_sum : forall f i k a, additive t f -> (i < L)%nat -> upk t k (leaf_id t i) a ->
  sum_sel L (csel t Standard true i k) (fun j => f (leaf_id t j)) = f a.
Proof.
  intros f i k a AD Hi U. destruct (up_lt t WF _ _ _ U) as [_ Ha].
  rewrite (leaf_sum_ids _ f (fun v => ancb t a v)).
  - apply additive_leaf_sum; auto. intros. apply (ancb_iff t WF); auto.
  - intros j Hj. apply eq_true_iff_eq. rewrite (csel_ancestor i k a j) by auto.
    rewrite (ancb_iff t WF); auto using leaf_id_lt. tauto.
Qed.

End Tree.
