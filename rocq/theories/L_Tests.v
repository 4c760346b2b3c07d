(** L_Tests: lemmas about what the tests assert on fitted forests. *)
From Coq Require Import Reals Lra Lia QArith.
From Verif Require Import Base TreeSpec Spec M_Tree M_Prune M_Null SpecPrune SpecNull.
From Verif Require Import L_Base L_Tree L_TreeModel L_TreeModel2 L_PropsTree L_Prune4 L_Null.
From Verif Require L_Main.
Local Open Scope R_scope.

Lemma p_diff : forall t : tree R, wf_tree t -> let d := change_in_impurity t in
  length d = size t /\ nth 0 d 0 = nth 0 (t_imp t) 0 /\
  (forall p c, child t p c -> nth c d 0 = nth c (t_imp t) 0 - nth p (t_imp t) 0) /\
  (forall v sel, (v < size t)%nat -> (forall a, (a < size t)%nat -> (sel a = true <-> anc t a v)) ->
     sum_sel (size t) sel (fun a => nth a d 0) = nth v (t_imp t) 0).
Proof.
  intros t WF d. split; [apply change_length; auto|]. split; [apply change_root; auto|]. split; [intros; apply change_child; auto|].
  intros v sel Hv HS. rewrite <- (anc_sum_imp t WF v Hv sel HS). unfold sum_sel, anc_sum.
  rewrite L_Main.nsum_sumto. reflexivity.
Qed.

(** going up one more level *)
Lemma up_more : forall {T} (t : tree T), wf_tree t -> forall k v a b, upk t k v a -> upk t (S k) v b -> (b <= a)%nat.
Proof.
  intros T t WF k v a b A. revert b. induction A as [v Hv|k|k p c a Hc A IH]; intros b B.
  - apply (anc_lt t WF). apply (up_anc t WF _ _ _ B).
  - rewrite (up_unique t WF _ _ _ _ B (up_root t (S k))). lia.
  - destruct (up_ex t WF (S k) p) as [e E]; [apply (child_lt t WF) in Hc; lia|].
    rewrite (up_unique t WF _ _ _ _ B (up_step t _ _ _ _ Hc E)). auto.
Qed.
Lemma up_zero : forall {T} (t : tree T), wf_tree t -> forall k v a d, depth_of t v d -> upk t k v a -> (a = 0%nat <-> (d <= k)%nat).
Proof.
  intros T t WF k v a d D U. pose proof (up_depth t WF _ _ _ U _ D) as DA. split.
  - intros ->. pose proof (depth_root0 t WF _ DA). lia.
  - intros Hd. replace (d - k)%nat with 0%nat in DA by lia. inversion DA; auto.
Qed.

Lemma count_prefix : forall m (l : list nat) d, length l = m -> (d <= m)%nat ->
  (forall k, (k < m)%nat -> (nth k l 0%nat = 0%nat <-> (d <= k)%nat)) -> length (filter (fun x => negb (Nat.eqb x 0)) l) = d.
Proof.
  induction m as [|m IH]; intros l d L Hd H.
  - destruct l; [|discriminate]. cbn. lia.
  - destruct l as [|x l]; [discriminate|]. injection L as L. destruct d as [|d].
    + assert (x = 0%nat) by (apply (H 0%nat); lia). subst x. cbn. apply (IH l 0%nat); auto; [lia|].
      intros k Hk. specialize (H (S k) ltac:(lia)). cbn in H. rewrite H. lia.
    + assert (x <> 0%nat) by (intros E; apply (H 0%nat) in E; lia). cbn. destruct (Nat.eqb_spec x 0); [contradiction|]. cbn. f_equal.
      apply IH; auto; [lia|]. intros k Hk. specialize (H (S k) ltac:(lia)). cbn in H. rewrite H. lia.
Qed.

Lemma p_rows : forall {T} (t : tree T), wf_tree t -> let (dv, pm) := depth_per_node_plus_parent t in
  (forall v k, (v < size t)%nat -> (S k < length (nth v pm []))%nat -> (nth (S k) (nth v pm []) 0 <= nth k (nth v pm []) 0)%nat) /\
  (forall v, (v < size t)%nat -> length (filter (fun x => negb (Nat.eqb x 0)) (nth v pm [])) = nth v dv 0%nat) /\
  (forall p c, child t p c -> nth c dv 0%nat = S (nth p dv 0%nat)).
Proof.
  intros T t WF. pose proof (p_C50 t WF) as P. destruct (depth_per_node_plus_parent t) as [dv pm].
  destruct P as (->&_&m&IM&H).
  assert (DP : forall v d, (v < size t)%nat -> depth_of t v d -> nth v (depth_per_node t) 0%nat = d) by (intros; apply (depth_per_node_iff t WF); auto).
  split; [|split].
  - intros v k Hv Hk. destruct (H v Hv) as [L U]. apply (up_more t WF k v); apply U; auto; lia.
  - intros v Hv. destruct (H v Hv) as [L U]. destruct (depth_ex t WF v Hv) as [d D]. rewrite (DP v d Hv D).
    destruct IM as [IM _]. specialize (IM t v d (or_introl eq_refl) D). apply (count_prefix (S m)); auto.
    intros k Hk. apply (up_zero t WF k v _ d D). apply U; auto. lia.
  - intros p c Hc. destruct (child_lt t WF _ _ Hc) as (H1&H2). destruct (depth_ex t WF p) as [d D]; [lia|].
    rewrite (DP p d), (DP c (S d)); auto; [econstructor; eauto|lia].
Qed.

Lemma p_child_risk : forall (t : tree R) rs v l r, good_weights t -> risk_nonincreasing t rs -> (l < size t)%nat -> (r < size t)%nat ->
  lc t v = Z.of_nat l -> rc t v = Z.of_nat r -> rs l <= rs v \/ rs r <= rs v.
Proof.
  intros t rs v l r [PW AD] RN Ll Lr Hl Hr. specialize (RN v l r Hl Hr). rewrite (AD v l r Hl Hr) in RN.
  pose proof (PW l Ll). pose proof (PW r Lr). destruct (Rle_dec (rs l) (rs v)); auto. right. nra.
Qed.
Lemma q_child_risk : forall nc k (t : tree R) rs v l r, wf_tree t -> (0 < k)%nat -> class_tree t k -> good_weights t ->
  (forall c, (c < k)%nat -> additive t (node_v t c)) -> r_single_t (TreeObj (Class nc) t) = Ok rs ->
  lc t v = Z.of_nat l -> rc t v = Z.of_nat r -> nth l rs 0 <= nth v rs 0 \/ nth r rs 0 <= nth v rs 0.
Proof.
  intros nc k t rs v l r WF K CT GW AV E Hl Hr. apply (p_child_risk t (fun u => nth u rs 0) v l r GW); auto.
  - apply (p_C46_class nc k); auto. exists rs. split; auto.
  - apply (child_lt t WF v). left. auto.
  - apply (child_lt t WF v). right. auto.
Qed.
