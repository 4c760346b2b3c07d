(** L_TreeModel2: impurity differences and the parent matrix. *)
From Verif Require Import Base TreeSpec M_Tree L_Base L_Tree L_TreeModel.
From Coq Require Import Reals Lra.
Local Open Scope nat_scope.

Section PM.
Context {T : Type} {NT : Num T}.
Variable t : tree T.
Hypothesis WF : wf_tree t.
Local Notation n := (size t).

(** path from a node to the root, node first *)
Inductive rpath : nat -> list nat -> Prop :=
| rp_root : rpath 0 [0]
| rp_step : forall p c l, rpath p l -> child t p c -> rpath c (c :: l).

Lemma rpath_ex : forall v, v < n -> exists l, rpath v l.
Proof.
  apply (tree_ind t WF (fun v => exists l, rpath v l)).
  - exists [0]. constructor.
  - intros p c H [l L]. exists (c :: l). econstructor; eauto.
Qed.

Lemma rpath_depth : forall v l, rpath v l -> depth_of t v (length l - 1) /\ 0 < length l.
Proof.
  induction 1; simpl; [split; [constructor|lia]|]. destruct IHrpath as [A B].
  split; [|lia]. destruct (length l); [lia|]. simpl in *. rewrite Nat.sub_0_r in A.
  econstructor; eauto.
Qed.

Lemma rpath_up : forall v l, rpath v l -> forall k m, k < length l + m ->
  upk t k v (nth k (l ++ repeat 0 m) 0).
Proof.
  induction 1; intros k m Hk.
  - destruct k; [constructor; apply (wf_pos t WF)|]. simpl in *. rewrite nth_repeat_lt by lia. constructor.
  - destruct k; simpl in *.
    + constructor. apply (child_lt t WF) in H0. lia.
    + econstructor; eauto. apply IHrpath. lia.
Qed.

Definition pp_inv (k : nat) (s : list nat * list (list nat)) : Prop :=
  depth_inv t k (fst s) /\ length (snd s) = n /\
  (forall v, v < n -> v < k -> exists l, rpath v l /\ nth v (snd s) [] = rev l) /\
  (forall v p, k <= v < n -> child t p v -> p < k ->
     exists l, rpath p l /\ nth v (snd s) [] = rev l) /\
  (forall v, k <= v < n -> ~ par_before t k v -> nth v (snd s) [] = [0]).

Lemma pp_child_fst : forall c split s, fst (pp_child t c split s) = depth_bump t c split (fst s).
Proof. intros. unfold pp_child, depth_bump. destruct (Z.eqb c (-1)); auto. Qed.

Lemma pp_body_inv : forall k s, k < n -> pp_inv k s -> pp_inv (S k) (pp_body t s k).
Proof.
  intros k [dv pl] Hk (D&L&A&B&C). simpl in *.
  assert (Df : fst (pp_body t (dv, pl) k) = depth_body t dv k).
  { unfold pp_body, depth_body. rewrite !pp_child_fst. auto. }
  split; [rewrite Df; apply depth_body_inv; auto|].
  set (pl1 := if Nat.ltb 0 k then upd pl k (nth k pl [] ++ [k]) else pl).
  assert (L1 : length pl1 = n) by (unfold pl1; destruct (Nat.ltb 0 k); rewrite ?upd_length; auto).
  assert (Pk : exists l, rpath k l /\ nth k pl1 [] = rev l).
  { unfold pl1. destruct (Nat.ltb_spec 0 k).
    - destruct (par_before_self t WF k ltac:(lia)) as (p&Hp&Lp).
      destruct (B k p) as (l&Rl&E); auto.
      exists (k :: l). split; [econstructor; eauto|]. rewrite nth_upd_eq by lia. rewrite E. auto.
    - assert (k = 0) by lia. subst k. exists [0]. split; [constructor|].
      rewrite (C 0); auto. apply (not_par_zero t WF). }
  assert (O1 : forall v, v <> k -> nth v pl1 [] = nth v pl []).
  { intros. unfold pl1. destruct (Nat.ltb 0 k); auto. rewrite nth_upd_neq; auto. }
  destruct (wf_node t WF k Hk) as [[E1 E2]|(l&r&E1&E2&Bl&Br&NE)].
  - assert (Sf : snd (pp_body t (dv, pl) k) = pl1).
    { unfold pp_body, pp_child. rewrite E1, E2. reflexivity. }
    rewrite Sf.
    assert (NC : forall v, ~ child t k v) by (intros v [X|X]; lia).
    split; auto. split; [|split]; intros v.
    + intros Hv Hvk. destruct (Nat.eq_dec v k) as [->|]; auto. rewrite O1 by auto. apply A; lia.
    + intros p Hv Hp Lp. rewrite O1 by lia. apply B; auto; [lia|].
      destruct (Nat.eq_dec p k) as [->|]; [destruct (NC _ Hp)|lia].
    + intros Hv NP. rewrite O1 by lia. apply C; [lia|]. intro; apply NP, par_before_S; auto.
  - assert (Cl : child t k l) by (left; auto). assert (Cr : child t k r) by (right; auto).
    set (pl2 := if Nat.ltb 0 k then upd pl1 l (nth k pl1 []) else pl1).
    set (pl3 := if Nat.ltb 0 k then upd pl2 r (nth k pl2 []) else pl2).
    assert (Sf : snd (pp_body t (dv, pl) k) = pl3).
    { unfold pp_body, pp_child. rewrite E1, E2, !of_nat_neq, !to_nat_of. reflexivity. }
    rewrite Sf.
    assert (L2 : length pl2 = n) by (unfold pl2; destruct (Nat.ltb 0 k); rewrite ?upd_length; auto).
    assert (L3 : length pl3 = n) by (unfold pl3; destruct (Nat.ltb 0 k); rewrite ?upd_length; auto).
    assert (K2 : nth k pl2 [] = nth k pl1 []).
    { unfold pl2. destruct (Nat.ltb 0 k); auto. rewrite nth_upd_neq by lia; auto. }
    assert (K3 : nth k pl3 [] = nth k pl1 []).
    { unfold pl3. destruct (Nat.ltb 0 k); auto. rewrite nth_upd_neq by lia; auto. }
    assert (O3 : forall v, v <> k -> v <> l -> v <> r -> nth v pl3 [] = nth v pl []).
    { intros. unfold pl3, pl2. destruct (Nat.ltb 0 k); rewrite ?nth_upd_neq by auto; auto. }
    assert (Ch : forall v, child t k v -> nth v pl3 [] = nth k pl1 []).
    { intros v Hv. unfold pl3, pl2 in *. destruct (Nat.ltb_spec 0 k).
      - destruct (child_two t k v l r E1 E2 Hv); subst.
        + rewrite nth_upd_neq by lia. rewrite nth_upd_eq by lia. auto.
        + rewrite nth_upd_eq by lia. auto.
      - assert (k = 0) by lia. subst k.
        pose proof (child_lt t WF _ _ Hv).
        rewrite O1 by lia. change (nth 0 pl1 []) with (nth 0 pl []).
        rewrite (C v) by (try lia; apply (par_before_not t WF); auto).
        rewrite (C 0) by (try lia; apply (not_par_zero t WF)). auto. }
    split; auto. split; [|split]; intros v.
    + intros Hv Hvk. destruct (Nat.eq_dec v k) as [->|]; [rewrite K3; auto|].
      rewrite O3 by lia. apply A; lia.
    + intros p Hv Hp Lp. destruct (Nat.eq_dec p k) as [->|].
      * rewrite (Ch v Hp). auto.
      * assert (v <> l) by (intro; subst; pose proof (parent_unique t WF _ _ _ Hp Cl); lia).
        assert (v <> r) by (intro; subst; pose proof (parent_unique t WF _ _ _ Hp Cr); lia).
        rewrite O3 by lia. apply B; auto; lia.
    + intros Hv NP.
      assert (v <> l) by (intro; subst; apply NP, par_before_S; auto).
      assert (v <> r) by (intro; subst; apply NP, par_before_S; auto).
      rewrite O3 by lia. apply C; [lia|]. intro; apply NP, par_before_S; auto.
Qed.

Lemma pp_inv_final :
  pp_inv n (fold_left (pp_body t) (seq 0 n) (repeat 0 n, repeat [0] n)).
Proof.
  apply (fold_seq_inv (pp_body t) pp_inv).
  - split; [|split; [|split; [|split]]]; simpl.
    + repeat split.
      * apply repeat_length.
      * intros v Hv [->|(p&_&C)]; [|lia]. rewrite nth_repeat_lt by auto. constructor.
      * intros. apply nth_repeat_lt; auto.
    + apply repeat_length.
    + intros; lia.
    + intros; lia.
    + intros. apply nth_repeat_lt. lia.
  - intros. apply pp_body_inv; auto.
Qed.

Lemma pp_fst : fst (depth_per_node_plus_parent t) = depth_per_node t.
Proof.
  unfold depth_per_node_plus_parent, depth_per_node. simpl.
  assert (G : forall l dv pl, fst (fold_left (pp_body t) l (dv, pl)) = fold_left (depth_body t) l dv).
  { induction l; intros; auto. simpl. rewrite (surjective_pairing (pp_body t (dv, pl) a)), IHl.
    f_equal. unfold pp_body, depth_body. rewrite !pp_child_fst. auto. }
  apply G.
Qed.

Definition max_depth_of : nat := list_maxn (depth_per_node t).

Lemma depth_le_max : forall v d, depth_of t v d -> d <= max_depth_of.
Proof.
  intros. pose proof (depth_lt t WF _ _ H) as L. apply (depth_per_node_iff t WF) in H; auto. subst.
  apply list_maxn_ge. apply nth_In. rewrite depth_per_node_length; auto.
Qed.

Lemma parent_mat_correct :
  length (snd (depth_per_node_plus_parent t)) = n /\
  forall v, v < n ->
    length (nth v (snd (depth_per_node_plus_parent t)) []) = max_depth_of + 1 /\
    forall k, k <= max_depth_of ->
      upk t k v (nth k (nth v (snd (depth_per_node_plus_parent t)) []) 0).
Proof.
  pose proof pp_inv_final as (D&L&A&_).
  assert (F : fst (fold_left (pp_body t) (seq 0 n) (repeat 0 n, repeat [0] n)) = depth_per_node t).
  { exact pp_fst. }
  unfold depth_per_node_plus_parent. simpl. rewrite F. fold max_depth_of.
  split; [rewrite map_length; auto|].
  intros v Hv. destruct (A v Hv Hv) as (l&R&E).
  rewrite nth_map_in with (d := []) by lia. rewrite E.
  rewrite rev_app_distr, rev_involutive. rewrite rev_length.
  destruct (rpath_depth _ _ R) as [Dl P]. pose proof (depth_le_max _ _ Dl).
  assert (RR : rev (repeat 0 (max_depth_of + 1 - length l)) = repeat 0 (max_depth_of + 1 - length l)).
  { generalize (max_depth_of + 1 - length l). intros q; induction q as [|q IHq]; simpl; auto. rewrite IHq.
    rewrite repeat_cons. auto. }
  rewrite RR. split.
  - rewrite app_length, repeat_length. lia.
  - intros k Hk. apply rpath_up; auto. lia.
Qed.

(** *** going up *)
Lemma up_lt : forall k v a, upk t k v a -> v < n /\ a < n.
Proof.
  induction 1; auto.
  - pose proof (wf_pos t WF). auto.
  - apply (child_lt t WF) in H. intuition.
Qed.
Lemma up_anc : forall k v a, upk t k v a -> anc t a v.
Proof.
  induction 1.
  - apply anc_refl; auto.
  - apply anc_refl, wf_pos; auto.
  - apply (anc_step t a p c); auto.
Qed.
Lemma up_depth : forall k v a, upk t k v a -> forall d, depth_of t v d -> depth_of t a (d - k).
Proof.
  induction 1; intros d D.
  - rewrite Nat.sub_0_r. auto.
  - rewrite (depth_root0 t WF _ D). constructor.
  - destruct (depth_child t WF _ _ _ H D) as (e&->&E). simpl. auto.
Qed.
Lemma up_ex : forall k v, v < n -> exists a, upk t k v a.
Proof.
  induction k; intros.
  - exists v. constructor; auto.
  - destruct (node_cases t WF v H) as [->|(p&Hp&Lp)].
    + exists 0. constructor.
    + destruct (IHk p) as [a A]; [lia|]. exists a. econstructor; eauto.
Qed.
Lemma up_unique : forall k v a b, upk t k v a -> upk t k v b -> a = b.
Proof.
  intros k v a b A B. destruct (up_lt _ _ _ A) as [Hv _].
  destruct (depth_ex t WF v Hv) as [d D].
  eapply (anc_same_depth t WF); eauto using up_anc, up_depth.
Qed.

End PM.

Local Open Scope R_scope.
Section Imp.
Variable t : tree R.
Hypothesis WF : wf_tree t.
Local Notation n := (size t).
Local Notation imp v := (nth v (t_imp t) 0).

Definition imp_inv (k : nat) (v : list R) : Prop :=
  length v = n /\
  (forall c p, (c < n)%nat -> child t p c -> (p < k)%nat ->
     nth c v 0 = (if Nat.ltb c k then imp c else 0) - imp p) /\
  (forall c, (c < n)%nat -> ~ par_before t k c ->
     nth c v 0 = (if Nat.ltb c k then imp c else 0)).

Lemma imp_sub_eq : forall c x v, (c < length v)%nat ->
  imp_sub (Z.of_nat c) x v = upd v c (nth c v 0 - x).
Proof. intros. unfold imp_sub. rewrite of_nat_neq, to_nat_of. reflexivity. Qed.

Lemma imp_body_inv : forall k v, (k < n)%nat -> imp_inv k v -> imp_inv (S k) (impurity_body t v k).
Proof.
  intros k v Hk (L&A&B). unfold impurity_body. rn.
  set (v1 := upd v k (nth k v 0 + imp k)).
  assert (L1 : length v1 = n) by (unfold v1; rewrite upd_length; auto).
  assert (LT : forall c, c <> k -> Nat.ltb c (S k) = Nat.ltb c k).
  { intros. destruct (Nat.ltb_spec c (S k)), (Nat.ltb_spec c k); auto; lia. }
  assert (LTk : Nat.ltb k (S k) = true) by (apply Nat.ltb_lt; lia).
  assert (LTk' : Nat.ltb k k = false) by (apply Nat.ltb_ge; lia).
  assert (V1 : forall c, (c < n)%nat -> nth c v1 0 =
     if Nat.eqb k c then nth c v 0 + imp c else nth c v 0).
  { intros. unfold v1. rewrite nth_upd by lia. destruct (Nat.eqb_spec k c); subst; auto. }
  destruct (wf_node t WF k Hk) as [[E1 E2]|(l&r&E1&E2&Bl&Br&NE)].
  - rewrite E1, E2. unfold imp_sub. rewrite Z.eqb_refl.
    assert (NC : forall v, ~ child t k v) by (intros w [X|X]; lia).
    split; auto. split.
    + intros c p Hc Hp Lp. rewrite V1 by auto.
      assert (p < k)%nat by (destruct (Nat.eq_dec p k) as [->|]; [destruct (NC _ Hp)|lia]).
      destruct (Nat.eqb_spec k c); subst; rewrite (A c p) by auto; [rewrite LTk, LTk'|rewrite LT by auto]; lra.
    + intros c Hc NP. rewrite V1 by auto.
      assert (~ par_before t k c) by (intro; apply NP, par_before_S; auto).
      destruct (Nat.eqb_spec k c); subst; rewrite B by auto; [rewrite LTk, LTk'|rewrite LT by auto]; lra.
  - assert (Cl : child t k l) by (left; auto). assert (Cr : child t k r) by (right; auto).
    rewrite E1, E2. rewrite (imp_sub_eq l) by lia. rewrite imp_sub_eq by (rewrite upd_length; lia).
    rewrite (nth_upd_neq v1 l r) by auto.
    assert (G : forall c, (c < n)%nat ->
      nth c (upd (upd v1 l (nth l v1 0 - imp k)) r (nth r v1 0 - imp k)) 0 =
      if Nat.eqb r c then nth r v 0 - imp k else if Nat.eqb l c then nth l v 0 - imp k else nth c v1 0).
    { intros. rewrite nth_upd by (rewrite upd_length; lia). destruct (Nat.eqb_spec r c).
      - subst. rewrite V1 by auto. destruct (Nat.eqb_spec k c); [lia|auto].
      - rewrite nth_upd by lia. destruct (Nat.eqb_spec l c); auto. subst. rewrite V1 by auto.
        destruct (Nat.eqb_spec k c); [lia|auto]. }
    split; [rewrite !upd_length; auto|]. split.
    + intros c p Hc Hp Lp. rewrite G by auto.
      destruct (Nat.eq_dec p k) as [->|].
      * pose proof (par_before_not t WF _ _ Hp) as NPc.
        destruct (child_two t k c l r E1 E2 Hp); subst c.
        -- destruct (Nat.eqb_spec r l); [lia|]. rewrite Nat.eqb_refl.
           rewrite (B l) by auto. rewrite LT by lia. auto.
        -- rewrite Nat.eqb_refl. rewrite (B r) by auto. rewrite LT by lia. auto.
      * assert (c <> l) by (intro; subst; pose proof (parent_unique t WF _ _ _ Hp Cl); lia).
        assert (c <> r) by (intro; subst; pose proof (parent_unique t WF _ _ _ Hp Cr); lia).
        destruct (Nat.eqb_spec r c); [lia|]. destruct (Nat.eqb_spec l c); [lia|]. rewrite V1 by auto.
        destruct (Nat.eqb_spec k c); subst; rewrite (A c p) by (auto; lia); [rewrite LTk, LTk'|rewrite LT by auto]; lra.
    + intros c Hc NP.
      assert (c <> l) by (intro; subst; apply NP, par_before_S; auto).
      assert (c <> r) by (intro; subst; apply NP, par_before_S; auto).
      assert (~ par_before t k c) by (intro; apply NP, par_before_S; auto).
      rewrite G by auto. destruct (Nat.eqb_spec r c); [lia|]. destruct (Nat.eqb_spec l c); [lia|].
      rewrite V1 by auto.
      destruct (Nat.eqb_spec k c); subst; rewrite B by auto; [rewrite LTk, LTk'|rewrite LT by auto]; lra.
Qed.

Lemma imp_inv_final : imp_inv n (change_in_impurity t).
Proof.
  apply (fold_seq_inv (impurity_body t) imp_inv).
  - split; [apply repeat_length|]. split.
    + intros; lia.
    + intros. rewrite nth_repeat_lt by auto. reflexivity.
  - intros. apply imp_body_inv; auto.
Qed.

Lemma change_length : length (change_in_impurity t) = n.
Proof. apply imp_inv_final. Qed.
Lemma change_root : nth 0 (change_in_impurity t) 0 = imp 0.
Proof.
  destruct imp_inv_final as (_&_&B). pose proof (wf_pos t WF). rewrite B; auto.
  - destruct (Nat.ltb_spec 0 n); auto; lia.
  - apply (not_par_zero t WF).
Qed.
Lemma change_child : forall p c, child t p c -> nth c (change_in_impurity t) 0 = imp c - imp p.
Proof.
  intros p c H. pose proof (child_lt t WF _ _ H). destruct imp_inv_final as (_&A&_).
  rewrite (A c p) by (auto; lia). destruct (Nat.ltb_spec c n); auto; lia.
Qed.

(** sums over the ancestors telescope *)
Definition anc_sum (f : nat -> bool) : R :=
  nsum (map (fun a => if f a then nth a (change_in_impurity t) 0 else 0) (seq 0 n)).

Lemma anc_sum_imp : forall v, (v < n)%nat -> forall f,
  (forall a, (a < n)%nat -> (f a = true <-> anc t a v)) -> anc_sum f = imp v.
Proof.
  apply (tree_ind t WF (fun v => forall f, (forall a, (a < n)%nat -> (f a = true <-> anc t a v)) -> anc_sum f = imp v)).
  - intros f Hf. unfold anc_sum. pose proof (wf_pos t WF).
    rewrite (nsum_single Nat.eq_dec _ _ 0%nat).
    + assert (f 0%nat = true) by (apply Hf; auto; apply anc_refl; auto). rewrite H0. apply change_root.
    + apply seq_NoDup.
    + apply in_seq. lia.
    + intros a Ha NE. apply in_seq in Ha. destruct (f a) eqn:E; auto. apply Hf in E; [|lia].
      apply (anc_zero t WF) in E. contradiction.
  - intros p c Hc IH f Hf. pose proof (child_lt t WF _ _ Hc).
    set (g := fun a => ancb t a p).
    assert (Hg : forall a, (a < n)%nat -> (g a = true <-> anc t a p)).
    { intros. apply (ancb_iff t WF); lia. }
    specialize (IH g Hg). unfold anc_sum in *.
    transitivity (nsum (map (fun a => (if g a then nth a (change_in_impurity t) 0 else 0)
                  + (if Nat.eqb a c then imp c - imp p else 0)) (seq 0 n))).
    + apply nsum_ext. intros a Ha. apply in_seq in Ha.
      destruct (Nat.eqb_spec a c).
      * subst a. assert (f c = true) by (apply Hf; [lia|]; apply anc_refl; lia).
        assert (g c = false).
        { destruct (g c) eqn:E; auto. apply Hg in E; [|lia]. apply (anc_lt t WF) in E. lia. }
        rewrite H0, H1. rewrite (change_child p c Hc). lra.
      * assert (f a = g a).
        { apply eq_true_iff_eq. rewrite Hf, Hg by lia. rewrite (anc_child t WF _ _ Hc). tauto. }
        rewrite H0. lra.
    + rewrite nsum_plus, IH.
      rewrite (nsum_single Nat.eq_dec (fun a => if Nat.eqb a c then imp c - imp p else 0) _ c).
      * rewrite Nat.eqb_refl. lra.
      * apply seq_NoDup.
      * apply in_seq. lia.
      * intros a _ NE. destruct (Nat.eqb_spec a c); auto; contradiction.
Qed.

Lemma wdot_lca : forall i j a, (i < n)%nat -> (j < n)%nat -> is_lca t a i j ->
  wdot (change_in_impurity t) (nth i (v_all t) []) (nth j (v_all t) []) = imp a.
Proof.
  intros i j a Hi Hj (A1&A2&A3).
  rewrite <- (anc_sum_imp a) with (f := fun b => ancb t b i && ancb t b j).
  - unfold wdot, anc_sum.
    rewrite (map2_as_seq _ _ _ 0 0) by
      (rewrite map_length, map2_length, change_length, !(v_row_len t WF) by auto; lia).
    rewrite map2_length, change_length, (v_row_len t WF) by auto.
    rewrite Nat.min_id. apply nsum_ext. intros b Hb. apply in_seq in Hb.
    rewrite nth_map2 with (da := 0%nat) (db := 0) by (rewrite ?change_length, ?(v_row_len t WF); auto; lia).
    rewrite nth_map_in with (d := 0%nat) by (rewrite (v_row_len t WF); auto; lia).
    unfold ancb.
    destruct (v_row01 t WF i b Hi ltac:(lia)) as [-> | ->], (v_row01 t WF j b Hj ltac:(lia)) as [-> | ->];
      unfold b2n; simpl; rn; lra.
  - apply (anc_lt t WF) in A1. lia.
  - intros b Hb. rewrite andb_true_iff, !(ancb_iff t WF) by auto. split; [intros []; auto|].
    intros X. split; eapply anc_trans; eauto.
Qed.

Lemma standard_impurity_length : length (standard_impurity t) = n_leaves t.
Proof. unfold standard_impurity. rewrite map_length. apply (v_leaf_length t WF). Qed.
Lemma standard_impurity_row_length : forall i, (i < n_leaves t)%nat ->
  length (nth i (standard_impurity t) []) = n_leaves t.
Proof.
  intros. unfold standard_impurity. rewrite nth_map_in with (d := []) by (rewrite (v_leaf_length t WF); auto).
  rewrite map_length. apply (v_leaf_length t WF).
Qed.

Lemma standard_impurity_entry : forall i j a, (i < n_leaves t)%nat -> (j < n_leaves t)%nat ->
  is_lca t a (leaf_id t i) (leaf_id t j) ->
  nth j (nth i (standard_impurity t) []) 0 = imp a - imp (leaf_id t i).
Proof.
  intros i j a Hi Hj A. unfold standard_impurity.
  rewrite nth_map_in with (d := []) by (rewrite (v_leaf_length t WF); auto).
  rewrite nth_map_in with (d := []) by (rewrite (v_leaf_length t WF); auto).
  rewrite (v_leaf_rows t WF). rewrite !nth_map_in with (d := 0%nat) by auto.
  change (nth i (leaf_ids t) 0%nat) with (leaf_id t i).
  change (nth j (leaf_ids t) 0%nat) with (leaf_id t j).
  rewrite (wdot_lca (leaf_id t i) (leaf_id t i) (leaf_id t i)) by (auto using leaf_id_lt, lca_self).
  rewrite (wdot_lca _ _ a) by auto using leaf_id_lt. rn. lra.
Qed.
End Imp.
