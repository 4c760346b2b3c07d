(** L_TreeModel: the structure functions of M_Tree compute the notions of TreeSpec. *)
From Verif Require Import Base TreeSpec M_Tree L_Base L_Tree.


Lemma fold_seq_inv : forall {St : Type} (f : St -> nat -> St) (P : nat -> St -> Prop) n s0,
  P 0 s0 -> (forall k s, k < n -> P k s -> P (S k) (f s k)) ->
  P n (fold_left f (seq 0 n) s0).
Proof.
  intros f0 f P n s0 H0 HS.
  assert (G : forall m, m <= n -> P m (fold_left f (seq 0 m) s0)).
  { induction m; intros; [exact H0|].
    rewrite seq_S, fold_left_app. simpl. apply HS; [lia|]. apply IHm. lia. }
  apply G. auto.
Qed.

Lemma to_nat_of : forall k, Z.to_nat (Z.of_nat k) = k.
Proof. intros; lia. Qed.
Lemma of_nat_neq : forall k, Z.eqb (Z.of_nat k) (-1) = false.
Proof. intros. apply Z.eqb_neq. lia. Qed.

Section S.
Context {T : Type} {NT : Num T}.
Variable t : tree T.
Hypothesis WF : wf_tree t.
Local Notation n := (size t).

(** "the parent of v has been visited before step k" *)
Definition par_before (k v : nat) : Prop := exists p, child t p v /\ p < k.

Lemma par_before_S : forall k v, par_before (S k) v <-> par_before k v \/ child t k v.
Proof.
  intros. split.
  - intros (p&A&B). destruct (Nat.eq_dec p k) as [->|]; auto. left. exists p. split; auto. lia.
  - intros [(p&A&B)|A]; [exists p|exists k]; split; auto.
Qed.

Lemma par_before_self : forall k, 0 < k < n -> par_before k k.
Proof.
  intros. destruct (parent_ex t WF k) as [p Hp]; [lia|]. exists p. split; auto.
  apply (child_lt t WF) in Hp. lia.
Qed.

Lemma par_before_not : forall k c, child t k c -> ~ par_before k c.
Proof. intros k c H (p&A&B). pose proof (parent_unique t WF _ _ _ H A). lia. Qed.

Lemma not_par_zero : forall k, ~ par_before k 0.
Proof. intros k (p&A&B). apply (child_lt t WF) in A. lia. Qed.

Lemma par_full : forall v, 0 < v < n -> par_before n v.
Proof. intros. destruct (par_before_self v H) as (p&A&B). exists p. split; auto. lia. Qed.

(** *** depth_per_node *)

Definition depth_inv (k : nat) (dv : list nat) : Prop :=
  length dv = n /\
  (forall v, v < n -> v = 0 \/ par_before k v -> depth_of t v (nth v dv 0)) /\
  (forall v, v < n -> ~ par_before k v -> nth v dv 0 = 0).

Lemma depth_bump_eq : forall c split dv, split < length dv -> c < length dv ->
  depth_bump t (Z.of_nat c) split dv = upd dv c (nth c dv 0 + (nth split dv 0 + 1)).
Proof. intros. unfold depth_bump. rewrite of_nat_neq, to_nat_of. auto. Qed.

Lemma depth_body_inv : forall k dv, k < n -> depth_inv k dv -> depth_inv (S k) (depth_body t dv k).
Proof.
  intros k dv Hk (L&A&B).
  assert (Dk : depth_of t k (nth k dv 0)).
  { apply A; auto. destruct k; auto. right. apply par_before_self. lia. }
  unfold depth_body. destruct (wf_node t WF k Hk) as [[E1 E2]|(l&r&E1&E2&Bl&Br&NE)].
  - rewrite E1, E2. unfold depth_bump. rewrite Z.eqb_refl.
    assert (Q : forall v, par_before (S k) v -> par_before k v).
    { intros v Hv. apply par_before_S in Hv. destruct Hv as [|[Hv|Hv]]; auto; lia. }
    repeat split; auto.
    + intros v Hv [|]; apply A; auto.
    + intros v Hv NP. apply B; auto. intros X. apply NP. apply par_before_S. auto.
  - rewrite E1, E2. rewrite !depth_bump_eq by (rewrite ?depth_bump_eq, ?upd_length; lia).
    assert (Cl : child t k l) by (left; auto). assert (Cr : child t k r) by (right; auto).
    rewrite (nth_upd_neq dv l k) by lia. rewrite (nth_upd_neq dv l r) by lia.
    rewrite (B l) by (auto using par_before_not; lia).
    rewrite (B r) by (auto using par_before_not; lia).
    repeat split.
    + rewrite !upd_length; auto.
    + intros v Hv H. destruct (Nat.eq_dec v r) as [->|Nr].
      * rewrite nth_upd_eq by (rewrite upd_length; lia).
        replace (0 + (nth k dv 0 + 1)) with (S (nth k dv 0)) by lia. econstructor; eauto.
      * rewrite nth_upd_neq by auto. destruct (Nat.eq_dec v l) as [->|Nl].
        -- rewrite nth_upd_eq by lia.
           replace (0 + (nth k dv 0 + 1)) with (S (nth k dv 0)) by lia. econstructor; eauto.
        -- rewrite nth_upd_neq by auto. apply A; auto. destruct H; auto. right.
           apply par_before_S in H. destruct H; auto.
           destruct (child_two t k v l r); auto; contradiction.
    + intros v Hv H.
      assert (~ child t k v) by (intro; apply H, par_before_S; auto).
      assert (v <> l) by (intro; subst; auto). assert (v <> r) by (intro; subst; auto).
      rewrite !nth_upd_neq by auto. apply B; auto. intro; apply H, par_before_S; auto.
Qed.

Lemma depth_inv_final : depth_inv n (depth_per_node t).
Proof.
  apply (fold_seq_inv (depth_body t) depth_inv).
  - repeat split.
    + apply repeat_length.
    + intros v Hv [->|(p&_&C)]; [|lia]. rewrite nth_repeat_lt by auto. constructor.
    + intros. apply nth_repeat_lt; auto.
  - intros. apply depth_body_inv; auto.
Qed.

Lemma depth_per_node_length : length (depth_per_node t) = n.
Proof. apply depth_inv_final. Qed.

Lemma depth_per_node_correct : forall v, v < n -> depth_of t v (nth v (depth_per_node t) 0).
Proof.
  intros. apply depth_inv_final; auto. destruct v; auto. right. apply par_full. lia.
Qed.

Lemma depth_per_node_iff : forall v d, v < n ->
  (depth_of t v d <-> nth v (depth_per_node t) 0 = d).
Proof.
  intros. pose proof (depth_per_node_correct v H). split; intros.
  - eapply depth_unique; eauto.
  - subst; auto.
Qed.

(** *** create_decision_per_leafs *)

Definition row_is (row : list nat) (P : nat -> Prop) : Prop :=
  length row = n /\ forall a, a < n ->
    (P a -> nth a row 0 = 1) /\ (~ P a -> nth a row 0 = 0).

Definition dec_inv (k : nat) (st : list (list nat)) : Prop :=
  length st = n /\
  (forall v, v < k -> row_is (nth v st []) (fun a => anc t a v)) /\
  (forall v p, k <= v < n -> child t p v -> p < k -> row_is (nth v st []) (fun a => anc t a p)) /\
  (forall v, k <= v < n -> ~ par_before k v -> row_is (nth v st []) (fun _ => False)).

Lemma row_fill_is : forall cr pr P Q, row_is cr P -> row_is pr Q ->
  (forall a, a < n -> Q a \/ ~ Q a) -> (forall a, ~ P a) -> row_is (row_fill cr pr) Q.
Proof.
  intros cr pr P Q [L1 H1] [L2 H2] D NP. split.
  - unfold row_fill. rewrite map2_length. lia.
  - intros a Ha. unfold row_fill. rewrite nth_map2 with (da := 0) (db := 0) by lia.
    destruct (H2 a Ha) as [A B], (H1 a Ha) as [C E].
    split; intros X.
    + rewrite (A X). auto.
    + rewrite (B X). simpl. auto.
Qed.

Lemma row_is_ext : forall row (P Q : nat -> Prop), row_is row P -> (forall a, a < n -> (P a <-> Q a)) ->
  row_is row Q.
Proof.
  intros row P Q [L H] E. split; auto. intros a Ha. specialize (E a Ha). destruct (H a Ha).
  split; intros; [apply H0|apply H1]; tauto.
Qed.

Lemma dec_body_inv : forall k st, k < n -> dec_inv k st -> dec_inv (S k) (decision_body t st k).
Proof.
  intros k st Hk (L&A&B&C).
  set (st1 := upd st k (upd (nth k st []) k 1)).
  assert (L1 : length st1 = n) by (unfold st1; rewrite upd_length; auto).
  assert (Rk : row_is (nth k st1 []) (fun a => anc t a k)).
  { unfold st1. rewrite nth_upd_eq by lia.
    assert (Hrow : row_is (nth k st []) (fun a => a <> k /\ anc t a k)).
    { destruct (Nat.eq_dec k 0) as [->|NZ].
      - apply (row_is_ext _ (fun _ => False)).
        + apply C; [lia|]. apply not_par_zero.
        + intros a Ha. split; [tauto|]. intros [X Y]. apply (anc_zero t WF) in Y. contradiction.
      - destruct (par_before_self k ltac:(lia)) as (p&Hp&Lp).
        apply (row_is_ext _ (fun a => anc t a p)); [apply B; auto; lia|].
        intros a Ha. rewrite (anc_child t WF _ _ Hp). split; [|tauto].
        intros X. split; auto. apply (anc_lt t WF) in X. lia. }
    destruct Hrow as [Lr Hr]. split; [rewrite upd_length; auto|].
    intros a Ha. rewrite nth_upd by lia. destruct (Nat.eqb_spec k a) as [->|NE].
    - split; auto. intros X. exfalso. apply X. apply anc_refl; auto.
    - destruct (Hr a Ha). split; intros; [apply H|apply H0]; auto; tauto. }
  assert (Other : forall v, v <> k -> nth v st1 [] = nth v st []).
  { intros. unfold st1. rewrite nth_upd_neq; auto. }
  unfold decision_body. fold st1.
  destruct (wf_node t WF k Hk) as [[E1 E2]|(l&r&E1&E2&Bl&Br&NE)].
  - rewrite E2, Z.eqb_refl.
    assert (NC : forall v, ~ child t k v) by (intros v [X|X]; lia).
    split; [auto|]. split; [|split]; intros v.
    + intros Hv. destruct (Nat.eq_dec v k) as [->|]; [apply Rk|]. rewrite Other by auto. apply A; lia.
    + intros p Hv Hp Lp. rewrite Other by lia. apply B; auto; [lia|].
      destruct (Nat.eq_dec p k) as [->|]; [destruct (NC _ Hp)|lia].
    + intros Hv NP. rewrite Other by lia. apply C; [lia|]. intro; apply NP, par_before_S; auto.
  - rewrite E1, E2, of_nat_neq, !to_nat_of.
    assert (Cl : child t k l) by (left; auto). assert (Cr : child t k r) by (right; auto).
    set (st2 := upd st1 r (row_fill (nth r st1 []) (nth k st1 []))).
    assert (L2 : length st2 = n) by (unfold st2; rewrite upd_length; auto).
    assert (D : forall a, a < n -> anc t a k \/ ~ anc t a k).
    { intros a _. destruct (anc_dec t WF a k Hk); auto. }
    assert (Rr : row_is (nth r st2 []) (fun a => anc t a k)).
    { unfold st2. rewrite nth_upd_eq by lia.
      apply row_fill_is with (P := fun _ => False); auto.
      rewrite Other by lia. apply C; [lia|]. apply par_before_not; auto. }
    assert (Rk2 : nth k st2 [] = nth k st1 []) by (unfold st2; apply nth_upd_neq; lia).
    assert (Rl : row_is (row_fill (nth l st2 []) (nth k st2 [])) (fun a => anc t a k)).
    { rewrite Rk2. apply row_fill_is with (P := fun _ => False); auto.
      unfold st2. rewrite nth_upd_neq by lia. rewrite Other by lia.
      apply C; [lia|]. apply par_before_not; auto. }
    set (st3 := upd st2 l (row_fill (nth l st2 []) (nth k st2 []))).
    assert (O3 : forall v, v <> l -> v <> r -> v <> k -> nth v st3 [] = nth v st []).
    { intros. unfold st3, st2. rewrite !nth_upd_neq by auto. auto. }
    assert (K3 : nth k st3 [] = nth k st1 []).
    { unfold st3. rewrite nth_upd_neq by lia. auto. }
    assert (R3 : nth r st3 [] = nth r st2 []).
    { unfold st3. rewrite nth_upd_neq by lia. auto. }
    assert (LL3 : nth l st3 [] = row_fill (nth l st2 []) (nth k st2 [])).
    { unfold st3. rewrite nth_upd_eq by lia. auto. }
    split; [unfold st3; rewrite upd_length; auto|]. split; [|split].
    + intros v Hv. destruct (Nat.eq_dec v k) as [->|]; [rewrite K3; auto|].
      rewrite O3 by lia. apply A. lia.
    + intros v p Hv Hp Lp. destruct (Nat.eq_dec p k) as [->|].
      * destruct (child_two t k v l r E1 E2 Hp); subst.
        -- rewrite LL3; auto.
        -- rewrite R3; auto.
      * assert (v <> l) by (intro; subst; pose proof (parent_unique t WF _ _ _ Hp Cl); lia).
        assert (v <> r) by (intro; subst; pose proof (parent_unique t WF _ _ _ Hp Cr); lia).
        rewrite O3 by lia. apply B; auto; lia.
    + intros v Hv NP.
      assert (v <> l) by (intro; subst; apply NP, par_before_S; auto).
      assert (v <> r) by (intro; subst; apply NP, par_before_S; auto).
      rewrite O3 by lia. apply C; [lia|]. intro; apply NP, par_before_S; auto.
Qed.

Lemma dec_inv_final : dec_inv n (v_all t).
Proof.
  apply (fold_seq_inv (decision_body t) dec_inv).
  - split; [apply repeat_length|]. split; [intros; lia|]. split; [intros; lia|].
    intros v Hv _. rewrite nth_repeat_lt by lia. split; [apply repeat_length|].
    intros a Ha. split; [tauto|]. intros _. apply nth_repeat_lt; auto.
  - intros. apply dec_body_inv; auto.
Qed.

Lemma v_all_length : length (v_all t) = n.
Proof. apply dec_inv_final. Qed.
Lemma v_all_row : forall v, v < n -> row_is (nth v (v_all t) []) (fun a => anc t a v).
Proof. intros. destruct dec_inv_final as (_&A&_). auto. Qed.
Lemma v_all_anc : forall v a, v < n -> a < n -> anc t a v -> nth a (nth v (v_all t) []) 0 = 1.
Proof. intros. apply (v_all_row v H); auto. Qed.
Lemma v_all_not : forall v a, v < n -> a < n -> ~ anc t a v -> nth a (nth v (v_all t) []) 0 = 0.
Proof. intros. apply (v_all_row v H); auto. Qed.

(** executable ancestor test *)
Definition ancb (a v : nat) : bool := Nat.eqb (nth a (nth v (v_all t) []) 0) 1.
Lemma ancb_iff : forall a v, v < n -> a < n -> (ancb a v = true <-> anc t a v).
Proof.
  intros. unfold ancb. destruct (anc_dec t WF a v H).
  - rewrite v_all_anc by auto. simpl. tauto.
  - rewrite v_all_not by auto. simpl. split; [discriminate|contradiction].
Qed.

Lemma leaf_right : forall v, v < n -> Z.eqb (rc t v) (-1) = is_leafb t v.
Proof.
  intros v Hv. unfold is_leafb. destruct (wf_node t WF v Hv) as [[A B]|(l&r&A&B&_)].
  - rewrite A, B. auto.
  - rewrite A, B, !of_nat_neq. auto.
Qed.

Lemma leaf_mask_right : map (fun c => Z.eqb c (-1)) (t_right t) = map (is_leafb t) (seq 0 n).
Proof.
  rewrite (map_as_seq _ (t_right t) (-1)%Z). rewrite (wf_len_right t WF).
  apply map_ext_in. intros v Hv. apply in_seq in Hv. apply leaf_right. lia.
Qed.

Lemma leaf_mask_left : map (fun c => Z.eqb c (-1)) (t_left t) = map (is_leafb t) (seq 0 n).
Proof.
  rewrite (map_as_seq _ (t_left t) (-1)%Z). reflexivity.
Qed.

(** leaf-masked selection of a node array = its values at the leaf ids *)
Lemma leaf_select_right : forall {A} (l : list A) d, length l = n ->
  mask_select (map (fun c => Z.eqb c (-1)) (t_right t)) l = map (fun v => nth v l d) (leaf_ids t).
Proof.
  intros. rewrite leaf_mask_right. rewrite <- H at 1. rewrite (mask_select_seq _ l d).
  unfold leaf_ids. rewrite H. auto.
Qed.
Lemma leaf_select_left : forall {A} (l : list A) d, length l = n ->
  mask_select (map (fun c => Z.eqb c (-1)) (t_left t)) l = map (fun v => nth v l d) (leaf_ids t).
Proof.
  intros. rewrite leaf_mask_left. rewrite <- H at 1. rewrite (mask_select_seq _ l d).
  unfold leaf_ids. rewrite H. auto.
Qed.

Lemma v_leaf_rows : v_leaf t = map (fun v => nth v (v_all t) []) (leaf_ids t).
Proof. unfold v_leaf. apply leaf_select_right. apply v_all_length. Qed.

Lemma v_leaf_length : length (v_leaf t) = n_leaves t.
Proof. rewrite v_leaf_rows, map_length. auto. Qed.

Lemma leaf_ids_spec : forall v, In v (leaf_ids t) <-> v < n /\ is_leafb t v = true.
Proof. intros. unfold leaf_ids. rewrite filter_In, in_seq. split; intros; [|]; intuition; lia. Qed.

Lemma leaf_ids_NoDup : NoDup (leaf_ids t).
Proof. unfold leaf_ids. apply NoDup_filter, seq_NoDup. Qed.

Lemma leaf_id_in : forall i, i < n_leaves t -> In (leaf_id t i) (leaf_ids t).
Proof. intros. apply nth_In. auto. Qed.
Lemma leaf_id_lt : forall i, i < n_leaves t -> leaf_id t i < n.
Proof. intros. apply leaf_ids_spec. apply leaf_id_in; auto. Qed.
Lemma leaf_id_leaf : forall i, i < n_leaves t -> is_leafb t (leaf_id t i) = true.
Proof. intros. apply leaf_ids_spec. apply leaf_id_in; auto. Qed.
Lemma leaf_id_inj : forall i j, i < n_leaves t -> j < n_leaves t -> leaf_id t i = leaf_id t j -> i = j.
Proof. intros. eapply (NoDup_nth (leaf_ids t) 0); eauto using leaf_ids_NoDup. Qed.

Lemma leaf_anc_eq : forall a v, anc t a v -> is_leafb t a = true -> a = v.
Proof.
  intros a v H L. induction H; auto. specialize (IHanc L). subst.
  destruct (leaf_no_child t WF _ _ L H0).
Qed.

Lemma n_leaves_pos : 0 < n_leaves t.
Proof.
  pose proof (wf_pos t WF). assert (In (n-1) (leaf_ids t)).
  - apply leaf_ids_spec. split; [lia|].
    destruct (is_leafb t (n-1)) eqn:E; auto.
    destruct (nonleaf_children t WF (n-1)) as (l&r&A&B&C&D&F); auto; lia.
  - unfold n_leaves. destruct (leaf_ids t); [destruct H0|simpl; lia].
Qed.

(** *** lowest common ancestors and distances *)

Lemma lca_ex : forall i j, i < n -> j < n -> exists a, is_lca t a i j.
Proof.
  intros i j Hi Hj. revert i Hi.
  apply (tree_ind t WF (fun i => exists a, is_lca t a i j)).
  - exists 0. split; [apply anc_refl, wf_pos; auto|]. split; [apply anc_root; auto|]. auto.
  - intros p c Hc (a&A1&A2&A3).
    destruct (anc_dec t WF c j Hj) as [H|H].
    + exists c. split; [apply anc_refl; apply (child_lt t WF) in Hc; lia|]. split; auto.
    + exists a. split; [apply (anc_step t a p c); auto|]. split; auto.
      intros b B1 B2. apply (anc_child t WF _ _ Hc) in B1. destruct B1 as [->|B1]; [contradiction|auto].
Qed.

Lemma lca_sym : forall a i j, is_lca t a i j -> is_lca t a j i.
Proof. intros a i j (A&B&C). split; [|split]; auto. Qed.
Lemma lca_unique : forall a b i j, is_lca t a i j -> is_lca t b i j -> a = b.
Proof.
  intros a b i j (A1&A2&A3) (B1&B2&B3). eapply (anc_antisym t WF); eauto.
Qed.

Lemma dotn_rows : forall r s, length r = n -> length s = n ->
  (forall a, a < n -> nth a r 0 = 0 \/ nth a r 0 = 1) ->
  (forall a, a < n -> nth a s 0 = 0 \/ nth a s 0 = 1) ->
  dotn r s = length (filter (fun a => Nat.eqb (nth a r 0) 1 && Nat.eqb (nth a s 0) 1) (seq 0 n)).
Proof.
  intros r s Lr Ls Hr Hs. unfold dotn. rewrite (map2_as_seq _ r s 0 0) by lia.
  rewrite Lr. rewrite <- sumn_filter_len. f_equal. apply map_ext_in.
  intros a Ha. apply in_seq in Ha.
  destruct (Hr a ltac:(lia)) as [-> | ->], (Hs a ltac:(lia)) as [-> | ->]; auto.
Qed.

Lemma v_row01 : forall v a, v < n -> a < n ->
  nth a (nth v (v_all t) []) 0 = 0 \/ nth a (nth v (v_all t) []) 0 = 1.
Proof.
  intros. destruct (anc_dec t WF a v H); [right; apply v_all_anc|left; apply v_all_not]; auto.
Qed.
Lemma v_row_len : forall v, v < n -> length (nth v (v_all t) []) = n.
Proof. intros. apply (v_all_row v H). Qed.

Lemma dotn_lca : forall i j a d, i < n -> j < n -> is_lca t a i j -> depth_of t a d ->
  dotn (nth i (v_all t) []) (nth j (v_all t) []) = S d.
Proof.
  intros i j a d Hi Hj (A1&A2&A3) D.
  rewrite dotn_rows; auto using v_row_len, v_row01.
  apply (count_anc t WF a d D). intros b Hb.
  change (ancb b i && ancb b j = true <-> anc t b a).
  rewrite andb_true_iff, !ancb_iff by auto. split; [intros []; auto|].
  intros X. split; eapply (anc_trans t) ; eauto.
Qed.

Lemma climb_ex : forall i j, i < n -> j < n -> exists d, climb t i j d.
Proof.
  intros. destruct (lca_ex i j) as [a A]; auto.
  destruct (depth_ex t WF i H) as [di Di].
  assert (a < n) by (destruct A as [A _]; apply (anc_lt t WF) in A; lia).
  destruct (depth_ex t WF a H1) as [da Da].
  exists (di - da), a, di, da. auto.
Qed.

Lemma climb_unique : forall i j d d', climb t i j d -> climb t i j d' -> d = d'.
Proof.
  intros i j d d' (a&di&da&A&B&C&->) (b&ei&eb&A'&B'&C'&->).
  assert (a = b) by (eapply lca_unique; eauto). subst.
  rewrite (depth_unique t WF _ _ _ B B'), (depth_unique t WF _ _ _ C C'). auto.
Qed.

Definition sd_entry (i j : nat) : Z :=
  (Z.of_nat (dotn (nth i (v_all t) []) (nth i (v_all t) []))
   - Z.of_nat (dotn (nth i (v_all t) []) (nth j (v_all t) [])))%Z.

Lemma lca_self : forall i, i < n -> is_lca t i i i.
Proof. intros. split; [|split]; auto; apply anc_refl; auto. Qed.

Lemma sd_entry_climb : forall i j d, i < n -> j < n -> climb t i j d -> sd_entry i j = Z.of_nat d.
Proof.
  intros i j d Hi Hj (a&di&da&A&B&C&->). unfold sd_entry.
  rewrite (dotn_lca i i i di), (dotn_lca i j a da); auto using lca_self.
  destruct A as [A _]. destruct (depth_anc t WF _ _ _ _ A C B). lia.
Qed.

Lemma standard_depth_entry : forall i j, i < n_leaves t -> j < n_leaves t ->
  nth j (nth i (standard_depth (v_leaf t)) []) 0%Z = sd_entry (leaf_id t i) (leaf_id t j).
Proof.
  intros. unfold standard_depth.
  assert (L : length (v_leaf t) = n_leaves t) by apply v_leaf_length.
  rewrite nth_map_in with (d := []) by lia. rewrite nth_map_in with (d := []) by lia.
  rewrite v_leaf_rows. rewrite !nth_map_in with (d := 0) by auto. reflexivity.
Qed.

Lemma standard_depth_length : length (standard_depth (v_leaf t)) = n_leaves t.
Proof. unfold standard_depth. rewrite map_length. apply v_leaf_length. Qed.
Lemma standard_depth_row_length : forall i, i < n_leaves t ->
  length (nth i (standard_depth (v_leaf t)) []) = n_leaves t.
Proof.
  intros. unfold standard_depth. rewrite nth_map_in with (d := []) by (rewrite v_leaf_length; auto).
  rewrite map_length. apply v_leaf_length.
Qed.

Lemma transpose_length : forall {A} (d : A) c M, length (transpose d c M) = c.
Proof. intros. unfold transpose. rewrite map_length, seq_length. auto. Qed.
Lemma transpose_row_length : forall {A} (d : A) c M i, i < c -> length (nth i (transpose d c M) []) = length M.
Proof.
  intros. unfold transpose. rewrite nth_map_seq by auto. rewrite map_length. auto.
Qed.
Lemma transpose_entry : forall {A} (d : A) c M i j, i < c -> j < length M ->
  nth j (nth i (transpose d c M) []) d = nth i (nth j M []) d.
Proof.
  intros. unfold transpose. rewrite nth_map_seq by auto.
  rewrite nth_map_in with (d := []) by auto. auto.
Qed.

Lemma style_depth_length : forall s, length (depth_dist_leaves s t) = n_leaves t.
Proof.
  intros. unfold depth_dist_leaves, style_depth.
  destruct s; rewrite ?map2_length, ?transpose_length, standard_depth_length; lia.
Qed.
Lemma style_depth_row_length : forall s i, i < n_leaves t ->
  length (nth i (depth_dist_leaves s t) []) = n_leaves t.
Proof.
  intros. unfold depth_dist_leaves, style_depth.
  destruct s; [apply standard_depth_row_length; auto| |];
  rewrite nth_map2 with (da := []) (db := []) by (rewrite ?transpose_length, standard_depth_length; auto);
  rewrite map2_length, transpose_row_length, standard_depth_row_length; rewrite ?standard_depth_length; auto; lia.
Qed.

Lemma depth_dist_entry : forall s i j, i < n_leaves t -> j < n_leaves t ->
  nth j (nth i (depth_dist_leaves s t) []) 0%Z =
  match s with
  | Standard => sd_entry (leaf_id t i) (leaf_id t j)
  | MaxStyle => Z.max (sd_entry (leaf_id t i) (leaf_id t j)) (sd_entry (leaf_id t j) (leaf_id t i))
  | MinStyle => Z.min (sd_entry (leaf_id t i) (leaf_id t j)) (sd_entry (leaf_id t j) (leaf_id t i))
  end.
Proof.
  intros. unfold depth_dist_leaves, style_depth.
  destruct s; [apply standard_depth_entry; auto| |];
  rewrite nth_map2 with (da := []) (db := []) by (rewrite ?transpose_length, standard_depth_length; auto);
  rewrite nth_map2 with (da := 0%Z) (db := 0%Z)
    by (rewrite ?transpose_row_length, ?standard_depth_row_length; rewrite ?standard_depth_length; auto);
  rewrite transpose_entry by (rewrite standard_depth_length; auto);
  rewrite !standard_depth_entry by auto; reflexivity.
Qed.

Lemma depth_dist_correct : forall s i j d, i < n_leaves t -> j < n_leaves t ->
  leaf_dist t s (leaf_id t i) (leaf_id t j) d ->
  nth j (nth i (depth_dist_leaves s t) []) 0%Z = Z.of_nat d.
Proof.
  intros s i j d Hi Hj (d1&d2&C1&C2&->). rewrite depth_dist_entry by auto.
  rewrite (sd_entry_climb _ _ d1), (sd_entry_climb _ _ d2) by auto using leaf_id_lt.
  destruct s; lia.
Qed.

Lemma leaf_dist_ex : forall s i j, i < n -> j < n -> exists d, leaf_dist t s i j d.
Proof.
  intros. destruct (climb_ex i j) as [d1 D1]; auto. destruct (climb_ex j i) as [d2 D2]; auto.
  eexists; exists d1, d2. repeat split; eauto.
Qed.
Lemma leaf_dist_unique : forall s i j d d', leaf_dist t s i j d -> leaf_dist t s i j d' -> d = d'.
Proof.
  intros s i j d d' (d1&d2&A&B&->) (e1&e2&A'&B'&->).
  rewrite (climb_unique _ _ _ _ A A'), (climb_unique _ _ _ _ B B'). auto.
Qed.

Lemma depth_dist_iff : forall s i j d, i < n_leaves t -> j < n_leaves t ->
  (leaf_dist t s (leaf_id t i) (leaf_id t j) d <->
   nth j (nth i (depth_dist_leaves s t) []) 0%Z = Z.of_nat d).
Proof.
  intros. split; [apply depth_dist_correct; auto|]. intros E.
  destruct (leaf_dist_ex s (leaf_id t i) (leaf_id t j)) as [e De]; auto using leaf_id_lt.
  rewrite (depth_dist_correct _ _ _ _ H H0 De) in E. apply Nat2Z.inj in E. subst; auto.
Qed.

(** different leaves are at positive distance, a leaf is at distance 0 from itself *)
Lemma climb_zero : forall i j, climb t i j 0 -> anc t i j.
Proof.
  intros i j (a&di&da&(A1&A2&A3)&B&C&E).
  destruct (depth_anc t WF _ _ _ _ A1 C B). assert (X : da = di) by lia. rewrite <- (H0 X). auto.
Qed.
Lemma climb_refl : forall i, i < n -> climb t i i 0.
Proof.
  intros. destruct (depth_ex t WF i H) as [d D]. exists i, d, d. repeat (split; auto using lca_self). lia.
Qed.
Lemma leaf_dist_refl : forall s i, i < n -> leaf_dist t s i i 0.
Proof. intros. exists 0, 0. pose proof (climb_refl i H). destruct s; repeat split; auto. Qed.
Lemma leaf_dist_zero : forall s i j, is_leafb t i = true -> is_leafb t j = true ->
  leaf_dist t s i j 0 -> i = j.
Proof.
  intros s i j Li Lj (d1&d2&A&B&E).
  assert (d1 = 0 \/ d2 = 0) as [->| ->] by (destruct s; lia).
  - apply climb_zero in A. apply leaf_anc_eq; auto.
  - apply climb_zero in B. symmetry. apply leaf_anc_eq; auto.
Qed.

(** ultrametric-like inequality of the climbing distance *)
Lemma climb_triangle : forall i j k dij djk dik, i < n -> j < n -> k < n ->
  climb t i j dij -> climb t j k djk -> climb t i k dik -> dik <= dij + djk.
Proof.
  intros i j k dij djk dik Hi Hj Hk (a&di&da&A&Di&Da&->) (b&dj&db&B&Dj&Db&->) (c&di'&dc&C&Di'&Dc&->).
  rewrite (depth_unique t WF _ _ _ Di' Di) in *.
  destruct A as (A1&A2&_), B as (B1&B2&_), C as (C1&C2&C3).
  pose proof (depth_anc t WF _ _ _ _ B1 Db Dj) as [P1 _].
  pose proof (depth_anc t WF _ _ _ _ A2 Da Dj) as [P2 _].
  (* a and b are both ancestors of j *)
  destruct (anc_comparable t WF _ _ _ A2 B1) as [X|X].
  - (* a above b: a is an ancestor of k, hence of c *)
    assert (anc t a c) by (apply C3; auto; eapply (anc_trans t); eauto).
    destruct (depth_anc t WF _ _ _ _ H Da Dc). lia.
  - assert (anc t b c) by (apply C3; auto; eapply (anc_trans t); eauto).
    destruct (depth_anc t WF _ _ _ _ H Db Dc).
    destruct (depth_anc t WF _ _ _ _ X Db Da). lia.
Qed.

End S.
