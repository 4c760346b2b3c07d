(** L_Level: decision paths of leaves, distances and kernels of smooth_level.py. *)
From Verif Require Import Base TreeSpec M_Tree M_Gamma M_Smooth M_Level.
From Verif Require Import L_Base L_Tree L_TreeModel.
From Coq Require Import Lia.
Local Open Scope nat_scope.

(** *** C53 *)
Section Paths.
Context {T : Type}.
Variable t : tree T.
Hypothesis WF : wf_tree t.
Notation n := (size t).

Lemma anc_down : forall a v, anc t a v -> a = v \/ exists c, child t a c /\ anc t c v.
Proof.
  intros a v H. induction H as [v L|a p c A IH C]; auto. right. destruct IH as [->|(d&D1&D2)].
  - exists c. split; auto. apply anc_refl. apply (child_lt t WF _ _ C).
  - exists d. split; auto. eapply anc_step; [exact D2|exact C].
Qed.
Lemma sib_disj : forall q l r u, lc t q = Z.of_nat l -> rc t q = Z.of_nat r -> anc t l u -> anc t r u -> False.
Proof.
  intros q l r u HL HR A B.
  assert (CL : child t q l) by (left; auto). assert (CR : child t q r) by (right; auto).
  pose proof (child_lt t WF _ _ CL) as L1. pose proof (child_lt t WF _ _ CR) as L2.
  assert (NEQ : l <> r).
  { intros ->. destruct (wf_node t WF q ltac:(lia)) as [[X _]|(l'&r'&X&Y&_&_&Z)]; lia. }
  destruct (anc_comparable t WF _ _ _ A B) as [C|C].
  - apply (anc_child t WF _ _ CR) in C. destruct C as [C|C]; [auto|]. apply (anc_lt t WF) in C. lia.
  - apply (anc_child t WF _ _ CL) in C. destruct C as [C|C]; [auto|]. apply (anc_lt t WF) in C. lia.
Qed.
Definition cnt (p : list (nat * nat)) (l v : nat) : nat :=
  length (filter (fun q => (Nat.eqb (fst q) l && Nat.eqb (snd q) v)%bool) p).
Lemma cnt_app : forall p q l v, cnt (p ++ q) l v = cnt p l v + cnt q l v.
Proof. intros. unfold cnt. rewrite filter_app, app_length. reflexivity. Qed.
Lemma combine_app : forall {A B} (a a' : list A) (b b' : list B), length a = length b -> combine (a ++ a') (b ++ b') = combine a b ++ combine a' b'.
Proof. induction a as [|x a IH]; intros a' [|y b] b' H; cbn in *; try discriminate; auto. rewrite IH by lia. reflexivity. Qed.
Lemma cnt_repeat : forall i y l v, cnt (combine (repeat i (length y)) y) l v = if Nat.eqb i l then count_occ Nat.eq_dec y v else 0.
Proof.
  intros i y l v. induction y as [|a y IH]; [cbn; destruct (Nat.eqb i l); reflexivity|].
  cbn [length repeat combine]. unfold cnt in *. cbn [filter fst snd count_occ].
  destruct (Nat.eqb_spec i l); cbn [andb]; [|auto]. destruct (Nat.eqb_spec a v); destruct (Nat.eq_dec a v); try lia; cbn [length]; lia.
Qed.
Lemma count_snoc : forall e i v, count_occ Nat.eq_dec (e ++ [i]) v = count_occ Nat.eq_dec e v + if Nat.eqb i v then 1 else 0.
Proof. intros. rewrite count_occ_app. cbn. destruct (Nat.eq_dec i v); destruct (Nat.eqb_spec i v); lia. Qed.
Lemma ancb_false : forall a v, v < n -> a < n -> (ancb t a v = false <-> ~ anc t a v).
Proof. intros a v Hv Ha. rewrite <- (ancb_iff t WF a v Hv Ha). destruct (ancb t a v); split; intros; congruence. Qed.

Lemma list_nodes : forall fuel idx elders, idx < n -> n <= fuel + S idx ->
  exists x y, decision_list_nodes fuel t idx elders = Ok (x, y) /\ length x = length y /\
    (forall l, In l x -> l < n /\ is_leafb t l = true) /\
    forall l v, l < n -> v < n -> cnt (combine x y) l v =
      if (is_leafb t l && ancb t idx l)%bool then count_occ Nat.eq_dec elders v + (if (ancb t idx v && ancb t v l)%bool then 1 else 0) else 0.
Proof.
  induction fuel as [|f IH]; intros idx elders Hi Hf.
  all: destruct (is_leafb t idx) eqn:LE.
  1, 3: cbn [decision_list_nodes]; change (nth idx (t_left t) (-1)%Z) with (lc t idx); unfold is_leafb in LE; rewrite LE; fold (is_leafb t idx) in LE;
    exists (repeat idx (length elders + 1)), (elders ++ [idx]); (split; [reflexivity|]); (split; [rewrite repeat_length, app_length; reflexivity|]);
    (split; [intros l Hl; apply repeat_spec in Hl; subst; split; auto|]); intros l v Hl Hv;
    replace (length elders + 1) with (length (elders ++ [idx])) by (rewrite app_length; reflexivity);
    rewrite cnt_repeat, count_snoc; destruct (Nat.eqb_spec idx l) as [E|NE];
    [subst l; rewrite LE; rewrite (proj2 (ancb_iff t WF idx idx Hi Hi)) by (apply anc_refl; auto); cbn [andb]; f_equal;
      destruct (Nat.eqb_spec idx v) as [E|NE];
      [subst v; rewrite (proj2 (ancb_iff t WF idx idx Hi Hi)) by (apply anc_refl; auto); reflexivity|
       destruct (ancb t idx v) eqn:A1; auto; exfalso; apply NE; apply (leaf_anc_eq t WF); [apply (ancb_iff t WF); auto|exact LE]]|
     destruct (is_leafb t l && ancb t idx l)%bool eqn:B; auto; exfalso; apply Bool.andb_true_iff in B; destruct B as [_ B];
      apply NE; apply (leaf_anc_eq t WF); [apply (ancb_iff t WF); auto|exact LE]].
  - exfalso. destruct (nonleaf_children t WF idx Hi LE) as (l&r&_&_&A&_). lia.
  - destruct (nonleaf_children t WF idx Hi LE) as (a&b&HA&HB&LA&LB&NAB).
    assert (CA : child t idx a) by (left; auto). assert (CB : child t idx b) by (right; auto).
    cbn [decision_list_nodes]. change (nth idx (t_left t) (-1)%Z) with (lc t idx). change (nth idx (t_right t) (-1)%Z) with (rc t idx).
    unfold is_leafb in LE. rewrite LE, HA, HB, !to_nat_of.
    destruct (IH a (elders ++ [idx])) as (x1&y1&E1&L1&F1&C1); [lia|lia|]. destruct (IH b (elders ++ [idx])) as (x2&y2&E2&L2&F2&C2); [lia|lia|].
    rewrite E1. cbn [bind]. rewrite E2. cbn [bind]. exists (x1 ++ x2), (y1 ++ y2). split; [reflexivity|]. split; [rewrite !app_length; lia|].
    split; [intros l Hl; apply in_app_iff in Hl; destruct Hl; auto|]. intros l v Hl Hv.
    rewrite combine_app by auto. rewrite cnt_app, C1, C2 by auto. rewrite count_snoc.
    assert (DN : forall c, child t idx c -> anc t c l -> c = a \/ c = b) by (intros c Hc _; eapply child_two; eauto).
    destruct (is_leafb t l) eqn:LL; cbn [andb]; [|reflexivity].
    assert (KEY : forall c, c < n -> child t idx c -> anc t c l ->
       (if Nat.eqb idx v then 1 else 0) + (if (ancb t c v && ancb t v l)%bool then 1 else 0) = if (ancb t idx v && ancb t v l)%bool then 1 else 0).
    { intros c Hc Cc Al. assert (IC : anc t idx c) by (eapply anc_step; [apply anc_refl; auto|exact Cc]).
      destruct (Nat.eqb_spec idx v) as [E|NE].
      - subst v. rewrite (proj2 (ancb_false c idx Hi Hc)). 2:{ intros A. apply (anc_lt t WF) in A. pose proof (child_lt t WF _ _ Cc). lia. }
        rewrite (proj2 (ancb_iff t WF idx idx Hi Hi)) by (apply anc_refl; auto).
        rewrite (proj2 (ancb_iff t WF idx l Hl Hi)) by (eapply anc_trans; eauto). reflexivity.
      - destruct (ancb t v l) eqn:AV; [|rewrite !Bool.andb_false_r; reflexivity]. rewrite !Bool.andb_true_r.
        apply (ancb_iff t WF) in AV; auto. destruct (ancb t c v) eqn:A1.
        + apply (ancb_iff t WF) in A1; auto. rewrite (proj2 (ancb_iff t WF idx v Hv Hi)) by (eapply anc_trans; eauto). reflexivity.
        + apply ancb_false in A1; auto. destruct (ancb t idx v) eqn:A2; auto. exfalso. apply (ancb_iff t WF) in A2; auto.
          destruct (anc_down _ _ A2) as [E|(d&D1&D2)]; [congruence|].
          destruct (anc_comparable t WF c v l Al AV) as [Q|Q]; [contradiction|].
          destruct (child_two t idx d a b HA HB D1) as [->| ->]; destruct (child_two t idx c a b HA HB Cc) as [->| ->]; try contradiction;
            eapply (sib_disj idx a b l); eauto; eapply anc_trans; eauto. }
    assert (DA : ancb t a l = true -> ancb t b l = false /\ ancb t idx l = true).
    { intros A. apply (ancb_iff t WF) in A; [|auto|lia]. split.
      - apply ancb_false; auto; [lia|]. intros B. eapply (sib_disj idx a b l); eauto.
      - apply (ancb_iff t WF); auto. eapply anc_trans; [|exact A]. eapply anc_step; [apply anc_refl; auto|exact CA]. }
    assert (DB : ancb t b l = true -> ancb t a l = false /\ ancb t idx l = true).
    { intros B. apply (ancb_iff t WF) in B; [|auto|lia]. split.
      - apply ancb_false; auto; [lia|]. intros A. eapply (sib_disj idx a b l); eauto.
      - apply (ancb_iff t WF); auto. eapply anc_trans; [|exact B]. eapply anc_step; [apply anc_refl; auto|exact CB]. }
    destruct (ancb t a l) eqn:A.
    + destruct (DA eq_refl) as [B I]. rewrite B, I. apply (ancb_iff t WF) in A; [|auto|lia]. rewrite <- (KEY a) by (auto; lia). lia.
    + destruct (ancb t b l) eqn:B.
      * destruct (DB eq_refl) as [_ I]. rewrite I. apply (ancb_iff t WF) in B; [|auto|lia]. rewrite <- (KEY b) by (auto; lia). lia.
      * destruct (ancb t idx l) eqn:I; [|reflexivity]. exfalso. apply (ancb_iff t WF) in I; auto. apply ancb_false in A; [|auto|lia]. apply ancb_false in B; [|auto|lia].
        destruct (anc_down _ _ I) as [E|(d&D1&D2)]; [subst; unfold is_leafb in LL; congruence|].
        destruct (child_two t idx d a b HA HB D1) as [->| ->]; contradiction.
Qed.

Lemma sumn_filter : forall l, sumn (map (fun c => if Z.eqb c (-1) then 1 else 0) l) = length (filter (fun c => Z.eqb c (-1)) l).
Proof. induction l as [|c l IH]; auto. cbn [map filter]. change (sumn (?a :: ?b)) with (a + sumn b). rewrite IH. destruct (Z.eqb c (-1)); auto. Qed.
Lemma filter_count_seq : forall k, k <= n -> length (filter (fun c => Z.eqb c (-1)) (firstn k (t_right t))) = length (filter (is_leafb t) (seq 0 k)).
Proof.
  intros k Hk. assert (E : forall l : list Z, length (filter (fun c => Z.eqb c (-1)) l) = length (filter (fun b : bool => b) (map (fun c => Z.eqb c (-1)) l))).
  { induction l as [|c l IH]; auto. cbn. destruct (Z.eqb c (-1)); cbn; auto. }
  rewrite E, <- firstn_map, (leaf_mask_right t WF), firstn_map. replace (firstn k (seq 0 n)) with (seq 0 k).
  - generalize (seq 0 k). induction l as [|c l IH]; auto. cbn. destruct (is_leafb t c); cbn; auto.
  - replace n with (k + (n - k)) by lia. rewrite seq_app, firstn_app, seq_length, Nat.sub_diag. cbn [firstn]. rewrite app_nil_r.
    rewrite <- (firstn_all (seq 0 k)) at 1. rewrite seq_length. reflexivity.
Qed.
Lemma leaf_idx_inv : forall v, v < n -> is_leafb t v = true -> leaf_idx t v < n_leaves t /\ leaf_id t (leaf_idx t v) = v.
Proof.
  intros v Hv LE. unfold leaf_idx. rewrite sumn_filter, filter_count_seq by lia.
  assert (E : filter (is_leafb t) (seq 0 (S v)) = filter (is_leafb t) (seq 0 v) ++ [v]).
  { rewrite seq_S, filter_app. cbn. rewrite LE. reflexivity. }
  rewrite E, app_length. cbn [length]. rewrite Nat.add_sub.
  unfold n_leaves, leaf_id, leaf_ids. replace (seq 0 n) with (seq 0 (S v) ++ seq (S v) (n - S v)) by (rewrite <- seq_app; f_equal; lia).
  rewrite filter_app, E, !app_length. cbn [length]. split; [lia|]. rewrite <- app_assoc, app_nth2, Nat.sub_diag by lia. reflexivity.
Qed.
Lemma p_C53_entry : exists V, decision_path_nodes t = Ok V /\ length V = n_leaves t /\
  forall i, i < n_leaves t -> length (nth i V []) = n /\
  forall v, v < n -> (anc t v (leaf_id t i) -> nth v (nth i V []) 0 = 1) /\ (~ anc t v (leaf_id t i) -> nth v (nth i V []) 0 = 0).
Proof.
  pose proof (wf_pos t WF) as P. pose proof (wf_len_right t WF) as LR.
  destruct (list_nodes n 0 [] P ltac:(lia)) as (x&y&E&L&F&C).
  unfold decision_path_nodes. rewrite E. cbn [bind].
  assert (NL : length (filter (fun c => Z.eqb c (-1)) (t_right t)) = n_leaves t).
  { rewrite <- (firstn_all (t_right t)), LR, filter_count_seq by lia. reflexivity. }
  rewrite NL, LR. eexists. split; [reflexivity|]. split; [rewrite map_length, seq_length; auto|]. intros i Hi.
  rewrite nth_map_seq by auto. split; [rewrite map_length, seq_length; auto|]. intros v Hv. rewrite nth_map_seq by auto.
  pose proof (leaf_id_lt t i Hi) as Ll. pose proof (leaf_id_leaf t i Hi) as Le.
  assert (Q : length (filter (fun p => (fst p =? i) && (snd p =? v))%bool (combine (map (leaf_idx t) x) y)) = cnt (combine x y) (leaf_id t i) v).
  { clear - L F Hi WF. unfold cnt. revert y L. induction x as [|a x IH]; intros [|b y] L; cbn in L; try discriminate; auto.
    cbn [map combine filter fst snd]. destruct (F a (or_introl eq_refl)) as [Fa Fl]. destruct (leaf_idx_inv a Fa Fl) as [I1 I2].
    specialize (IH (fun l H => F l (or_intror H)) y ltac:(lia)).
    assert (B : Nat.eqb (leaf_idx t a) i = Nat.eqb a (leaf_id t i)).
    { destruct (Nat.eqb_spec (leaf_idx t a) i); destruct (Nat.eqb_spec a (leaf_id t i)); auto; exfalso; [congruence|].
      apply n. apply (leaf_id_inj t); auto. congruence. }
    rewrite B. destruct (Nat.eqb a (leaf_id t i) && Nat.eqb b v)%bool; cbn [length]; lia. }
  cbn [Nat.add]. rewrite Q, C by auto. rewrite Le. rewrite (proj2 (ancb_iff t WF 0 _ Ll P)) by (apply (anc_root t WF); auto).
  rewrite (proj2 (ancb_iff t WF 0 v Hv P)) by (apply (anc_root t WF); auto). cbn [andb count_occ Nat.add].
  split; intros A; [rewrite (proj2 (ancb_iff t WF v _ Ll Hv) A)|rewrite (proj2 (ancb_false v _ Ll Hv) A)]; reflexivity.
Qed.
Lemma p_C53 : decision_path_nodes t = Ok (fst (create_decision_per_leafs t)).
Proof.
  destruct p_C53_entry as (V&E&L&R). rewrite E. f_equal. change (fst (create_decision_per_leafs t)) with (v_leaf t).
  apply (nth_ext _ _ [] []); [rewrite (v_leaf_length t WF); auto|]. intros i Hi. rewrite L in Hi. destruct (R i Hi) as [L1 R1].
  rewrite (v_leaf_rows t WF). rewrite nth_map_in with (d := 0) by exact Hi. change (nth i (leaf_ids t) 0) with (leaf_id t i).
  pose proof (leaf_id_lt t i Hi) as Ll.
  apply (nth_ext _ _ 0 0); [rewrite (v_row_len t WF) by auto; auto|]. intros v Hv. rewrite L1 in Hv. destruct (R1 v Hv) as [A B].
  destruct (anc_dec t WF v (leaf_id t i)) as [Y|N]; auto; [rewrite A, (v_all_anc t WF); auto|rewrite B, (v_all_not t WF); auto].
Qed.
End Paths.
