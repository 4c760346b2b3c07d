(** L_Gamma: Gamma and eta hold the documented sums. *)
From Verif Require Import Base TreeSpec Spec M_Tree M_Gamma L_Base L_Tree L_TreeModel L_TreeModel2 L_Dist.
From Coq Require Import Reals Lra.
Local Open Scope R_scope.

Lemma sumto_nsum : forall n f, sumto n f = nsum (map f (seq 0 n)).
Proof.
  induction n; intros; [reflexivity|]. rewrite seq_S, map_app, nsum_app. simpl. rewrite IHn.
  rewrite nsum_cons, nsum_nil. lra.
Qed.
Lemma sum_sel_nsum : forall n sel f, sum_sel n sel f = nsum (map f (filter sel (seq 0 n))).
Proof. intros. unfold sum_sel. rewrite sumto_nsum, nsum_filter. auto. Qed.

Section Extrema.
Lemma fold_max_ge : forall l a, (a <= fold_left Z.max l a)%Z.
Proof. induction l; simpl; intros; [lia|]. etransitivity; [|apply IHl]. lia. Qed.
Lemma fold_max_in : forall l a x, In x l -> (x <= fold_left Z.max l a)%Z.
Proof.
  induction l; simpl; intros; [tauto|]. destruct H; [subst|auto].
  etransitivity; [|apply fold_max_ge]. lia.
Qed.
Lemma fold_max_attained : forall l a, fold_left Z.max l a = a \/ In (fold_left Z.max l a) l.
Proof.
  induction l; simpl; intros; auto. destruct (IHl (Z.max a0 a)) as [E|E]; auto. rewrite E.
  destruct (Z.max_spec a0 a) as [[_ ->]|[_ ->]]; auto.
Qed.
Lemma fold_min_le : forall l a, (fold_left Z.min l a <= a)%Z.
Proof. induction l; simpl; intros; [lia|]. etransitivity; [apply IHl|]. lia. Qed.
Lemma fold_min_in : forall l a x, In x l -> (fold_left Z.min l a <= x)%Z.
Proof.
  induction l; simpl; intros; [tauto|]. destruct H; [subst|auto].
  etransitivity; [apply fold_min_le|]. lia.
Qed.
Lemma fold_min_attained : forall l a, fold_left Z.min l a = a \/ In (fold_left Z.min l a) l.
Proof.
  induction l; simpl; intros; auto. destruct (IHl (Z.min a0 a)) as [E|E]; auto. rewrite E.
  destruct (Z.min_spec a0 a) as [[_ ->]|[_ ->]]; auto.
Qed.
Lemma zmaximum_spec : forall l m, zmaximum l = Ok m -> In m l /\ forall x, In x l -> (x <= m)%Z.
Proof.
  destruct l; simpl; intros m H; [discriminate|]. inversion H; subst. split.
  - destruct (fold_max_attained l z) as [->|]; auto.
  - intros x [->|Hx]; [apply fold_max_ge|apply fold_max_in; auto].
Qed.
Lemma zminimum_spec : forall l m, zminimum l = Ok m -> In m l /\ forall x, In x l -> (m <= x)%Z.
Proof.
  destruct l; simpl; intros m H; [discriminate|]. inversion H; subst. split.
  - destruct (fold_min_attained l z) as [->|]; auto.
  - intros x [->|Hx]; [apply fold_min_le|apply fold_min_in; auto].
Qed.
Lemma zmaximum_ok : forall l, l <> [] -> exists m, zmaximum l = Ok m.
Proof. destruct l; intros; [congruence|]. simpl. eauto. Qed.
Lemma zminimum_ok : forall l, l <> [] -> exists m, zminimum l = Ok m.
Proof. destruct l; intros; [congruence|]. simpl. eauto. Qed.
End Extrema.

Section Tree.
Variable t : tree R.
Hypothesis WF : wf_tree t.
Variable s : dstyle.
Local Notation L := (n_leaves t).
Local Notation D := (depth_dist_leaves s t).

Lemma in_concat_D : forall x, In x (concat D) <-> exists i j, (i < L)%nat /\ (j < L)%nat /\ x = ddist t s i j.
Proof.
  intros x. rewrite in_concat. split.
  - intros (row&Hr&Hx). destruct (In_nth _ _ [] Hr) as (i&Hi&E).
    rewrite (style_depth_length t WF s) in Hi. destruct (In_nth _ _ 0%Z Hx) as (j&Hj&E2).
    rewrite <- E, (style_depth_row_length t WF s) in Hj by auto.
    exists i, j. repeat split; auto. unfold ddist. rewrite E. auto.
  - intros (i&j&Hi&Hj&->). exists (nth i D []). split.
    + apply nth_In. rewrite (style_depth_length t WF s); auto.
    + apply nth_In. rewrite (style_depth_row_length t WF s); auto.
Qed.

Lemma dist_extrema : exists m, zmaximum (concat D) = Ok m /\ zminimum (concat D) = Ok 0%Z /\
  (0 <= m)%Z /\ (forall i j, (i < L)%nat -> (j < L)%nat -> (0 <= ddist t s i j <= m)%Z) /\
  (exists i j, (i < L)%nat /\ (j < L)%nat /\ ddist t s i j = m).
Proof.
  pose proof (n_leaves_pos t WF) as LP.
  assert (NE : concat D <> []).
  { intro E. assert (In (ddist t s 0 0) (concat D)) by (apply in_concat_D; exists 0%nat, 0%nat; auto).
    rewrite E in H. destruct H. }
  destruct (zmaximum_ok _ NE) as [m Hm]. destruct (zminimum_ok _ NE) as [mn Hmn].
  pose proof (zmaximum_spec _ _ Hm) as [M1 M2]. pose proof (zminimum_spec _ _ Hmn) as [N1 N2].
  assert (P : forall i j, (i < L)%nat -> (j < L)%nat -> (0 <= ddist t s i j)%Z).
  { intros. destruct (leaf_dist_conv t s i j WF) as (d&->&_); auto. lia. }
  assert (Z0 : In 0%Z (concat D)).
  { apply in_concat_D. exists 0%nat, 0%nat. rewrite ddist_diag; auto. }
  assert (mn = 0%Z).
  { apply Z.le_antisymm; auto. apply in_concat_D in N1. destruct N1 as (i&j&A&B&->). auto. }
  subst. exists m. repeat split; auto.
  - apply M2. apply in_concat_D. eauto.
  - apply in_concat_D in M1. destruct M1 as (i&j&A&B&->). eauto.
Qed.

Lemma ddist_selects : forall pa i k sel, (i < L)%nat ->
  selects t s pa i k sel <->
  forall j, (j < L)%nat -> sel j = if pa then Z.leb (ddist t s i j) (Z.of_nat k)
                                  else Z.eqb (ddist t s i j) (Z.of_nat k).
Proof.
  intros pa i k sel Hi.
  assert (C : forall j, (j < L)%nat ->
    ((exists d, leaf_dist t s (leaf_id t i) (leaf_id t j) d /\ (if pa then (d <= k)%nat else d = k)) <->
     (if pa then Z.leb (ddist t s i j) (Z.of_nat k) else Z.eqb (ddist t s i j) (Z.of_nat k)) = true)).
  { intros j Hj. destruct (leaf_dist_conv t s i j WF Hi Hj) as (d&E&Dd). rewrite E. split.
    - intros (d'&D'&K). rewrite (leaf_dist_unique t WF _ _ _ _ _ D' Dd) in K.
      destruct pa; [apply Z.leb_le|apply Z.eqb_eq]; lia.
    - intros X. exists d. split; auto. destruct pa; [apply Z.leb_le in X|apply Z.eqb_eq in X]; lia. }
  split; intros H j Hj; specialize (C j Hj).
  - apply eq_true_iff_eq. rewrite (H j Hj). auto.
  - rewrite (H j Hj). symmetry. auto.
Qed.

Definition csel (pa : bool) (i k j : nat) : bool :=
  if pa then Z.leb (ddist t s i j) (Z.of_nat k) else Z.eqb (ddist t s i j) (Z.of_nat k).
Lemma csel_selects : forall pa i k, (i < L)%nat -> selects t s pa i k (csel pa i k).
Proof. intros. apply ddist_selects; auto. Qed.

Lemma slice_mat_entry : forall pa m K x i k, length x = L -> (i < L)%nat -> (k < K)%nat ->
  (Z.of_nat k <= m)%Z ->
  nth k (nth i (slice_mat pa 0 m K D x) []) 0 = sum_sel L (csel pa i k) (fun j => nth j x 0).
Proof.
  intros pa m K x i k Lx Hi Hk Hm. unfold slice_mat.
  rewrite nth_map_in with (d := []) by (rewrite (style_depth_length t WF s); auto).
  rewrite nth_map_seq by auto.
  rewrite (map2_as_seq _ _ _ 0%Z 0) by (rewrite (style_depth_row_length t WF s); auto).
  rewrite (style_depth_row_length t WF s) by auto.
  rewrite sum_sel_nsum, nsum_filter. apply nsum_ext. intros j Hj.
  unfold slice_ind. simpl Nat.add. unfold csel, ddist.
  destruct (Z.leb_spec 0 (Z.of_nat k)); [|lia]. destruct (Z.leb_spec (Z.of_nat k) m); [|lia]. simpl andb.
  destruct (if pa then _ else _); rn; lra.
Qed.

Lemma slice_mat_length : forall pa mn m K (x : list R), length (slice_mat pa mn m K D x) = L.
Proof. intros. unfold slice_mat. rewrite map_length. apply (style_depth_length t WF s). Qed.
Lemma slice_mat_row_length : forall pa mn m K (x : list R) i, (i < L)%nat ->
  length (nth i (slice_mat pa mn m K D x) []) = K.
Proof.
  intros. unfold slice_mat. rewrite nth_map_in with (d := []) by (rewrite (style_depth_length t WF s); auto).
  rewrite map_length, seq_length. auto.
Qed.

Lemma leaf_select_eq : forall {A} (l : list A) d, length l = size t ->
  leaf_select t l = map (fun v => nth v l d) (leaf_ids t).
Proof. intros. unfold leaf_select. apply leaf_select_left; auto. Qed.
Lemma leaf_select_len : forall {A} (l : list A), length l = size t -> length (leaf_select t l) = L.
Proof.
  intros A l H. destruct l as [|a l]; [simpl in H; pose proof (wf_pos t WF); lia|].
  rewrite (leaf_select_eq _ a H), map_length. auto.
Qed.
Lemma leaf_select_nth : forall {A} (l : list A) d i, length l = size t -> (i < L)%nat ->
  nth i (leaf_select t l) d = nth (leaf_id t i) l d.
Proof.
  intros. rewrite (leaf_select_eq _ d) by auto. rewrite nth_map_in with (d := 0%nat) by auto. auto.
Qed.

Lemma n_leaf_nth : forall j, (j < L)%nat -> nth j (n_leaf_original t) 0 = leaf_w t j.
Proof. intros. unfold n_leaf_original, leaf_w, node_w. rewrite leaf_select_nth; auto. apply (wf_len_weight t WF). Qed.
Lemma n_leaf_len : length (n_leaf_original t) = L.
Proof. apply leaf_select_len. apply (wf_len_weight t WF). Qed.
Lemma value_col_len : forall c, length (value_col c t) = size t.
Proof. intros. unfold value_col. rewrite map_length. apply (wf_len_value t WF). Qed.
Lemma value_leaf_nth : forall c j, (j < L)%nat -> nth j (leaf_select t (value_col c t)) 0 = leaf_v t c j.
Proof.
  intros. rewrite leaf_select_nth by (auto using value_col_len). unfold value_col, leaf_v, node_v.
  rewrite nth_map_in with (d := []); auto. rewrite (wf_len_value t WF). apply leaf_id_lt; auto.
Qed.
Lemma ny_len : forall kd, length (ny_leaf_original kd t) = n_gamma kd.
Proof. intros. destruct kd; simpl; auto. rewrite map_length, seq_length. auto. Qed.
Lemma ny_row_len : forall kd c, (c < n_gamma kd)%nat -> length (nth c (ny_leaf_original kd t) []) = L.
Proof.
  intros kd c Hc. destruct kd; simpl in *.
  - destruct c; [|lia]. rewrite map2_length, n_leaf_len, leaf_select_len by (auto using value_col_len). lia.
  - rewrite nth_map_seq by auto. rewrite leaf_select_len; auto using value_col_len.
Qed.
Lemma ny_nth : forall kd c j, (c < n_gamma kd)%nat -> (j < L)%nat ->
  nth j (nth c (ny_leaf_original kd t) []) 0 = leaf_ny t kd c j.
Proof.
  intros kd c j Hc Hj. destruct kd; simpl in *.
  - destruct c; [|lia]. rewrite nth_map2 with (da := 0) (db := 0).
    + rewrite n_leaf_nth, value_leaf_nth by auto. reflexivity.
    + rewrite n_leaf_len; auto.
    + rewrite leaf_select_len; auto using value_col_len.
  - rewrite nth_map_seq by auto. rewrite value_leaf_nth; auto.
Qed.

Lemma sum_sel_ext : forall n sel sel' f g, (forall j, (j < n)%nat -> sel j = sel' j) ->
  (forall j, (j < n)%nat -> f j = g j) -> sum_sel n sel f = sum_sel n sel' g.
Proof.
  intros. rewrite !sum_sel_nsum, !nsum_filter. apply nsum_ext. intros j Hj. apply in_seq in Hj.
  rewrite H, H0 by lia. auto.
Qed.

Lemma create_tree_ok : forall kd pa, exists m G E,
  create_Gamma_eta_tree kd pa s t = Ok (G, E) /\ is_max_dist t s m /\
  length G = n_gamma kd /\ length E = L /\ ncols E = S m /\
  (forall i, (i < L)%nat -> length (nth i E []) = S m) /\
  (forall c, (c < n_gamma kd)%nat -> length (nth c G []) = L /\
     forall i, (i < L)%nat -> length (nth i (nth c G []) []) = S m) /\
  (forall i k, (i < L)%nat -> (k <= m)%nat ->
     nth k (nth i E []) 0 = sum_sel L (csel pa i k) (leaf_w t)) /\
  (forall c i k, (c < n_gamma kd)%nat -> (i < L)%nat -> (k <= m)%nat ->
     nth k (nth i (nth c G []) []) 0 = sum_sel L (csel pa i k) (leaf_ny t kd c)).
Proof.
  intros kd pa. destruct dist_extrema as (m&Hm&H0&P&B&(mi&mj&Mi&Mj&ME)).
  unfold create_Gamma_eta_tree, Gamma_eta_of_dist. rewrite Hm, H0. simpl bind.
  exists (Z.to_nat m). eexists. eexists. split; [reflexivity|].
  assert (KE : Z.to_nat (m + 1) = S (Z.to_nat m)) by lia. rewrite KE.
  split.
  { split.
    - intros i j d Hi Hj Dd. pose proof (depth_dist_correct t WF s i j d Hi Hj Dd) as E.
      specialize (B i j Hi Hj). unfold ddist in B. lia.
    - exists mi, mj. repeat split; auto. apply (depth_dist_iff t WF); auto. unfold ddist in ME. lia. }
  split; [rewrite map_length; apply ny_len|].
  split; [apply slice_mat_length|].
  split.
  { unfold ncols. pose proof (n_leaves_pos t WF).
    pose proof (slice_mat_row_length pa 0 m (S (Z.to_nat m)) (n_leaf_original t) 0 H) as X.
    destruct (slice_mat pa 0 m (S (Z.to_nat m)) D (n_leaf_original t)); exact X. }
  split; [intros; apply slice_mat_row_length; auto|].
  split.
  { intros c Hc. rewrite nth_map_in with (d := []) by (rewrite ny_len; auto). split; [apply slice_mat_length|].
    intros. apply slice_mat_row_length; auto. }
  split.
  - intros i k Hi Hk. rewrite slice_mat_entry by (auto using n_leaf_len; lia).
    apply sum_sel_ext; auto. intros. apply n_leaf_nth; auto.
  - intros c i k Hc Hi Hk. rewrite nth_map_in with (d := []) by (rewrite ny_len; auto).
    rewrite slice_mat_entry by (auto using ny_row_len; lia).
    apply sum_sel_ext; auto. intros. apply ny_nth; auto.
Qed.

Lemma csel_beyond : forall m, is_max_dist t s m -> forall pa i k j, (m < k)%nat -> (i < L)%nat -> (j < L)%nat ->
  csel pa i k j = if pa then csel pa i m j else false.
Proof.
  intros m [M _] pa i k j Hk Hi Hj. destruct (leaf_dist_conv t s i j WF Hi Hj) as (d&E&Dd).
  specialize (M i j d Hi Hj Dd). unfold csel. rewrite E.
  destruct pa.
  - destruct (Z.leb_spec (Z.of_nat d) (Z.of_nat k)), (Z.leb_spec (Z.of_nat d) (Z.of_nat m)); auto; lia.
  - apply Z.eqb_neq. lia.
Qed.

Lemma max_dist_depth : forall m, is_max_dist t s m -> exists v, depth_of t v m \/ exists d, depth_of t v d /\ (m <= d)%nat.
Proof.
  intros m [_ (i&j&Hi&Hj&Dd)].
  destruct (depth_ex t WF (leaf_id t i) (leaf_id_lt t i Hi)) as [d1 D1].
  destruct (depth_ex t WF (leaf_id t j) (leaf_id_lt t j Hj)) as [d2 D2].
  pose proof (ddist_le_depth t s i j d1 d2 WF Hi Hj D1 D2) as X.
  unfold ddist in X. rewrite (depth_dist_correct t WF s i j m Hi Hj Dd) in X.
  destruct (le_lt_dec d1 d2).
  - exists (leaf_id t j). right. exists d2. split; auto. lia.
  - exists (leaf_id t i). right. exists d1. split; auto. lia.
Qed.
End Tree.

(** *** forest *)

Lemma nth_last : forall (l : list R) d, last l d = nth (length l - 1) l d.
Proof.
  induction l; intros; auto. destruct l as [|b l]; auto.
  change (last (a :: b :: l) d) with (last (b :: l) d). rewrite IHl. simpl. rewrite Nat.sub_0_r. auto.
Qed.

Lemma pad_row_length : forall pa K (row : list R), (length row <= K)%nat -> length (pad_row pa K row) = K.
Proof. intros. unfold pad_row. rewrite app_length, repeat_length. lia. Qed.

Lemma pad_row_nth : forall pa K (row : list R) k m, length row = S m -> (k < K)%nat ->
  nth k (pad_row pa K row) 0 = if Nat.leb k m then nth k row 0 else if pa then nth m row 0 else 0.
Proof.
  intros. unfold pad_row. destruct (Nat.leb_spec k m).
  - rewrite app_nth1 by lia. auto.
  - rewrite app_nth2 by lia. rewrite nth_repeat_lt by lia. destruct pa; auto.
    rewrite nth_last. rewrite H. f_equal; lia.
Qed.

Lemma nth_firstn_lt : forall {A} (l : list A) n i d, (i < n)%nat -> nth i (firstn n l) d = nth i l d.
Proof. induction l; destruct n, i; simpl; intros; auto; try lia. apply IHl. lia. Qed.
Lemma nth_skipn_plus : forall {A} (l : list A) o i d, nth i (skipn o l) d = nth (o + i) l d.
Proof. induction l; destruct o; simpl; intros; auto. destruct i; auto. Qed.

Section Forest.
Variable kd : kind.
Variable pa : bool.
Variable K : nat.
Variable per : tree R -> result (list (mat R) * mat R).
Variable sel : tree R -> nat -> nat -> nat -> bool.

(** the rows a tree contributes *)
Definition tree_rows_ok (t : tree R) (G : list (mat R)) (E : mat R) : Prop :=
  length E = n_leaves t /\ length G = n_gamma kd /\
  (forall i, (i < n_leaves t)%nat -> length (nth i E []) = K) /\
  (forall c, (c < n_gamma kd)%nat -> length (nth c G []) = n_leaves t /\
     forall i, (i < n_leaves t)%nat -> length (nth i (nth c G []) []) = K) /\
  (forall i k, (i < n_leaves t)%nat -> (k < K)%nat ->
     nth k (nth i E []) 0 = sum_sel (n_leaves t) (sel t i k) (leaf_w t)) /\
  (forall c i k, (c < n_gamma kd)%nat -> (i < n_leaves t)%nat -> (k < K)%nat ->
     nth k (nth i (nth c G []) []) 0 = sum_sel (n_leaves t) (sel t i k) (leaf_ny t kd c)).

Definition padded (t : tree R) : Prop :=
  exists G E, per t = Ok (G, E) /\ Nat.ltb K (ncols E) = false /\
  length E = n_leaves t /\
  tree_rows_ok t (map (fun g => map (pad_row pa K) g) G) (map (pad_row pa K) E).

(** what the accumulated arrays say about the first trees *)
Definition forest_inv (ts : list (tree R)) (acc : list (mat R) * mat R * list nat) : Prop :=
  let '(G, E, Ti) := acc in
  length E = offset ts (length ts) /\ length Ti = length E /\ length G = n_gamma kd /\
  (forall c, (c < n_gamma kd)%nat -> length (nth c G []) = length E) /\
  forall q t, nth_error ts q = Some t ->
    (forall i, (i < n_leaves t)%nat -> nth (offset ts q + i) Ti 0%nat = q) /\
    tree_rows_ok t (map (fun g => firstn (n_leaves t) (skipn (offset ts q) g)) G)
                   (firstn (n_leaves t) (skipn (offset ts q) E)).

Lemma offset_full : forall (ts : list (tree R)) t, offset (ts ++ [t]) (length (ts ++ [t])) = (offset ts (length ts) + n_leaves t)%nat.
Proof.
  intros. unfold offset. rewrite !firstn_all, map_app, sumn_app. unfold sumn at 2. simpl fold_right. lia.
Qed.
Lemma offset_app : forall (ts ts' : list (tree R)) q, (q <= length ts)%nat -> offset (ts ++ ts') q = offset ts q.
Proof.
  intros. unfold offset. rewrite firstn_app. replace (q - length ts)%nat with 0%nat by lia.
  simpl. rewrite app_nil_r. auto.
Qed.
Lemma offset_S : forall (ts : list (tree R)) q t, nth_error ts q = Some t -> offset ts (S q) = (offset ts q + n_leaves t)%nat.
Proof.
  induction ts; destruct q; simpl; intros; try discriminate.
  - inversion H; subst. unfold offset. simpl. lia.
  - change (offset (a :: ts) (S (S q))) with (n_leaves a + offset ts (S q))%nat.
    change (offset (a :: ts) (S q)) with (n_leaves a + offset ts q)%nat.
    rewrite (IHts q t) by auto. lia.
Qed.
Lemma offset_mono : forall (ts : list (tree R)) q p, (q <= p)%nat -> (offset ts q <= offset ts p)%nat.
Proof.
  intros ts q p H. unfold offset. revert q p H. induction ts; intros.
  - rewrite !firstn_nil. auto.
  - destruct q, p; simpl; try lia. specialize (IHts q p ltac:(lia)). lia.
Qed.
Lemma offset_le : forall (ts : list (tree R)) q t, nth_error ts q = Some t ->
  (offset ts q + n_leaves t <= offset ts (length ts))%nat.
Proof.
  intros. rewrite <- (offset_S ts q t H). apply offset_mono.
  assert (nth_error ts q <> None) by congruence. apply nth_error_Some in H0. lia.
Qed.

Lemma firstn_skipn_app1 : forall {A} (a b : list A) o n, (o + n <= length a)%nat ->
  firstn n (skipn o (a ++ b)) = firstn n (skipn o a).
Proof.
  intros. rewrite skipn_app. replace (o - length a)%nat with 0%nat by lia. simpl.
  rewrite firstn_app, skipn_length. replace (n - (length a - o))%nat with 0%nat by lia.
  simpl. rewrite app_nil_r. auto.
Qed.

Lemma firstn_skipn_app2 : forall {A} (a b : list A) n, length b = n ->
  firstn n (skipn (length a) (a ++ b)) = b.
Proof.
  intros. rewrite skipn_app, skipn_all, Nat.sub_diag. simpl. rewrite firstn_all2; auto. lia.
Qed.

Lemma add_tree_inv : forall ts t acc, padded t -> forest_inv ts acc ->
  exists acc', add_tree pa K per acc (length ts, t) = Ok acc' /\
               forest_inv (ts ++ [t]) acc'.
Proof.
  intros ts t [[G E] Ti] (g&e&C&NC&Le&TR) (LE&LI&LG&LC&H).
  unfold add_tree. simpl snd. rewrite C. simpl bind. rewrite NC. simpl fst.
  eexists. split; [reflexivity|].
  pose proof TR as (R1&R2&R3&R4&R5&R6).
  rewrite map_length in R1, R2.
  assert (LGG : length (map2 (fun Ga ga => Ga ++ map (pad_row pa K) ga) G g) = n_gamma kd).
  { rewrite map2_length. lia. }
  unfold forest_inv. rewrite offset_full, !app_length, map_length, repeat_length.
  split; [lia|]. split; [lia|]. split; [auto|]. split.
  { intros c Hc. rewrite nth_map2 with (da := []) (db := []) by lia.
    rewrite app_length, map_length. rewrite LC by auto. f_equal.
    destruct (R4 c Hc) as [X _]. rewrite nth_map_in with (d := []) in X by lia. rewrite map_length in X. lia. }
  intros q t' Hq. destruct (Nat.eq_dec q (length ts)) as [->|NE].
  - rewrite nth_error_app2 in Hq by lia. rewrite Nat.sub_diag in Hq. simpl in Hq. inversion Hq; subst t'.
    rewrite offset_app by lia. split.
    + intros i Hi. rewrite app_nth2 by lia. apply nth_repeat_lt. lia.
    + rewrite <- LE. rewrite firstn_skipn_app2 by (rewrite map_length; auto).
      replace (map (fun g0 => firstn (n_leaves t) (skipn (length E) g0))
                (map2 (fun Ga ga => Ga ++ map (pad_row pa K) ga) G g))
        with (map (fun g0 => map (pad_row pa K) g0) g); auto.
      rewrite map_map2. apply nth_eq_ext with (d := []).
      * rewrite map_length, map2_length. lia.
      * intros c Hc. rewrite map_length in Hc. rewrite nth_map_in with (d := []) by auto.
        rewrite nth_map2 with (da := []) (db := []) by lia.
        rewrite <- (LC c) by lia. rewrite firstn_skipn_app2; auto.
        destruct (R4 c ltac:(lia)) as [X _]. rewrite nth_map_in with (d := []) in X by lia. auto.
  - assert (Hq' : nth_error ts q = Some t').
    { assert (nth_error (ts ++ [t]) q <> None) by congruence. apply nth_error_Some in H0.
      rewrite app_length in H0. simpl in H0. rewrite nth_error_app1 in Hq by lia. auto. }
    assert (QL : (q < length ts)%nat) by (apply nth_error_Some; congruence).
    pose proof (offset_le ts q t' Hq') as OL.
    rewrite offset_app by lia. destruct (H q t' Hq') as [H1 H2]. split.
    + intros i Hi. rewrite app_nth1 by lia. auto.
    + rewrite firstn_skipn_app1 by lia.
      replace (map (fun g0 => firstn (n_leaves t') (skipn (offset ts q) g0))
                (map2 (fun Ga ga => Ga ++ map (pad_row pa K) ga) G g))
        with (map (fun g0 => firstn (n_leaves t') (skipn (offset ts q) g0)) G); auto.
      rewrite map_map2. apply nth_eq_ext with (d := []).
      * rewrite map_length, map2_length. lia.
      * intros c Hc. rewrite map_length in Hc. rewrite nth_map_in with (d := []) by auto.
        rewrite nth_map2 with (da := []) (db := []) by lia.
        rewrite firstn_skipn_app1; auto. rewrite LC by lia. lia.
Qed.

Lemma combine_seq_snoc : forall {A} (l : list A) x a,
  combine (seq a (length (l ++ [x]))) (l ++ [x]) = combine (seq a (length l)) l ++ [(a + length l, x)%nat].
Proof.
  induction l; intros; simpl.
  - f_equal. f_equal. lia.
  - f_equal. rewrite IHl. f_equal. f_equal. f_equal. lia.
Qed.

Lemma stack_forest_ok : forall ts, Forall padded ts ->
  exists acc, stack_forest kd pa K per ts = Ok acc /\ forest_inv ts acc.
Proof.
  intros ts. induction ts as [|t ts IH] using rev_ind; intros W.
  - eexists. split; [reflexivity|]. unfold forest_inv. simpl. rewrite repeat_length.
    repeat split; auto.
    + intros. rewrite nth_repeat_lt; auto.
    + destruct q; discriminate.
    + destruct q; discriminate.
    + destruct q; discriminate.
    + destruct q; discriminate.
    + destruct q; discriminate.
    + destruct q; discriminate.
    + destruct q; discriminate.
    + destruct q; discriminate.
  - apply Forall_app in W. destruct W as [W1 W2]. inversion W2; subst.
    destruct (IH W1) as (acc&A&B).
    unfold stack_forest in *. rewrite combine_seq_snoc, foldM_app, A. simpl bind.
    destruct (add_tree_inv ts t acc) as (acc'&A'&B'); auto.
    exists acc'. split; auto. simpl. rewrite A'. auto.
Qed.
Lemma forest_inv_rows : forall ts G E Ti, forest_inv ts (G, E, Ti) ->
  length G = n_gamma kd /\ length E = offset ts (length ts) /\ length Ti = length E /\
  (forall c, (c < n_gamma kd)%nat -> length (nth c G []) = length E) /\
  forall q t, nth_error ts q = Some t -> forall i, (i < n_leaves t)%nat ->
    (offset ts q + i < length E)%nat /\
    nth (offset ts q + i) Ti 0%nat = q /\
    length (nth (offset ts q + i) E []) = K /\
    (forall k, (k < K)%nat ->
      nth k (nth (offset ts q + i) E []) 0 = sum_sel (n_leaves t) (sel t i k) (leaf_w t)) /\
    (forall c, (c < n_gamma kd)%nat -> length (nth (offset ts q + i) (nth c G []) []) = K /\
     forall k, (k < K)%nat -> nth k (nth (offset ts q + i) (nth c G []) []) 0
                         = sum_sel (n_leaves t) (sel t i k) (leaf_ny t kd c)).
Proof.
  intros ts G E Ti (LE&LI&LG&LC&H).
  do 4 (split; [auto; fail|]). intros q t Hq i Hi. destruct (H q t Hq) as [H1 (R1&R2&R3&R4&R5&R6)].
  assert (X : forall (M : mat R) , nth i (firstn (n_leaves t) (skipn (offset ts q) M)) [] = nth (offset ts q + i) M []).
  { intros. rewrite nth_firstn_lt by auto. apply nth_skipn_plus. }
  split; [pose proof (offset_le ts q t Hq); lia|]. split; [auto|]. split; [rewrite <- X; auto|].
  split; [intros; rewrite <- X; auto|].
  intros c Hc. destruct (R4 c Hc) as [R4a R4b]. rewrite nth_map_in with (d := []) in R4a, R4b by lia.
  rewrite <- X. split; auto. intros k Hk. rewrite <- (R6 c i k) by auto.
  rewrite nth_map_in with (d := []) by lia. auto.
Qed.
End Forest.

Lemma padded_ok : forall kd pa s K t, wf_tree t -> (forall v d, depth_of t v d -> (d < K)%nat) ->
  padded kd pa K (create_Gamma_eta_tree kd pa s) (fun t => csel t s pa) t.
Proof.
  intros kd pa s K t WF HK. unfold padded, tree_rows_ok. destruct (create_tree_ok t WF s kd pa) as (m&G&E&C&M&LG&LE&NC&RE&RG&VE&VG).
  exists G, E. split; auto.
  assert (MK : (m < K)%nat).
  { destruct (max_dist_depth t WF s m M) as (v&[Dv|(d&Dv&Ld)]).
    - eapply HK; eauto.
    - specialize (HK _ _ Dv). lia. }
  split; [apply Nat.ltb_ge; lia|]. split; auto.
  assert (Sum : forall i k f, (i < n_leaves t)%nat ->
    (if Nat.leb k m then sum_sel (n_leaves t) (csel t s pa i k) f
     else if pa then sum_sel (n_leaves t) (csel t s pa i m) f else 0)
    = sum_sel (n_leaves t) (csel t s pa i k) f).
  { intros i k f Hi. destruct (Nat.leb_spec k m); auto. destruct pa eqn:Epa.
    - apply sum_sel_ext; auto. intros j Hj. rewrite (csel_beyond t WF s m M true i k j) by auto. auto.
    - rewrite sum_sel_nsum, nsum_filter. symmetry. apply nsum_zero. intros j Hj. apply in_seq in Hj.
      rewrite (csel_beyond t WF s m M false i k j) by (auto; lia). auto. }
  split; [rewrite map_length; auto|]. split; [rewrite map_length; auto|].
  split.
  { intros. rewrite nth_map_in with (d := []) by lia. apply pad_row_length. rewrite RE by auto. lia. }
  split.
  { intros c Hc. rewrite nth_map_in with (d := []) by lia. rewrite map_length.
    destruct (RG c Hc) as [R1 R2]. split; auto. intros i Hi.
    rewrite nth_map_in with (d := []) by lia. apply pad_row_length. rewrite R2 by auto. lia. }
  split.
  - intros i k Hi Hk. rewrite nth_map_in with (d := []) by lia.
    rewrite (pad_row_nth pa K _ k m) by auto. rewrite <- (Sum i k) by auto.
    destruct (Nat.leb_spec k m); [apply VE; auto|]. destruct pa; auto.
  - intros c i k Hc Hi Hk. rewrite nth_map_in with (d := []) by lia.
    destruct (RG c Hc) as [R1 R2].
    rewrite nth_map_in with (d := []) by lia.
    rewrite (pad_row_nth pa K _ k m) by auto. rewrite <- (Sum i k) by auto.
    destruct (Nat.leb_spec k m); [apply VG; auto|]. destruct pa; auto.
Qed.

Lemma forest_gamma_ok : forall kd pa s ts, Forall (@wf_tree R) ts ->
  exists G E Ti, create_Gamma_eta_forest kd pa s ts = Ok (G, E, Ti) /\
  let K := (snd (calc_depth_for_forest ts) + 1)%nat in
  length G = n_gamma kd /\ length E = offset ts (length ts) /\ length Ti = length E /\
  (forall c, (c < n_gamma kd)%nat -> length (nth c G []) = length E) /\
  forall q t, nth_error ts q = Some t -> forall i, (i < n_leaves t)%nat ->
    (offset ts q + i < length E)%nat /\
    nth (offset ts q + i) Ti 0%nat = q /\
    length (nth (offset ts q + i) E []) = K /\
    (forall k, (k < K)%nat ->
      nth k (nth (offset ts q + i) E []) 0 = sum_sel (n_leaves t) (csel t s pa i k) (leaf_w t)) /\
    (forall c, (c < n_gamma kd)%nat -> length (nth (offset ts q + i) (nth c G []) []) = K /\
     forall k, (k < K)%nat -> nth k (nth (offset ts q + i) (nth c G []) []) 0
                         = sum_sel (n_leaves t) (csel t s pa i k) (leaf_ny t kd c)).
Proof.
  intros kd pa s ts W.
  destruct (stack_forest_ok kd pa (snd (calc_depth_for_forest ts) + 1) (create_Gamma_eta_tree kd pa s) (fun t => csel t s pa) ts) as ([[G E] Ti]&A&B).
  { apply Forall_forall. intros t Ht. apply padded_ok.
    - rewrite Forall_forall in W. auto.
    - intros v d H0. pose proof (calc_depth_upper ts W t v d Ht H0). lia. }
  exists G, E, Ti. split; [exact A|]. apply (forest_inv_rows kd _ (fun t => csel t s pa) ts G E Ti B).
Qed.
