(** L_Smooth: what smooth writes into the leaves. *)
From Verif Require Import Base TreeSpec Spec M_Tree M_Gamma M_Levels M_Prox M_Grad M_Sgd M_Smooth
  L_Base L_Tree L_TreeModel L_TreeModel2 L_Dist L_Gamma L_Gamma2 L_Sgd L_Grad.
From Coq Require Import Reals Lra.
Local Open Scope R_scope.

(** *** flat indices *)
Lemma nth_concat_block : forall {A} (Ms : list (list A)) rows c r d,
  (forall M, In M Ms -> length M = rows) -> (c < length Ms)%nat -> (r < rows)%nat ->
  nth (c * rows + r) (concat Ms) d = nth r (nth c Ms []) d.
Proof.
  induction Ms as [|M Ms IH]; intros rows c r d HL Hc Hr; cbn [length] in Hc; [lia|].
  assert (LM : length M = rows) by (apply HL; left; auto).
  cbn [concat]. destruct c.
  - cbn [Nat.mul Nat.add nth]. rewrite app_nth1 by lia. auto.
  - cbn [nth]. rewrite app_nth2 by (rewrite LM; cbn [Nat.mul]; lia).
    rewrite LM. replace (S c * rows + r - rows)%nat with (c * rows + r)%nat by (cbn [Nat.mul]; lia).
    apply IH; auto; [intros; apply HL; right; auto|lia].
Qed.
Lemma length_concat_block : forall {A} (Ms : list (list A)) rows,
  (forall M, In M Ms -> length M = rows) -> length (concat Ms) = (length Ms * rows)%nat.
Proof.
  induction Ms as [|M Ms IH]; intros rows HL; auto. cbn [concat length Nat.mul]. rewrite app_length.
  rewrite (HL M (or_introl eq_refl)), (IH rows); auto. intros; apply HL; right; auto.
Qed.
Lemma nth_concat_repeat : forall {A} (M : list A) n c r d, (c < n)%nat -> (r < length M)%nat ->
  nth (c * length M + r) (concat (repeat M n)) d = nth r M d.
Proof.
  intros. rewrite nth_concat_block; auto; [|intros M' HM; apply repeat_spec in HM; subst; auto|rewrite repeat_length; auto].
  rewrite nth_repeat_lt; auto.
Qed.
Lemma length_concat_repeat : forall {A} (M : list A) n, length (concat (repeat M n)) = (n * length M)%nat.
Proof.
  intros. rewrite (length_concat_block _ (length M)), repeat_length; auto.
  intros M' HM. apply repeat_spec in HM. subst; auto.
Qed.

Lemma unflatten_length : forall nc rows (f : list R), length (unflatten nc rows f) = rows.
Proof. intros. unfold unflatten. rewrite map_length, seq_length. auto. Qed.
Lemma unflatten_row_length : forall nc rows (f : list R) r, (r < rows)%nat -> length (nth r (unflatten nc rows f) []) = nc.
Proof. intros. unfold unflatten. rewrite nth_map_seq by auto. rewrite map_length, seq_length. auto. Qed.
Lemma unflatten_nth : forall nc rows (f : list R) r c, (r < rows)%nat -> (c < nc)%nat ->
  nth c (nth r (unflatten nc rows f) []) 0 = nth (c * rows + r) f 0.
Proof. intros. unfold unflatten. rewrite nth_map_seq by auto. rewrite nth_map_seq by auto. reflexivity. Qed.

Lemma new_values_nth : forall (G E : mat R) l i, (i < length G)%nat -> length G = length E ->
  nth i (new_values G E l) 0 =
  if Req_EM_T (dot (nth i E []) l) 0 then 0 else dot (nth i G []) l / dot (nth i E []) l.
Proof.
  intros G E l i Hi L. unfold new_values.
  rewrite nth_map2 with (da := 0) (db := 0) by (rewrite ?mv_length; lia). rewrite !mv_nth. rn.
  destruct (Reqb_spec (dot (nth i E []) l) 0), (Req_EM_T (dot (nth i E []) l) 0); auto; contradiction.
Qed.

(** *** writing leaves *)
Section Write.
Variable t : tree R.
Hypothesis WF : wf_tree t.

Lemma num_leaf_eq : num_leaf t = n_leaves t.
Proof.
  unfold num_leaf, n_leaves, leaf_ids. rewrite (list_as_seq (t_left t) (-1)%Z) at 1.
  fold (size t). unfold is_leafb, lc. generalize (seq 0 (size t)). induction l; simpl; auto.
  destruct (Z.eqb _ _); simpl; rewrite IHl; auto.
Qed.

Lemma write_leaves_ok : forall (Y : mat R) start, (start + n_leaves t <= length Y)%nat ->
  exists t', write_leaves Y start t = Ok t' /\ same_but_leaf_values t t' /\
  (forall i, (i < n_leaves t)%nat -> nth (leaf_id t i) (t_value t') [] = nth (start + i) Y []).
Proof.
  intros Y start HL. unfold write_leaves. rewrite num_leaf_eq.
  set (sl := firstn (n_leaves t) (skipn start Y)).
  assert (LS : length sl = n_leaves t) by (unfold sl; rewrite firstn_length, skipn_length; lia).
  rewrite LS, Nat.eqb_refl. eexists. split; [reflexivity|].
  set (m := map (fun c : Z => Z.eqb c (-1)) (t_left t)).
  assert (Lm : length m = length (t_value t)).
  { unfold m. rewrite map_length, (wf_len_value t WF). reflexivity. }
  assert (LL : length (leaf_select t (t_value t)) = n_leaves t) by (apply leaf_select_len; auto; apply wf_len_value; auto).
  split.
  - unfold same_but_leaf_values, set_values. cbn [t_left t_right t_feature t_thresh t_value t_weight t_imp].
    repeat (split; [reflexivity|]). split; [apply mask_assign_length|].
    intros v Hv. apply mask_assign_out.
    destruct (Nat.lt_ge_cases v (length (t_left t))).
    + unfold m. rewrite nth_map_in with (d := (-1)%Z) by auto. exact Hv.
    + apply nth_overflow. unfold m. rewrite map_length. auto.
  - intros i Hi. unfold set_values. cbn [t_value].
    assert (E : leaf_select t (mask_assign m (t_value t) sl) = sl).
    { unfold leaf_select. fold m. apply mask_select_assign; auto. rewrite LS. symmetry. exact LL. }
    rewrite <- (leaf_select_nth t (mask_assign m (t_value t) sl) [] i) by
      (auto; rewrite mask_assign_length; apply wf_len_value; auto).
    rewrite E. unfold sl. rewrite nth_firstn_lt by auto. apply nth_skipn_plus.
Qed.
End Write.

Lemma write_forest_ok : forall (Y : mat R) ts start, Forall (@wf_tree R) ts ->
  (start + offset ts (length ts) <= length Y)%nat ->
  exists f, write_forest Y start ts = Ok f /\ length f = length ts /\
  forall q t, nth_error ts q = Some t -> exists t', nth_error f q = Some t' /\ same_but_leaf_values t t' /\
    forall i, (i < n_leaves t)%nat -> nth (leaf_id t i) (t_value t') [] = nth (start + offset ts q + i) Y [].
Proof.
  induction ts as [|t ts IH]; intros start W HL.
  - exists []. split; [reflexivity|]. split; auto. intros [|q] t H; discriminate.
  - inversion W; subst.
    change (offset (t :: ts) (length (t :: ts))) with (n_leaves t + offset ts (length ts))%nat in HL.
    destruct (write_leaves_ok t H1 Y start) as (t'&E&SB&V); [lia|].
    destruct (IH (start + num_leaf t)%nat H2) as (f&Ef&Lf&P); [rewrite num_leaf_eq; lia|].
    cbn [write_forest]. rewrite E. cbn [bind]. rewrite Ef. cbn [bind].
    exists (t' :: f). split; auto. split; [cbn [length]; lia|].
    intros [|q] t0 H.
    + inversion H; subst t0. exists t'. split; auto. split; auto. intros i Hi.
      change (offset (t :: ts) 0) with 0%nat. rewrite Nat.add_0_r. auto.
    + cbn [nth_error] in *. destruct (P q t0 H) as (t1&N&S1&V1). exists t1. split; auto. split; auto.
      intros i Hi. rewrite V1 by auto. rewrite num_leaf_eq.
      change (offset (t :: ts) (S q)) with (n_leaves t + offset ts q)%nat. f_equal. lia.
Qed.

Lemma write_forest2_ok : forall (Y : mat R) ts, Forall (@wf_tree R) ts ->
  (forall t, In t ts -> (n_leaves t <= length Y)%nat) ->
  exists f, write_forest2 Y 0 ts = Ok f /\ length f = length ts /\
  forall q t, nth_error ts q = Some t -> exists t', nth_error f q = Some t' /\ same_but_leaf_values t t' /\
    forall i, (i < n_leaves t)%nat -> nth (leaf_id t i) (t_value t') [] = nth i Y [].
Proof.
  induction ts as [|t ts IH]; intros W HL.
  - exists []. split; [reflexivity|]. split; auto. intros [|q] t H; discriminate.
  - inversion W; subst.
    destruct (write_leaves_ok t H1 Y 0) as (t'&E&SB&V); [apply HL; left; auto|].
    destruct (IH H2) as (f&Ef&Lf&P); [intros; apply HL; right; auto|].
    cbn [write_forest2]. rewrite E. cbn [bind]. rewrite Ef. cbn [bind].
    exists (t' :: f). split; auto. split; [cbn [length]; lia|].
    intros [|q] t0 H.
    + inversion H; subst t0. exists t'. split; auto.
    + cbn [nth_error] in *. auto.
Qed.

Lemma offset_find : forall (ts : list (tree R)) r, (r < offset ts (length ts))%nat ->
  exists q t i, nth_error ts q = Some t /\ (i < n_leaves t)%nat /\ r = (offset ts q + i)%nat.
Proof.
  induction ts as [|t ts IH]; intros r H; [cbn in H; lia|].
  change (offset (t :: ts) (length (t :: ts))) with (n_leaves t + offset ts (length ts))%nat in H.
  destruct (Nat.lt_ge_cases r (n_leaves t)).
  - exists 0%nat, t, r. split; auto.
  - destruct (IH (r - n_leaves t)%nat) as (q&t'&i&N&Hi&E); [lia|].
    exists (S q), t', i. split; auto. split; auto.
    change (offset (t :: ts) (S q)) with (n_leaves t + offset ts q)%nat. lia.
Qed.

(** *** matrices described by a selection of leaves per (tree, leaf, column) *)
Definition mats (kd : kind) (ts : list (tree R)) (K : nat) (sel : nat -> nat -> nat -> nat -> bool)
    (G : list (mat R)) (E : mat R) (Ti : list nat) : Prop :=
  length G = n_gamma kd /\ length E = offset ts (length ts) /\ length Ti = length E /\
  (forall c, (c < n_gamma kd)%nat -> length (nth c G []) = length E) /\
  forall q t, nth_error ts q = Some t -> forall i, (i < n_leaves t)%nat ->
    (offset ts q + i < length E)%nat /\
    nth (offset ts q + i) Ti 0%nat = q /\
    length (nth (offset ts q + i) E []) = K /\
    (forall k, (k < K)%nat ->
      nth k (nth (offset ts q + i) E []) 0 = sum_sel (n_leaves t) (sel q i k) (leaf_w t)) /\
    (forall c, (c < n_gamma kd)%nat -> length (nth (offset ts q + i) (nth c G []) []) = K /\
     forall k, (k < K)%nat -> nth k (nth (offset ts q + i) (nth c G []) []) 0
                         = sum_sel (n_leaves t) (sel q i k) (leaf_ny t kd c)).

(** the kernel of a weight vector *)
Definition kap_sel (sel : nat -> nat -> nat -> nat -> bool) (lamb : list R) (q i j : nat) : R :=
  sumto (length lamb) (fun k => if sel q i k j then nth k lamb 0 else 0).

Lemma sum_sel_kap : forall sel lamb q i L f (row : list R), length row = length lamb ->
  (forall k, (k < length lamb)%nat -> nth k row 0 = sum_sel L (sel q i k) f) ->
  dot row lamb = sumto L (fun j => kap_sel sel lamb q i j * f j).
Proof.
  intros sel lamb q i L f row HL HV. rewrite dot_sumto by auto. rewrite HL.
  unfold kap_sel. rewrite (sumto_ext (length lamb) _ (fun k => sumto L (fun j => (if sel q i k j then nth k lamb 0 else 0) * f j))).
  - rewrite sumto_swap. apply sumto_ext. intros j Hj. apply sumto_scal_r.
  - intros k Hk. rewrite HV by auto. unfold sum_sel. rewrite <- sumto_scal_r. apply sumto_ext.
    intros j Hj. destruct (sel q i k j); ring.
Qed.

Section Values.
Variables (kd : kind) (ts : list (tree R)) (K : nat) (sel : nat -> nat -> nat -> nat -> bool)
          (G : list (mat R)) (E : mat R) (Ti : list nat).
Hypothesis M : mats kd ts K sel G E Ti.

Lemma mats_eta : forall q t i lamb, nth_error ts q = Some t -> (i < n_leaves t)%nat -> length lamb = K ->
  dot (nth (offset ts q + i) E []) lamb = kmass t (kap_sel sel lamb q i).
Proof.
  intros q t i lamb N Hi LK. destruct M as (_&_&_&_&H). destruct (H q t N i Hi) as (_&_&LE&VE&_).
  unfold kmass. apply sum_sel_kap; [lia|]. intros k Hk. apply VE. lia.
Qed.
Lemma mats_gamma : forall q t i lamb c, nth_error ts q = Some t -> (i < n_leaves t)%nat -> length lamb = K ->
  (c < n_gamma kd)%nat ->
  dot (nth (offset ts q + i) (nth c G []) []) lamb = sumto (n_leaves t) (fun j => kap_sel sel lamb q i j * leaf_ny t kd c j).
Proof.
  intros q t i lamb c N Hi LK Hc. destruct M as (_&_&_&_&H). destruct (H q t N i Hi) as (_&_&_&_&VG).
  destruct (VG c Hc) as [LG V]. apply sum_sel_kap; [lia|]. intros k Hk. apply V. lia.
Qed.

Lemma mats_rows : forall r, (r < length E)%nat -> exists q t i, nth_error ts q = Some t /\ (i < n_leaves t)%nat /\ r = (offset ts q + i)%nat.
Proof. intros r Hr. destruct M as (_&LE&_). apply offset_find. lia. Qed.

Lemma concat_G_len : length (concat G) = (n_gamma kd * length E)%nat.
Proof.
  destruct M as (LG&_&_&LC&_). rewrite (length_concat_block _ (length E)); [congruence|].
  intros X HX. destruct (In_nth _ _ [] HX) as (c&Hc&<-). apply LC. lia.
Qed.
Lemma concat_G_nth : forall c r, (c < n_gamma kd)%nat -> (r < length E)%nat ->
  nth (c * length E + r) (concat G) [] = nth r (nth c G []) [].
Proof.
  intros. destruct M as (LG&_&_&LC&_). apply nth_concat_block; auto; [|lia].
  intros X HX. destruct (In_nth _ _ [] HX) as (c'&Hc&<-). apply LC. lia.
Qed.

Lemma flat_lt : forall c r, (c < n_gamma kd)%nat -> (r < length E)%nat -> (c * length E + r < n_gamma kd * length E)%nat.
Proof. intros. nia. Qed.

(** the table of new values *)
Definition table (lamb : list R) : mat R :=
  unflatten (n_gamma kd) (length E) (new_values (concat G) (concat (repeat E (n_gamma kd))) lamb).

Lemma table_nth : forall q t i lamb c, nth_error ts q = Some t -> (i < n_leaves t)%nat -> length lamb = K ->
  (c < n_gamma kd)%nat ->
  nth c (nth (offset ts q + i) (table lamb) []) 0 = kmean t kd (kap_sel sel lamb q i) c.
Proof.
  intros q t i lamb c N Hi LK Hc.
  assert (Hr : (offset ts q + i < length E)%nat) by (destruct M as (_&_&_&_&H); apply (H q t N i Hi)).
  unfold table. rewrite unflatten_nth by auto.
  rewrite new_values_nth.
  - rewrite concat_G_nth, nth_concat_repeat by auto.
    rewrite (mats_eta q t i lamb N Hi LK), (mats_gamma q t i lamb c N Hi LK Hc). reflexivity.
  - rewrite concat_G_len. apply flat_lt; auto.
  - rewrite concat_G_len, length_concat_repeat. auto.
Qed.
End Values.

Lemma depth_mats : forall kd pa s ts, Forall (@wf_tree R) ts ->
  exists G E Ti, create_Gamma_eta_forest kd pa s ts = Ok (G, E, Ti) /\
  mats kd ts (snd (calc_depth_for_forest ts) + 1)
       (fun q i k j => match nth_error ts q with Some t => csel t s pa i k j | None => false end) G E Ti.
Proof.
  intros kd pa s ts W. destruct (forest_gamma_ok kd pa s ts W) as (G&E&Ti&H&LG&LE&LT&LC&V).
  exists G, E, Ti. split; auto. split; auto. split; auto. split; auto. split; auto.
  intros q t N i Hi. rewrite N. apply V; auto.
Qed.

(** the depth kernel *)
Lemma depth_kernel : forall pa s ts q t i lamb, Forall (@wf_tree R) ts -> nth_error ts q = Some t ->
  (i < n_leaves t)%nat -> length lamb = (snd (calc_depth_for_forest ts) + 1)%nat ->
  is_kernel t s pa lamb i
    (kap_sel (fun q i k j => match nth_error ts q with Some t => csel t s pa i k j | None => false end) lamb q i).
Proof.
  intros pa s ts q t i lamb W N Hi LL j Hj.
  assert (WF : wf_tree t) by (rewrite Forall_forall in W; apply W; eapply nth_error_In; eauto).
  destruct (leaf_dist_conv t s i j WF Hi Hj) as (d&Ed&Dd). exists d. split; auto.
  unfold kap_sel, dweight. rewrite N. unfold csel. rewrite Ed. destruct pa.
  - apply sumto_ext. intros k Hk. destruct (Z.leb_spec (Z.of_nat d) (Z.of_nat k)), (Nat.leb_spec d k); auto; lia.
  - assert (HD : (d < length lamb)%nat).
    { destruct Dd as (d1&d2&C1&C2&ED). rewrite LL.
      destruct C1 as (a&di&da&_&D1&_&->). destruct C2 as (a'&di'&da'&_&D1'&_&->).
      pose proof (calc_depth_upper ts W t _ _ (nth_error_In _ _ N) D1).
      pose proof (calc_depth_upper ts W t _ _ (nth_error_In _ _ N) D1').
      destruct s; lia. }
    rewrite (sumto_single _ _ d); auto.
    + rewrite Z.eqb_refl. auto.
    + intros k Hk NE. destruct (Z.eqb_spec (Z.of_nat d) (Z.of_nat k)); auto. lia.
Qed.

(** *** the starting weights *)
Lemma normalise_length : forall l : list R, length (normalise l) = length l.
Proof. intros. unfold normalise. apply map_length. Qed.
Lemma normalise_nonneg : forall l : list R, (forall x, In x l -> 0 <= x) -> forall x, In x (normalise l) -> 0 <= x.
Proof.
  intros l H x Hx. unfold normalise in Hx. apply in_map_iff in Hx. destruct Hx as (y&<-&Hy). rn.
  assert (YS : y <= nsum l).
  { pose proof (nsum_pos_elem (fun x => x) l y) as X. rewrite map_id in X. apply X; auto. }
  specialize (H y Hy). destruct (Req_EM_T y 0) as [->|NZ]; [unfold Rdiv; lra|].
  apply Rlt_le, Rdiv_lt_0_compat; lra.
Qed.
Lemma nsum_map_div : forall (l : list R) c, nsum (map (fun x => x / c) l) = nsum l / c.
Proof.
  induction l; intros; cbn [map]; rewrite ?nsum_nil, ?nsum_cons; [unfold Rdiv; ring|]. rewrite IHl. unfold Rdiv. ring.
Qed.
Lemma normalise_sum : forall l : list R, nsum l <> 0 -> nsum (normalise l) = 1.
Proof. intros l H. unfold normalise. rn. rewrite nsum_map_div. field. auto. Qed.
Lemma normalise_one : forall l : list R, nsum l = 1 -> normalise l = l.
Proof.
  intros l H. unfold normalise. rewrite <- (map_id l) at 2. apply map_ext. intros a. rn. rewrite H. field.
Qed.

Lemma initial_lamb_length : forall kd (o : smooth_opts R) K, length (initial_lamb kd o K) = K.
Proof.
  intros. unfold initial_lamb.
  assert (X : length (match o_lamb_draws o with None => upd (repeat n0 K) 0 n1 | Some u => normalise (map u (seq 0 K)) end) = K).
  { destruct (o_lamb_draws o); [rewrite normalise_length, map_length, seq_length; auto|rewrite upd_length, repeat_length; auto]. }
  destruct kd; auto. rewrite !normalise_length, map_length. auto.
Qed.
Lemma In_upd_repeat : forall (x : R) K, In x (upd (repeat 0 K) 0 1) -> x = 0 \/ x = 1.
Proof.
  intros x [|K] H; cbn in H; [contradiction|]. destruct H as [<-|H]; auto. apply repeat_spec in H. auto.
Qed.
Definition start_ok (o : smooth_opts R) : Prop :=
  match o_lamb_draws o with None => True | Some u => forall k, 0 <= u k end.
Lemma initial_lamb_nonneg : forall kd (o : smooth_opts R) K, start_ok o -> (kd = Reg \/ 0 <= o_class_eps o) ->
  forall x, In x (initial_lamb kd o K) -> 0 <= x.
Proof.
  intros kd o K SO EP. unfold initial_lamb, start_ok in *.
  set (l0 := match o_lamb_draws o with None => upd (repeat n0 K) 0 n1 | Some u => normalise (map u (seq 0 K)) end).
  assert (X : forall x, In x l0 -> 0 <= x).
  { unfold l0. destruct (o_lamb_draws o).
    - apply normalise_nonneg. intros x H. apply in_map_iff in H. destruct H as (k&<-&_). auto.
    - intros x H. apply In_upd_repeat in H. destruct H; lra. }
  destruct kd; auto. destruct EP as [EP|EP]; [discriminate|]. apply normalise_nonneg, normalise_nonneg. intros x H. apply in_map_iff in H.
  destruct H as (y&<-&Hy). specialize (X y Hy). rn.
  assert (0 <= 1 * o_class_eps o / INR (length l0)); [|lra].
  destruct (Nat.eq_dec (length l0) 0) as [Z|NZ].
  - destruct l0; [contradiction|discriminate].
  - unfold Rdiv. rewrite Rmult_1_l. apply Rmult_le_pos; auto. left. apply Rinv_0_lt_compat. apply lt_0_INR. lia.
Qed.

(** *** the optimised weights *)
Lemma optimise_good : forall lg kd (o : smooth_opts R) rd P l0 l ll c,
  (match kd with Class _ => o_no_constraint o = false | Reg => True end) ->
  optimise lg kd o rd P l0 = Ok (l, ll, c) ->
  length l = length l0 /\ length ll = length l0 /\
  (o_no_constraint o = false -> (forall x, In x l0 -> 0 <= x) -> (forall x, In x l -> 0 <= x) /\ (forall x, In x ll -> 0 <= x)).
Proof.
  intros lg kd o rd P l0 l ll c NC H. unfold optimise in H. destruct (o_sanity o); [inversion H; subst; auto|].
  assert (X : forall l ll c, stocastic_grad_descent P l0 (o_t_fix o) (negb (o_no_constraint o)) (o_adam o) (r_draws rd) = Ok (l, ll, c) ->
     length l = length l0 /\ length ll = length l0 /\
     (o_no_constraint o = false -> (forall x, In x l0 -> 0 <= x) -> (forall x, In x l -> 0 <= x) /\ (forall x, In x ll -> 0 <= x))).
  { intros l1 l2 c1 H1. destruct (sgd_good _ _ _ _ _ _ _ _ _ H1) as [[A1 A2] [B1 B2]]. split; auto. split; auto.
    intros E0 _. rewrite E0 in *. cbn [negb] in *. auto. }
  destruct kd; [eauto|]. destruct (o_class_loss o); [|eauto].
  rewrite NC in H. cbn [negb] in H. destruct (r_draws rd) as [|d ds] eqn:ED.
  - unfold stocastic_grad_descent_ce in H. destruct (negb _); [discriminate|].
    unfold sgd_run in H. bok H. bok H. cbn [foldM bind] in H. inversion H; subst; auto.
  - destruct (sgd_ce_never lg P l0 (o_t_fix o) (o_class_eps o) (o_adam o) (d :: ds)) as (e&He); [discriminate|]. congruence.
Qed.

Lemma ncols_mats : forall kd ts K sel G E Ti, Forall (@wf_tree R) ts -> ts <> [] -> mats kd ts K sel G E Ti ->
  ncols E = K /\ (n_gamma kd <> 0%nat -> ncols (concat G) = K) /\ E <> [].
Proof.
  intros kd ts K sel G E Ti W NE M. destruct M as (LG&LE&LT&LC&V).
  destruct ts as [|t ts]; [congruence|]. inversion W; subst. pose proof (n_leaves_pos t H1) as LP.
  destruct (V 0%nat t eq_refl 0%nat LP) as (HR&_&L0&_&VG).
  change (offset (t :: ts) 0) with 0%nat in *. cbn [Nat.add] in *.
  split; [destruct E; cbn [nth] in *; [cbn in HR; lia|]; exact L0|]. split; [|destruct E; cbn in HR; [lia|congruence]].
  intros NG. destruct (VG 0%nat ltac:(lia)) as [LG0 _]. specialize (LC 0%nat ltac:(lia)).
  destruct G as [|g0 G]; [cbn in LG; lia|]. cbn [nth] in *. destruct g0 as [|r0 g0]; [cbn in LC; lia|]. exact LG0.
Qed.

(** *** smooth as a whole *)
Lemma smooth_inv : forall lg kd ts (o : smooth_opts R) rd out K sel G E Ti,
  smooth lg (Forest kd ts) o rd = Ok out -> Forall (@wf_tree R) ts -> ts <> [] ->
  forest_matrices kd o ts = Ok (G, E, Ti) -> mats kd ts K sel G E Ti ->
  (match kd with Class _ => o_no_constraint o = false | Reg => True end) /\
  (exists Y W, all_targets kd o rd ts = Ok (Y, W) /\
     optimise lg kd o rd (flatten kd o G E Ti Y W) (initial_lamb kd o K) = Ok (s_lamb out, s_lamb_last out, s_costs out)) /\
  s_lamb2 out = s_lamb_last out /\ length (s_lamb out) = K /\ length (s_lamb_last out) = K /\
  length (s_forest out) = length ts /\ length (s_forest2 out) = length ts /\
  (forall q t, nth_error ts q = Some t -> exists t', nth_error (s_forest out) q = Some t' /\ same_but_leaf_values t t' /\
     forall i, (i < n_leaves t)%nat -> length (nth (leaf_id t i) (t_value t') []) = n_gamma kd /\
       forall c, (c < n_gamma kd)%nat -> node_v t' c (leaf_id t i) = kmean t kd (kap_sel sel (s_lamb out) q i) c) /\
  (forall q t, nth_error ts q = Some t -> exists t', nth_error (s_forest2 out) q = Some t' /\ same_but_leaf_values t t' /\
     forall i, (i < n_leaves t)%nat -> length (nth (leaf_id t i) (t_value t') []) = n_gamma kd /\
       exists q0 t0 i0, nth_error ts q0 = Some t0 /\ (i0 < n_leaves t0)%nat /\ i = (offset ts q0 + i0)%nat /\
       forall c, (c < n_gamma kd)%nat -> node_v t' c (leaf_id t i) = kmean t0 kd (kap_sel sel (s_lamb_last out) q0 i0) c).
Proof.
  intros lg kd ts o rd out K sel G E Ti H W NE FM M.
  destruct (ncols_mats _ _ _ _ _ _ _ W NE M) as (NC&_&_).
  unfold smooth in H. destruct (_ && _)%bool; [discriminate|].
  assert (CC : match kd with Class _ => o_no_constraint o = false | Reg => True end).
  { destruct kd; auto. destruct (o_no_constraint o); [discriminate|auto]. }
  destruct (match kd with Class _ => o_no_constraint o | Reg => false end); [discriminate|].
  rewrite FM in H. cbn [bind] in H. apply bind_ok in H. destruct H as ([Y W0]&HT&H).
  apply bind_ok in H. destruct H as ([[l ll] c]&HO&H). rewrite NC in HO.
  cbn [p_Gamma p_eta flatten] in H.
  fold (table kd G E l) in H. fold (table kd G E ll) in H.
  destruct (optimise_good _ _ _ _ _ _ _ _ _ CC HO) as (L1&L2&_). rewrite initial_lamb_length in L1, L2.
  pose proof M as M'. destruct M' as (LG&LE&LT&LC&V).
  assert (TL : forall l, length (table kd G E l) = length E) by (intros; unfold table; apply unflatten_length).
  destruct (write_forest_ok (table kd G E l) ts 0 W) as (f1&E1&LF1&V1); [rewrite TL; lia|].
  destruct (write_forest2_ok (table kd G E ll) ts W) as (f2&E2&LF2&V2).
  { intros t Ht. rewrite TL, LE. apply In_nth_error in Ht. destruct Ht as (q&Ht). pose proof (offset_le ts q t Ht). lia. }
  rewrite E1 in H. cbn [bind] in H. rewrite E2 in H. cbn [bind] in H. inversion H; subst out; clear H.
  cbn [s_forest s_lamb s_forest2 s_lamb2 s_lamb_last s_costs].
  split; auto. split; [exists Y, W0; auto|]. repeat (split; [solve [auto]|]). split.
  - intros q t N. destruct (V1 q t N) as (t'&N'&S&VV). exists t'. split; auto. split; auto.
    intros i Hi. rewrite VV by auto. cbn [Nat.add].
    assert (Hr : (offset ts q + i < length E)%nat) by (apply (V q t N i Hi)).
    split; [unfold table; apply unflatten_row_length; auto|].
    intros c0 Hc. unfold node_v. rewrite VV by auto. cbn [Nat.add].
    apply (table_nth kd ts K sel G E Ti M q t i l c0); auto.
  - intros q t N. destruct (V2 q t N) as (t'&N'&S&VV). exists t'. split; auto. split; auto.
    intros i Hi.
    assert (Hr : (i < length E)%nat) by (pose proof (offset_le ts q t N); lia).
    split; [rewrite VV by auto; unfold table; apply unflatten_row_length; auto|].
    destruct (mats_rows kd ts K sel G E Ti M i Hr) as (q0&t0&i0&N0&Hi0&EI).
    exists q0, t0, i0. repeat (split; [solve [auto]|]). intros c0 Hc. unfold node_v. rewrite VV by auto. rewrite EI.
    apply (table_nth kd ts K sel G E Ti M q0 t0 i0 ll c0); auto.
Qed.
