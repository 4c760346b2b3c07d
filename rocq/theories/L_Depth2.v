(** L_Depth2: the loops of depth_tune. *)
From Verif Require Import Base TreeSpec Spec M_Tree M_Gamma M_Levels M_Smooth M_Prune M_Depth SpecDepth
  L_Base L_Tree L_TreeModel L_TreeModel2 L_Dist L_Gamma L_Gamma2 L_Sgd L_Smooth L_Smooth3 L_Smooth4 L_Route L_Prune4 L_Depth.
From Coq Require Import Reals Lra Lia.
Local Open Scope R_scope.

(** *** argmin *)
Lemma argmin_spec : forall l : list R, l <> [] -> exists b, argmin l = Ok b /\ (b < length l)%nat /\
  (forall i, (i < length l)%nat -> nth b l 0 <= nth i l 0) /\ (forall i, (i < b)%nat -> nth b l 0 < nth i l 0).
Proof.
  intros [|x r] NE; [congruence|]. clear NE. unfold argmin. eexists. split; [reflexivity|].
  assert (G : forall r pre s m b, s = length (x :: pre) -> (b < s)%nat -> m = nth b (x :: pre) 0 ->
    (forall i, (i < b)%nat -> m < nth i (x :: pre) 0) -> (forall i, (i < s)%nat -> m <= nth i (x :: pre) 0) ->
    let k := snd (fold_left (fun '(m, b) '(y, k) => if nltb y m then (y, k) else (m, b)) (combine r (seq s (length r))) (m, b)) in
    (k < length (x :: pre ++ r))%nat /\ (forall i, (i < length (x :: pre ++ r))%nat -> nth k (x :: pre ++ r) 0 <= nth i (x :: pre ++ r) 0) /\
    forall i, (i < k)%nat -> nth k (x :: pre ++ r) 0 < nth i (x :: pre ++ r) 0).
  { induction r0 as [|y r0 IH]; intros pre s m b Es Hb Em H1 H2.
    - rewrite app_nil_r. cbn [seq combine fold_left snd]. change (length (@nil R)) with O. cbn [seq combine fold_left snd]. rewrite <- Es, <- Em. auto.
    - cbn [seq combine fold_left]. change (length (y :: r0)) with (S (length r0)). cbn [seq combine fold_left].
      assert (EQ : pre ++ y :: r0 = (pre ++ [y]) ++ r0) by (rewrite <- app_assoc; auto). rewrite EQ.
      assert (LP : S s = length (x :: pre ++ [y])) by (cbn; rewrite app_length; cbn in *; lia).
      assert (N1 : forall i, (i < s)%nat -> nth i (x :: pre ++ [y]) 0 = nth i (x :: pre) 0).
      { intros i Hi. change (x :: pre ++ [y]) with ((x :: pre) ++ [y]). rewrite app_nth1 by (cbn in *; lia). auto. }
      assert (N2 : nth s (x :: pre ++ [y]) 0 = y) by (subst s; cbn; apply nth_middle).
      assert (N3 : forall i, (i < S s)%nat -> i = s \/ (i < s)%nat) by (intros; lia).
      change (@nltb R _ y m) with (Rltb y m). destruct (Rltb_spec y m) as [L|L].
      + apply IH; auto.
        * intros i Hi. rewrite N1 by lia. specialize (H2 i Hi). lra.
        * intros i Hi. destruct (N3 i Hi) as [->|Hi']; [rewrite N2; lra|]. rewrite N1 by auto. specialize (H2 i Hi'). lra.
      + apply IH; auto.
        * rewrite N1 by auto. auto.
        * intros i Hi. rewrite N1 by lia. auto.
        * intros i Hi. destruct (N3 i Hi) as [->|Hi']; [rewrite N2; lra|]. rewrite N1 by auto. auto. }
  apply (G r [] 1%nat x O); auto.
  - intros j Hj. lia.
  - intros j Hj. assert (j = O) by lia. subst. cbn. lra.
Qed.

(** *** the loss of a cut tree *)
Definition ob_loss (kd : kind) (y p : R) : R :=
  match kd with Reg => (y - p) * (y - p) | Class _ => if Reqb p y then 0 else 1 end.
Lemma ob_loss_nonneg : forall kd y p, 0 <= ob_loss kd y p.
Proof. intros [|nc] y p; unfold ob_loss; [apply Rle_0_sqr|]. destruct (Reqb p y); lra. Qed.

Section OneTree.
Variable t : tree R.
Hypothesis WF : wf_tree t.
Variable kd : kind.
Hypothesis NV : forall v, (v < size t)%nat -> nth v (t_value t) [] <> [].

Lemma predict_cut : forall k x, (k < max_depth_of t)%nat ->
  exists a, cut_node t k (end_node t x) a /\
  predict kd (cutk t k) x = match kd with Reg => node_v t 0 a | Class _ => INR (argmax (nth a (t_value t) [])) end.
Proof.
  intros k x Hk. destruct (end_node_spec t WF x) as (A&B&C). destruct (cut_ex t WF k _ C) as [a Ca].
  exists a. split; auto. unfold predict. rewrite (end_struct t (cutk t k)) by reflexivity.
  destruct (cutk_cut t WF k Hk) as [_ V]. rewrite (V _ a C A Ca). destruct kd; reflexivity.
Qed.
Lemma data_loss_eq : forall (t' : tree R) X y, X <> [] -> length y = length X ->
  data_loss kd t' X y = Ok (sumto (length X) (fun i => ob_loss kd (nth i y 0) (predict kd t' (nth i X [])))).
Proof.
  intros t' X y NE L. unfold data_loss. destruct X as [|x0 X0] eqn:EX; [congruence|]. rewrite <- EX in *. rewrite L, Nat.eqb_refl.
  cbn [negb]. f_equal. rewrite nsum_sumto. rewrite map2_length. rewrite L, Nat.min_id. apply sumto_ext. intros i Hi.
  rewrite nth_map2 with (da := []) (db := 0) by lia. destruct kd; reflexivity.
Qed.
Lemma data_loss_cut : forall k X y, (k < max_depth_of t)%nat -> X <> [] -> length y = length X ->
  exists L, data_loss kd (cutk t k) X y = Ok L /\ cut_loss kd t k X y L /\ 0 <= L.
Proof.
  intros k X y Hk NE LE. rewrite data_loss_eq by auto. eexists. split; [reflexivity|]. split.
  - exists (map (fun i => ob_loss kd (nth i y 0) (predict kd (cutk t k) (nth i X []))) (seq 0 (length X))).
    split; [rewrite map_length, seq_length; auto|]. split.
    + intros i Hi. rewrite nth_map_seq by auto. cbn [Nat.add].
      destruct (predict_cut k (nth i X []) Hk) as (a&Ca&->). destruct (end_node_spec t WF (nth i X [])) as (A&B&C).
      exists (end_node t (nth i X [])), a. split; auto. split; auto. split; auto. destruct kd as [|nc]; [reflexivity|].
      exists (argmax (nth a (t_value t) [])). split; [apply argmax_majority; apply NV; eapply cut_lt; eauto|].
      cbn. unfold Reqb. destruct (Req_EM_T _ _); auto.
    + apply sumto_ext. intros i Hi. rewrite nth_map_seq by auto. reflexivity.
  - apply sumto_nonneg. intros. apply ob_loss_nonneg.
Qed.

Variables (X : mat R) (y : list R).
Hypothesis NX : X <> [].
Hypothesis LXY : length y = length X.
Definition lossk (k : nat) : R := match data_loss kd (cutk t k) X y with Ok l => l | Err _ => 0 end.
Lemma lossk_ok : forall k, (k < max_depth_of t)%nat -> data_loss kd (cutk t k) X y = Ok (lossk k) /\ cut_loss kd t k X y (lossk k) /\ 0 <= lossk k.
Proof.
  intros k Hk. destruct (data_loss_cut k X y Hk NX LXY) as (L&E&C&P). unfold lossk. rewrite E. auto.
Qed.
Lemma steps_ok : forall m s cur tl i0, (s + m <= max_depth_of t)%nat -> (max_depth_of t <= length tl)%nat ->
  (cur = t \/ exists p, cur = set_leaves t p) ->
  exists cur' tl', foldM (depth_step kd X y) (map (fun k => (k, nth k (leaf_predicted_values t) [])) (seq s m)) (cur, tl, i0)
    = Ok (cur', tl', if Nat.eqb m 0 then i0 else Some (s + m - 1)%nat) /\ length tl' = length tl /\
    forall k, nth k tl' 0 = if (Nat.leb s k && Nat.ltb k (s + m))%bool then lossk k else nth k tl 0.
Proof.
  induction m as [|m IH]; intros s cur tl i0 H1 H2 HC.
  - exists cur, tl. split; [reflexivity|]. split; auto. intros k. rewrite Nat.add_0_r.
    destruct (Nat.leb_spec s k), (Nat.ltb_spec k s); auto; lia.
  - cbn [seq map foldM]. unfold depth_step at 1. cbn [fst snd].
    assert (EC : set_leaves cur (nth s (leaf_predicted_values t) []) = cutk t s).
    { destruct HC as [->|(p&->)]; [reflexivity|]. unfold cutk. apply set_leaves_twice; auto. apply lpv_row_length; auto. lia. }
    rewrite EC. destruct (lossk_ok s ltac:(lia)) as (E1&_&_). rewrite E1. cbn [bind].
    destruct (IH (S s) (cutk t s) (upd tl s (lossk s)) (Some s)) as (cur'&tl'&F&L&V); [lia|rewrite upd_length; auto|right; eexists; reflexivity|].
    exists cur', tl'. split; [|split].
    + rewrite F. f_equal. f_equal. destruct m as [|m']; cbn [Nat.eqb]; f_equal; lia.
    + rewrite L. apply upd_length.
    + intros k. rewrite V. rewrite nth_upd by lia. destruct (Nat.eqb_spec s k) as [->|NE].
      * destruct (Nat.leb_spec (S k) k); [lia|]. destruct (Nat.leb_spec k k); [|lia]. destruct (Nat.ltb_spec k (k + S m)); [auto|lia].
      * destruct (Nat.leb_spec (S s) k), (Nat.leb_spec s k), (Nat.ltb_spec k (S s + m)), (Nat.ltb_spec k (s + S m)); auto; lia.
Qed.
Lemma lpv_items : combine (seq 0 (length (leaf_predicted_values t))) (leaf_predicted_values t) =
  map (fun k => (k, nth k (leaf_predicted_values t) [])) (seq 0 (max_depth_of t)).
Proof.
  rewrite <- (lpv_length t). generalize (leaf_predicted_values t). intros l.
  assert (G : forall s, combine (seq s (length l)) l = map (fun k => (k, nth (k - s) l [])) (seq s (length l))).
  { induction l as [|a l IH]; intros s; auto. cbn [length seq combine map]. rewrite Nat.sub_diag. cbn [nth]. f_equal.
    rewrite IH. apply map_ext_in. intros k Hk. apply in_seq in Hk. replace (k - s)%nat with (S (k - S s)) by lia. reflexivity. }
  rewrite G. apply map_ext. intros k. rewrite Nat.sub_0_r. auto.
Qed.
Lemma depth_tree_ok : forall o rd md q fl i0, (1 < size t)%nat -> (max_depth_of t <= md)%nat -> length fl = md ->
  depth_data o rd q = Ok (X, y) ->
  exists fl' i, depth_tree kd o rd md (fl, i0) (q, t) = Ok (fl', Some i) /\ length fl' = md /\
    forall k, (k < md)%nat -> nth k fl' 0 = nth k fl 0 + lossk (Nat.min k (max_depth_of t - 1)).
Proof.
  intros o rd md q fl i0 SZ HM LF HD. pose proof (depth_pos t WF SZ) as DP. unfold depth_tree. cbn [fst snd]. rewrite HD. cbn [bind].
  rewrite lpv_items. destruct (steps_ok (max_depth_of t) 0 t (repeat (-1) md) i0) as (cur'&tl'&F&L&V);
    [lia|rewrite repeat_length; auto|left; auto|].
  change (- @n1 R _)%num with (-1). rewrite F. cbn [bind]. destruct (Nat.eqb_spec (max_depth_of t) 0) as [Y|_]; [lia|].
  rewrite repeat_length in L. cbn [Nat.add] in *. eexists. eexists. split; [reflexivity|]. split.
  - rewrite map2_length. unfold fill_missing. rewrite map_length. lia.
  - intros k Hk. rewrite nth_map2 with (da := 0) (db := 0) by (unfold fill_missing; rewrite ?map_length; lia).
    change (@nadd R _) with Rplus. f_equal. unfold fill_missing. rewrite nth_map_in with (d := 0) by lia.
    change (@neqb R _) with Reqb. change (- @n1 R _)%num with (-1). unfold Reqb. rewrite !V.
    change (Nat.leb 0 k) with true. change (Nat.leb 0 (max_depth_of t - 1)) with true. cbn [andb].
    destruct (Nat.ltb_spec (max_depth_of t - 1) (max_depth_of t)) as [_|Y]; [|lia].
    destruct (Nat.ltb_spec k (max_depth_of t)) as [Y|Y].
    + rewrite Nat.min_l by lia. destruct (lossk_ok k Y) as (_&_&P). destruct (Req_EM_T (lossk k) (-1)); [lra|auto].
    + rewrite Nat.min_r by lia. rewrite nth_repeat_lt by lia. destruct (Req_EM_T (-1) (-1)); [auto|congruence].
Qed.
End OneTree.

(** *** tuning data *)
Lemma take_rows_map : forall {A} (l : list A) idx d, (forall i, In i idx -> (i < length l)%nat) ->
  take_rows l idx = Ok (map (fun i => nth i l d) idx).
Proof.
  intros A l idx d H. unfold take_rows. apply mapM_ok. intros i Hi. specialize (H i Hi).
  rewrite (nth_error_nth' l d H). auto.
Qed.
Lemma take_rows_range : forall {A} (l : list A) idx r, take_rows l idx = Ok r -> forall i, In i idx -> (i < length l)%nat.
Proof.
  intros A l idx. unfold take_rows. induction idx as [|j idx IH]; intros r H i I; [destruct I|]. cbn [mapM] in H.
  apply bind_ok in H. destruct H as (x&H1&H2). apply bind_ok in H2. destruct H2 as (r'&H2&_).
  destruct I as [<-|I]; [|eauto]. apply nth_error_Some. destruct (nth_error l j); congruence.
Qed.
Lemma rows_data : forall (o : depth_opts R) rd q X y, depth_rows o rd q X y <-> depth_data o rd q = Ok (X, y).
Proof.
  intros o rd q X y. unfold depth_data, d_oob. split.
  - intros [X' y' R1 E1 E2|Xt yt R1 E1 E2 E3 RG|Xt yt R1 E2 E3 RG]; rewrite R1.
    + rewrite E1, E2. reflexivity.
    + rewrite E2, E3. replace (isNone (d_X_tune o) || isNone (d_y_tune o))%bool with true
        by (destruct E1 as [-> | ->]; cbn [isNone orb]; rewrite ?orb_true_r; auto). cbn [negb andb orb bind].
      rewrite (take_rows_map Xt _ []) by (intros; apply RG; auto). cbn [bind]. rewrite (take_rows_map yt _ 0) by (intros; apply RG; auto). reflexivity.
    + rewrite E2, E3. cbn [negb]. rewrite !andb_false_r. cbn [orb bind].
      rewrite (take_rows_map Xt _ []) by (intros; apply RG; auto). cbn [bind]. rewrite (take_rows_map yt _ 0) by (intros; apply RG; auto). reflexivity.
  - destruct (d_resample o) eqn:ER.
    + cbn [negb]. rewrite !andb_false_r. cbn [orb]. intros H. destruct (d_X_trained o) as [Xt|] eqn:E1; [|discriminate]. destruct (d_y_trained o) as [yt|] eqn:E2; [|discriminate].
      apply bind_ok in H. destruct H as (X'&H1&H). apply bind_ok in H. destruct H as (y'&H2&H). inversion H; subst X' y'.
      pose proof (take_rows_range _ _ _ H1) as G1. pose proof (take_rows_range _ _ _ H2) as G2.
      rewrite (take_rows_map Xt _ []) in H1 by auto. rewrite (take_rows_map yt _ 0) in H2 by auto. inversion H1. inversion H2. eapply dr_boot; eauto.
    + cbn [negb]. rewrite andb_true_r, orb_false_r. destruct (isNone (d_X_tune o) || isNone (d_y_tune o))%bool eqn:EN.
      * intros H. destruct (d_X_trained o) as [Xt|] eqn:E1; [|discriminate]. destruct (d_y_trained o) as [yt|] eqn:E2; [|discriminate].
        apply bind_ok in H. destruct H as (X'&H1&H). apply bind_ok in H. destruct H as (y'&H2&H). inversion H; subst X' y'.
        pose proof (take_rows_range _ _ _ H1) as G1. pose proof (take_rows_range _ _ _ H2) as G2.
        rewrite (take_rows_map Xt _ []) in H1 by auto. rewrite (take_rows_map yt _ 0) in H2 by auto. inversion H1. inversion H2. eapply dr_oob; eauto.
        destruct (d_X_tune o), (d_y_tune o); auto; discriminate.
      * destruct (d_X_tune o) eqn:E1, (d_y_tune o) eqn:E2; try discriminate. intros H. inversion H; subst. apply dr_given; auto.
Qed.
Lemma rows_checks : forall (o : depth_opts R) rd q X y, depth_rows o rd q X y ->
  ((d_oob o || d_resample o) && (isNone (d_X_trained o) || isNone (d_y_trained o)))%bool = false.
Proof.
  intros o rd q X y [X' y' R1 E1 E2|Xt yt R1 E1 E2 E3 RG|Xt yt R1 E2 E3 RG]; unfold d_oob.
  - rewrite R1, E1, E2. reflexivity.
  - rewrite E2, E3. cbn. apply andb_false_r.
  - rewrite E2, E3. cbn. apply andb_false_r.
Qed.

(** *** all trees *)
Definition one_loss (kd : kind) (o : depth_opts R) (rd : randomness) (k : nat) (it : nat * tree R) : R :=
  match depth_data o rd (fst it) with
  | Ok (X, y) => lossk (snd it) kd X y (Nat.min k (max_depth_of (snd it) - 1))
  | Err _ => 0
  end.
Lemma trees_ok : forall kd o rd md l fl i0,
  (forall q t, In (q, t) l -> wf_tree t /\ (1 < size t)%nat /\ (forall v, (v < size t)%nat -> nth v (t_value t) [] <> []) /\
     (max_depth_of t <= md)%nat /\ exists X y, depth_data o rd q = Ok (X, y) /\ X <> [] /\ length y = length X) ->
  length fl = md ->
  exists fl' i, foldM (depth_tree kd o rd md) l (fl, i0) = Ok (fl', i) /\ length fl' = md /\
    forall k, (k < md)%nat -> nth k fl' 0 = nth k fl 0 + nsum (map (one_loss kd o rd k) l).
Proof.
  intros kd o rd md. induction l as [|[q t] l IH]; intros fl i0 H LF.
  - exists fl, i0. split; [reflexivity|]. split; auto. intros. cbn [map]. rewrite nsum_nil. change (@n0 R _) with 0. lra.
  - destruct (H q t (or_introl eq_refl)) as (WF&SZ&NV&MD&X&y&HD&NX&LXY). cbn [foldM].
    destruct (depth_tree_ok t WF kd NV X y NX LXY o rd md q fl i0 SZ MD LF HD) as (fl1&i1&E1&L1&V1). rewrite E1. cbn [bind].
    destruct (IH fl1 (Some i1)) as (fl2&i2&E2&L2&V2); [intros; apply H; right; auto|auto|].
    exists fl2, i2. split; auto. split; auto. intros k Hk. rewrite V2, V1 by auto. cbn [map]. rewrite nsum_cons. unfold one_loss at 2. cbn [fst snd].
    rewrite HD. change (@nadd R _) with Rplus. lra.
Qed.

(** *** assembled statements *)
Lemma p_cut_total : forall (t : tree R) k v, wf_tree t -> (v < size t)%nat ->
  exists a, cut_node t k v a /\ forall b, cut_node t k v b -> b = a.
Proof. intros t k v WF Hv. destruct (cut_ex t WF k v Hv) as [a A]. exists a. split; auto. intros b B. eapply cut_unique; eauto. Qed.

Lemma p_C37 : forall (t : tree R) d, wf_tree t -> tree_depth t d ->
  length (leaf_predicted_values t) = d /\
  forall k, (k < d)%nat ->
    length (nth k (leaf_predicted_values t) []) = n_leaves t /\
    forall i, (i < n_leaves t)%nat ->
      exists a, cut_node t k (leaf_id t i) a /\
                nth i (nth k (leaf_predicted_values t) []) [] = nth a (t_value t) [].
Proof.
  intros t d WF TD. apply (tree_depth_iff t WF) in TD. subst d. split; [apply lpv_length; auto|]. intros k Hk.
  split; [apply lpv_row_length; auto|]. intros i Hi. destruct (cut_ex t WF k (leaf_id t i)) as [a A]; [apply leaf_id_lt; auto|].
  exists a. split; auto. apply lpv_entry; auto.
Qed.
Lemma p_C37_shallow : forall (t : tree R) d k i e, wf_tree t -> tree_depth t d -> (k < d)%nat -> (i < n_leaves t)%nat ->
  depth_of t (leaf_id t i) e -> (e <= k)%nat ->
  nth i (nth k (leaf_predicted_values t) []) [] = nth (leaf_id t i) (t_value t) [].
Proof.
  intros t d k i e WF TD Hk Hi De L. apply (tree_depth_iff t WF) in TD. subst d. apply lpv_entry; auto.
  exists e. split; auto. split; [apply anc_refl; apply leaf_id_lt; auto|]. rewrite Nat.min_r by auto. auto.
Qed.

Lemma trunc_ok : forall best (t : tree R), wf_tree t -> forall t', truncate_tree best t = Ok t' ->
  (0 < max_depth_of t)%nat /\ t' = cutk t (Nat.min best (max_depth_of t - 1)) /\ cut_tree t (Nat.min best (max_depth_of t - 1)) t'.
Proof.
  intros best t WF t' H. unfold truncate_tree in H. pose proof (lpv_length t) as L.
  destruct (leaf_predicted_values t) as [|p pl] eqn:E; [discriminate|].
  assert (DP : (0 < max_depth_of t)%nat) by (cbn [length] in L; lia). rewrite <- E in *. split; auto.
  assert (ET : t' = cutk t (Nat.min best (max_depth_of t - 1))).
  { rewrite lpv_length in H. rewrite Nat.min_comm in H. unfold cutk. congruence. }
  split; auto. rewrite ET. apply cutk_cut; auto. lia.
Qed.
Lemma nth_error_ex : forall {A B} (l : list A) (r : list B) q x, length r = length l -> nth_error l q = Some x -> exists y, nth_error r q = Some y.
Proof.
  intros A B l r q x L H. assert (q < length l)%nat by (apply nth_error_Some; congruence).
  destruct (nth_error r q) eqn:E; eauto. apply nth_error_None in E. lia.
Qed.
Lemma mapM_nth_error : forall {A B} (f : A -> result B) l r, mapM f l = Ok r -> forall q x, nth_error l q = Some x ->
  exists y, nth_error r q = Some y /\ f x = Ok y.
Proof.
  intros A B f. induction l as [|a l IH]; intros r H q x Hq; [destruct q; discriminate|]. cbn [mapM] in H.
  apply bind_ok in H. destruct H as (y&H1&H2). apply bind_ok in H2. destruct H2 as (r'&H2&H3). inversion H3; subst.
  destruct q as [|q]; cbn in *; [inversion Hq; subst; eauto|]. eapply IH; eauto.
Qed.

Lemma p_C39 : forall kd ts (o : depth_opts R) rd ts' fl, Forall wf_tree ts -> depth_tune (Forest kd ts) o rd = Ok (ts', fl) ->
  length ts' = length ts /\
  forall q t, nth_error ts q = Some t -> exists t', nth_error ts' q = Some t' /\ same_but_leaf_values t t' /\
    forall v, (v < size t)%nat -> is_leafb t v = true ->
      exists a, anc t a v /\ nth v (t_value t') [] = nth a (t_value t) [].
Proof.
  intros kd ts o rd ts' fl W H. unfold depth_tune in H. destruct (_ && _)%bool; [discriminate|].
  apply bind_ok in H. destruct H as ([fl1 i1]&H1&H). apply bind_ok in H. destruct H as (best&H2&H).
  apply bind_ok in H. destruct H as (ts1&H3&H). assert (ts1 = ts') by congruence. subst ts1.
  split; [apply (mapM_length _ _ _ H3)|]. intros q t Hq.
  assert (WF : wf_tree t) by (rewrite Forall_forall in W; apply W; eapply nth_error_In; eauto).
  destruct (mapM_nth_error _ _ _ H3 q t Hq) as (t'&Q1&Q2).
  destruct (trunc_ok best t WF t' Q2) as (_&_&C1&C2). exists t'. split; auto. split; auto.
  intros v Hv Lv. destruct (cut_ex t WF (Nat.min best (max_depth_of t - 1)) v Hv) as [a Ca]. exists a. split; [|apply C2; auto].
  destruct Ca as (d&_&A&_). auto.
Qed.
Lemma p_C38_single : forall kd ts (o : depth_opts R) rd t, wf_tree t -> In t ts -> size t = 1%nat ->
  exists e, depth_tune (Forest kd ts) o rd = Err e.
Proof.
  intros kd ts o rd t WF I SZ. destruct (depth_tune (Forest kd ts) o rd) as [[ts' fl]|e] eqn:H; [exfalso|eauto].
  unfold depth_tune in H. destruct (_ && _)%bool; [discriminate|].
  apply bind_ok in H. destruct H as ([fl1 i1]&H1&H). apply bind_ok in H. destruct H as (best&H2&H).
  apply bind_ok in H. destruct H as (ts1&H3&H). destruct (In_nth_error _ _ I) as (q&Hq).
  destruct (mapM_nth_error _ _ _ H3 q t Hq) as (t'&_&Q). destruct (trunc_ok best t WF t' Q) as (Y&_).
  rewrite (depth_single t WF SZ) in Y. lia.
Qed.
Lemma p_C38 : forall kd ts (o : depth_opts R) rd M, tunable kd ts o rd -> is_max_depth ts M ->
  exists ts' fl best, depth_tune (Forest kd ts) o rd = Ok (ts', fl) /\ length ts' = length ts /\ length fl = M /\
    (best < M)%nat /\ (forall k, (k < M)%nat -> nth best fl 0 <= nth k fl 0) /\
    (forall k, (k < best)%nat -> nth best fl 0 < nth k fl 0) /\
    (forall k, (k < M)%nat -> exists ls, nth k fl 0 = sumto (length ts) (fun q => nth q ls 0) /\
       forall q t d X y, nth_error ts q = Some t -> tree_depth t d -> depth_rows o rd q X y ->
         cut_loss kd t (Nat.min k (d - 1)) X y (nth q ls 0)) /\
    (forall q t d, nth_error ts q = Some t -> tree_depth t d -> exists t',
       nth_error ts' q = Some t' /\ cut_tree t (Nat.min best (d - 1)) t').
Proof.
  intros kd ts o rd M (NE&W&ST&DR) MX.
  assert (EM : snd (calc_depth_for_forest ts) = M).
  { destruct MX as [M1 (t&v&I&D)]. pose proof (calc_depth_upper ts W t v M I D).
    destruct (calc_depth_attained ts W NE) as (t2&v2&I2&D2). pose proof (M1 _ _ _ I2 D2). lia. }
  assert (FW : forall t, In t ts -> wf_tree t) by (rewrite Forall_forall in W; auto).
  assert (MD : forall t, In t ts -> (max_depth_of t <= M)%nat).
  { intros t I. destruct (proj2 (tree_depth_iff t (FW t I) _) eq_refl) as [_ (t'&v&[<-|[]]&D)].
    destruct MX as [M1 _]. apply (M1 t v); auto. }
  assert (CH : ((d_oob o || d_resample o) && (isNone (d_X_trained o) || isNone (d_y_trained o)))%bool = false).
  { destruct (DR 0%nat) as (X&y&D&_); [destruct ts; [congruence|cbn; lia]|]. eapply rows_checks; eauto. }
  assert (HI : forall q t, In (q, t) (combine (seq 0 (length ts)) ts) -> nth_error ts q = Some t).
  { intros q t I. destruct (In_nth _ _ (O, t) I) as (j&Hj&Ej). rewrite combine_length, seq_length, Nat.min_id in Hj.
    rewrite combine_nth in Ej by apply seq_length. rewrite seq_nth in Ej by auto. inversion Ej; subst. cbn [Nat.add].
    rewrite H1. rewrite (nth_error_nth' ts t Hj). congruence. }
  destruct (trees_ok kd o rd M (combine (seq 0 (length ts)) ts) (repeat 0 M) None) as (fl&i&E&L&V).
  { intros q t I. apply HI in I. pose proof (nth_error_In _ _ I) as IT. split; [auto|]. split; [apply ST; auto|].
    split; [apply ST; auto|]. split; [auto|]. destruct (DR q) as (X&y&D&N1&N2); [apply nth_error_Some; congruence|].
    exists X, y. split; auto. apply rows_data; auto. }
  { apply repeat_length. }
  assert (MP : (0 < M)%nat).
  { destruct ts as [|t0 r]; [congruence|]. pose proof (MD t0 (or_introl eq_refl)). 
    pose proof (depth_pos t0 (FW t0 (or_introl eq_refl)) (proj1 (ST t0 (or_introl eq_refl)))). lia. }
  destruct (argmin_spec fl) as (best&B1&B2&B3&B4); [intros X; rewrite X in L; cbn in L; lia|]. rewrite L in *.
  destruct (mapM_total (truncate_tree best) ts) as (ts'&T1&T2).
  { intros t I. unfold truncate_tree. pose proof (lpv_length t) as LP. pose proof (depth_pos t (FW t I) (proj1 (ST t I))).
    destruct (leaf_predicted_values t); [cbn in LP; lia|eauto]. }
  exists ts', fl, best. split; [|split; [|split; [|split; [|split; [|split; [|split]]]]]]; auto.
  - unfold depth_tune. rewrite CH, EM. change (@n0 R _) with 0. rewrite E. cbn [bind]. rewrite B1. cbn [bind]. rewrite T1. reflexivity.
  - intros k Hk. exists (map (one_loss kd o rd k) (combine (seq 0 (length ts)) ts)). split.
    + rewrite (V k Hk). rewrite nth_repeat_lt by auto. rewrite nsum_sumto. rewrite map_length, combine_length, seq_length, Nat.min_id. lra.
    + intros q t d X y Hq TD D. apply (tree_depth_iff t (FW t (nth_error_In _ _ Hq))) in TD. subst d.
      assert (Lq : (q < length ts)%nat) by (apply nth_error_Some; congruence).
      rewrite nth_map_in with (d := (O, t)) by (rewrite combine_length, seq_length; lia).
      rewrite combine_nth by apply seq_length. rewrite seq_nth by auto. rewrite (nth_error_nth ts q t Hq). cbn [Nat.add].
      unfold one_loss. cbn [fst snd]. pose proof (proj1 (rows_data o rd q X y) D) as HD. rewrite HD.
      pose proof (nth_error_In _ _ Hq) as IT. pose proof (depth_pos t (FW t IT) (proj1 (ST t IT))).
      assert (NXL : X <> [] /\ length y = length X).
      { destruct (DR q Lq) as (X'&y'&D'&N1&N2). apply rows_data in D'. rewrite HD in D'. inversion D'; subst. auto. }
      destruct NXL as [N1 N2]. apply lossk_ok; auto; [apply ST; auto|lia].
  - intros q t d Hq TD. pose proof (FW t (nth_error_In _ _ Hq)) as WF. apply (tree_depth_iff t WF) in TD. subst d.
    destruct (mapM_nth_error _ _ _ T1 q t Hq) as (t'&Q1&Q2). exists t'. split; auto. apply (trunc_ok best t WF t' Q2).
Qed.
(** deepest leaves never keep their own value *)
Lemma p_C38_never_full : forall kd ts (o : depth_opts R) rd ts' fl q t d p v, Forall wf_tree ts ->
  depth_tune (Forest kd ts) o rd = Ok (ts', fl) -> nth_error ts q = Some t -> tree_depth t d ->
  depth_of t v d -> child t p v ->
  exists t' a, nth_error ts' q = Some t' /\ anc t a p /\ nth v (t_value t') [] = nth a (t_value t) [].
Proof.
  intros kd ts o rd ts' fl q t d p v W H Hq TD Dv Ch. unfold depth_tune in H. destruct (_ && _)%bool; [discriminate|].
  apply bind_ok in H. destruct H as ([fl1 i1]&H1&H). apply bind_ok in H. destruct H as (best&H2&H).
  apply bind_ok in H. destruct H as (ts1&H3&H). assert (ts1 = ts') by congruence. subst ts1.
  assert (WF : wf_tree t) by (rewrite Forall_forall in W; apply W; eapply nth_error_In; eauto).
  apply (tree_depth_iff t WF) in TD. subst d.
  destruct (mapM_nth_error _ _ _ H3 q t Hq) as (t'&Q1&Q2).
  destruct (trunc_ok best t WF t' Q2) as (DP&_&C1&C2).
  assert (Hv : (v < size t)%nat) by (eapply depth_lt; eauto).
  destruct (cut_ex t WF (Nat.min best (max_depth_of t - 1)) v Hv) as [a Ca]. exists t', a. split; auto.
  assert (Lv : is_leafb t v = true).
  { destruct (is_leafb t v) eqn:E; auto. exfalso. destruct (nonleaf_children t WF v Hv E) as (l&r&EL&_).
    assert (D2 : depth_of t l (S (max_depth_of t))) by (econstructor; eauto; left; auto).
    pose proof (depth_le_max t WF _ _ D2). lia. }
  split; [|apply C2; auto]. destruct Ca as (e&De&A&Da). rewrite (depth_unique t WF _ _ _ De Dv) in *.
  apply (anc_child t WF p v Ch) in A. destruct A as [->|A]; auto.
  pose proof (depth_unique t WF _ _ _ Da Dv). lia.
Qed.
Lemma p_C38_other : forall (o : depth_opts R) rd, depth_tune OtherObject o rd = Err ValueError.
Proof. reflexivity. Qed.
Lemma p_C38_missing : forall kd ts (o : depth_opts R) rd,
  (d_resample o = true \/ d_X_tune o = None \/ d_y_tune o = None) ->
  (d_X_trained o = None \/ d_y_trained o = None) -> depth_tune (Forest kd ts) o rd = Err TypeError.
Proof.
  intros kd ts o rd H1 H2. unfold depth_tune, d_oob.
  destruct (d_resample o), (d_X_tune o), (d_y_tune o), (d_X_trained o), (d_y_trained o); cbn [isNone orb andb negb]; auto;
    destruct H1 as [?|[?|?]]; destruct H2; discriminate.
Qed.
