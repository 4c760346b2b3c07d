(** L_Torch8: node_spatial_structure_update (C77). *)
From Verif Require Import Base TreeSpec Spec SpecSmooth SpecDepth SpecBox SpecTorch M_Tree M_Gamma M_Smooth M_Box M_More M_Torch M_Pytorch L_Base L_Tree L_TreeModel L_TreeModel2 L_Dist L_Gamma L_Gamma2 L_Grad L_Sgd L_Sgd2 L_Smooth L_Smooth2 L_Smooth4 L_Tune L_Depth L_Depth2 L_Box L_More L_Torch L_Torch2 L_Torch3 L_Torch4 L_Torch5 L_Torch6 L_Torch7.
From Coq Require Import Reals Lra Lia.
Local Open Scope R_scope.

(** ** centers *)

Lemma blocks_len : forall A (f : list (list A)) (ts : list (tree R)), length f = length ts ->
  (forall q t b, nth_error ts q = Some t -> nth_error f q = Some b -> length b = n_leaves t) -> map (@length A) f = map (@n_leaves R) ts.
Proof.
  intros A f. induction f as [|b f IH]; destruct ts as [|t ts]; cbn; intros L H; try discriminate; auto. f_equal.
  - apply (H 0%nat t b); reflexivity.
  - apply IH; [congruence|]. intros q t' b' N1 N2. apply (H (S q) t' b'); auto.
Qed.
Lemma nth_tree_block : forall A (f : list (list A)) (ts : list (tree R)) q t b i d, length f = length ts ->
  (forall q t b, nth_error ts q = Some t -> nth_error f q = Some b -> length b = n_leaves t) ->
  nth_error ts q = Some t -> nth_error f q = Some b -> (i < n_leaves t)%nat -> nth (offset ts q + i) (concat f) d = nth i b d.
Proof.
  intros A f ts q t b i d L H N1 N2 Hi. pose proof (blocks_len A f ts L H) as E.
  assert (Hq : (q < length f)%nat) by (apply nth_error_Some; congruence).
  unfold offset. rewrite <- firstn_map, <- E, firstn_map. rewrite nth_concat; rewrite ?(nth_error_nth _ _ _ N2); auto.
  rewrite (H q t b) by auto. auto.
Qed.

Lemma one_center_ok : forall ts p X c, Forall (@wf_tree R) ts -> Forall (features_ok p) ts -> data_ok p X -> (c < p)%nat ->
  exists v, one_d_center ts X c = Ok v /\ length v = offset ts (length ts) /\
  forall q t, nth_error ts q = Some t -> exists cs, center_tree t X = Ok cs /\
    forall i, (i < n_leaves t)%nat -> nth (offset ts q + i) v 0 = nth c (nth (leaf_id t i) cs []) 0.
Proof.
  intros ts p X c W F D Hc. unfold one_d_center.
  match goal with |- context [mapM ?g ts] => set (g0 := g) end.
  assert (G0 : forall q t, nth_error ts q = Some t -> exists cs, center_tree t X = Ok cs /\ length cs = size t /\
    g0 t = Ok (map (fun r => nth c r 0) (leaf_select t cs))).
  { intros q t N. rewrite Forall_forall in W, F. pose proof (nth_error_In _ _ N) as I0.
    destruct (p_C49_center t p X (W t I0) (F t I0) D) as (bs&cs&_&E&L&_). exists cs. split; auto. split; auto. unfold g0. rewrite E. reflexivity. }
  destruct (mapM_total g0 ts) as (ls&E&L).
  { intros t I0. apply In_nth_error in I0. destruct I0 as (q&N). destruct (G0 q t N) as (cs&_&_&->). eauto. }
  rewrite E. cbn [bind]. eexists. split; [reflexivity|].
  assert (BL : forall q t b, nth_error ts q = Some t -> nth_error ls q = Some b -> length b = n_leaves t).
  { intros q t b N1 N2. destruct (mapM_nth_error g0 ts ls E q t N1) as (b'&N2'&E2). destruct (G0 q t N1) as (cs&_&LC&E3).
    assert (b = map (fun r => nth c r 0) (leaf_select t cs)) by congruence. subst b. rewrite map_length. apply leaf_select_len; auto.
    rewrite Forall_forall in W. apply W. eapply nth_error_In; eauto. }
  split; [rewrite length_concat, (blocks_len _ ls ts L BL); unfold offset; rewrite firstn_all; reflexivity|].
  intros q t N. destruct (G0 q t N) as (cs&E1&LC&E2). exists cs. split; auto. intros i Hi.
  destruct (mapM_nth_error g0 ts ls E q t N) as (b&N2&E3). rewrite (nth_tree_block _ ls ts q t b i 0 L BL N N2 Hi).
  assert (b = map (fun r => nth c r 0) (leaf_select t cs)) by congruence. subst b.
  assert (WF : wf_tree t) by (rewrite Forall_forall in W; apply W; eapply nth_error_In; eauto).
  rewrite nth_map_in with (d := []) by (rewrite leaf_select_len; auto). rewrite leaf_select_nth by auto. reflexivity.
Qed.

Lemma pad_last_nth : forall K (r : list R) k, (0 < length r)%nat -> (length r <= K)%nat -> (k < K)%nat ->
  length (pad_last K r) = K /\ nth k (pad_last K r) 0 = nth (Nat.min k (length r - 1)) r 0.
Proof.
  intros K r k H0 HK Hk. unfold pad_last. split; [rewrite app_length, repeat_length; lia|].
  destruct (Nat.lt_ge_cases k (length r)) as [L|L].
  - rewrite app_nth1 by auto. f_equal. lia.
  - rewrite app_nth2 by auto. rewrite nth_repeat_lt by lia. rewrite Nat.min_r by lia.
    destruct (exists_last (l := r)) as (r'&a&->); [intros ->; cbn in H0; lia|]. rewrite last_last, app_length. cbn [length].
    rewrite app_nth2 by lia. replace (length r' + 1 - 1 - length r')%nat with 0%nat by lia. reflexivity.
Qed.

Lemma up_cap : forall (t : tree R), wf_tree t -> forall k v a, upk t k v a -> upk t (Nat.min k (max_depth_of t)) v a.
Proof.
  intros t WF k v a U. destruct (le_lt_dec k (max_depth_of t)) as [L|L]; [rewrite Nat.min_l by auto; auto|].
  rewrite Nat.min_r by lia. destruct (up_lt t WF _ _ _ U) as (Hv&_). destruct (up_ex t WF (max_depth_of t) v Hv) as (b&Ub).
  destruct (depth_ex t WF v Hv) as (d&D). pose proof (depth_le_max t WF _ _ D).
  pose proof (up_depth t WF _ _ _ U _ D) as D1. pose proof (up_depth t WF _ _ _ Ub _ D) as D2.
  replace (d - k)%nat with 0%nat in D1 by lia. replace (d - max_depth_of t)%nat with 0%nat in D2 by lia.
  apply depth_zero in D1. apply depth_zero in D2. subst. auto.
Qed.

Lemma two_center_ok : forall ts p X c M, Forall (@wf_tree R) ts -> ts <> [] -> Forall (features_ok p) ts -> data_ok p X -> (c < p)%nat -> is_max_depth ts M ->
  exists m, two_d_center ts X (snd (calc_depth_for_forest ts) + 1) c = Ok m /\ length m = offset ts (length ts) /\ rect (S M) m /\
  forall q t, nth_error ts q = Some t -> exists cs, center_tree t X = Ok cs /\
    forall i k a, (i < n_leaves t)%nat -> (k <= M)%nat -> upk t k (leaf_id t i) a ->
      nth k (nth (offset ts q + i) m []) 0 = nth c (nth a cs []) 0.
Proof.
  intros ts p X c M W NE F D Hc MX. rewrite (max_depth_calc ts M W NE MX). replace (M + 1)%nat with (S M) by lia. unfold two_d_center.
  match goal with |- context [mapM ?g ts] => set (g0 := g) end.
  set (rowsof := fun (t : tree R) (cs : mat R) => map (fun ps => pad_last (S M) (map (fun a => nth c (nth a cs []) 0) ps)) (leaf_select t (snd (depth_per_node_plus_parent t)))).
  assert (G0 : forall q t, nth_error ts q = Some t -> exists cs, center_tree t X = Ok cs /\ length cs = size t /\ g0 t = Ok (rowsof t cs)).
  { intros q t N. rewrite Forall_forall in W, F. pose proof (nth_error_In _ _ N) as I0.
    destruct (p_C49_center t p X (W t I0) (F t I0) D) as (bs&cs&_&E&L&_). exists cs. split; auto. split; auto. unfold g0. rewrite E. reflexivity. }
  destruct (mapM_total g0 ts) as (ls&E&L).
  { intros t I0. apply In_nth_error in I0. destruct I0 as (q&N). destruct (G0 q t N) as (cs&_&_&->). eauto. }
  rewrite E. cbn [bind]. eexists. split; [reflexivity|].
  assert (TW : forall q t, nth_error ts q = Some t -> wf_tree t) by (intros q t N; rewrite Forall_forall in W; apply W; eapply nth_error_In; eauto).
  assert (BL : forall q t b, nth_error ts q = Some t -> nth_error ls q = Some b -> length b = n_leaves t).
  { intros q t b N1 N2. destruct (mapM_nth_error g0 ts ls E q t N1) as (b'&N2'&E2). destruct (G0 q t N1) as (cs&_&LC&E3).
    assert (b = rowsof t cs) by congruence. subst b. unfold rowsof. rewrite map_length. apply leaf_select_len; eauto.
    apply (parent_mat_correct t (TW q t N1)). }
  assert (MD : forall q t, nth_error ts q = Some t -> (max_depth_of t <= M)%nat).
  { intros q t N. destruct (proj2 (tree_depth_iff t (TW q t N) _) eq_refl) as [_ (t'&v&[<-|[]]&D2)]. destruct MX as [M1 _]. apply (M1 t v); auto. eapply nth_error_In; eauto. }
  assert (RV : forall q t cs i k a, nth_error ts q = Some t -> (i < n_leaves t)%nat -> (k <= M)%nat -> upk t k (leaf_id t i) a ->
    length (nth i (rowsof t cs) []) = S M /\ nth k (nth i (rowsof t cs) []) 0 = nth c (nth a cs []) 0).
  { intros q t cs i k a N Hi Hk U. pose proof (TW q t N) as WF. destruct (parent_mat_correct t WF) as (LP&PC).
    unfold rowsof. rewrite nth_map_in with (d := []) by (rewrite leaf_select_len; auto). rewrite leaf_select_nth by auto.
    destruct (PC (leaf_id t i) (leaf_id_lt t i Hi)) as (PL&PU). pose proof (MD q t N).
    set (ps := nth (leaf_id t i) (snd (depth_per_node_plus_parent t)) []) in *.
    destruct (pad_last_nth (S M) (map (fun a => nth c (nth a cs []) 0) ps) k) as (A1&A2); rewrite ?map_length; try lia.
    split; [exact A1|]. rewrite A2, map_length, PL. rewrite nth_map_in with (d := 0%nat) by lia.
    replace (max_depth_of t + 1 - 1)%nat with (max_depth_of t) by lia.
    rewrite (up_unique t WF _ _ _ _ (PU (Nat.min k (max_depth_of t)) ltac:(lia)) (up_cap t WF k _ a U)). reflexivity. }
  split; [rewrite length_concat, (blocks_len _ ls ts L BL); unfold offset; rewrite firstn_all; reflexivity|].
  split.
  - intros r Hr. apply in_concat in Hr. destruct Hr as (b&Hb&Hr). apply In_nth_error in Hb. destruct Hb as (q&N2).
    assert (Hq : (q < length ts)%nat) by (rewrite <- L; apply nth_error_Some; congruence).
    destruct (nth_error ts q) as [t|] eqn:N; [|apply nth_error_None in N; lia].
    destruct (mapM_nth_error g0 ts ls E q t N) as (b'&N2'&E2). destruct (G0 q t N) as (cs&_&LC&E3).
    apply (In_nth _ _ []) in Hr. destruct Hr as (i&Hi&<-). rewrite (BL q t b N N2) in Hi.
    assert (b = rowsof t cs) by congruence. subst b.
    apply (RV q t cs i 0%nat (leaf_id t i) N Hi); [lia|]. constructor. apply leaf_id_lt; auto.
  - intros q t N. destruct (G0 q t N) as (cs&E1&LC&E2). exists cs. split; auto. intros i k a Hi Hk U.
    destruct (mapM_nth_error g0 ts ls E q t N) as (b&N2&E3). rewrite (nth_tree_block _ ls ts q t b i [] L BL N N2 Hi).
    assert (b = rowsof t cs) by congruence. subst b. apply (RV q t cs i k a N Hi Hk U).
Qed.

(** ** the dictionaries *)

Lemma dict_set_new : forall A (d : dict A) k v, (forall x, ~ In (k, x) d) -> dict_set d k v = d ++ [(k, v)].
Proof.
  induction d as [|[k' v'] d IH]; intros k v H; auto. cbn [dict_set app]. destruct (key_eq_dec k k') as [->|NK].
  - exfalso. apply (H v'). left. reflexivity.
  - rewrite IH; auto. intros x Hx. apply (H x). right. auto.
Qed.

Lemma dict_loop : forall A (f : nat -> result A) n s (d : dict A), (forall c, (s <= c < s + n)%nat -> exists v, f c = Ok v) ->
  (forall c v, (s <= c)%nat -> ~ In (Center c, v) d) ->
  exists vs, mapM f (seq s n) = Ok vs /\ length vs = n /\
    foldM (fun a c => do v <- f c; Ok (dict_set a (Center c) v)) (seq s n) d = Ok (d ++ combine (map Center (seq s n)) vs).
Proof.
  intros A f n. induction n as [|n IH]; intros s d HF HD.
  - exists []. cbn. rewrite app_nil_r. auto.
  - destruct (HF s ltac:(lia)) as (v&Ev). cbn [seq mapM foldM]. rewrite Ev. cbn [bind].
    destruct (IH (S s) (dict_set d (Center s) v)) as (vs&E1&E2&E3).
    + intros c Hc. apply HF. lia.
    + intros c x Hc Hx. rewrite dict_set_new in Hx by (intros y; apply HD; lia). apply in_app_or in Hx. destruct Hx as [Hx|[Hx|[]]]; [apply (HD c x); auto; lia|].
      assert (c = s) by congruence. lia.
    + exists (v :: vs). rewrite E1. cbn [bind]. split; auto. split; [cbn; lia|]. rewrite E3, dict_set_new by (intros y; apply HD; lia).
      rewrite <- app_assoc. reflexivity.
Qed.

(** ** boxes *)
Lemma hull_unique : forall p X b b', hull p X b -> hull p X b' -> forall f, (f < p)%nat -> lower b f = lower b' f /\ upper b f = upper b' f.
Proof.
  intros p X b b' (_&A1&A2) (_&B1&B2) f Hf. destruct (A2 f Hf) as ((x1&I1&E1)&(x2&I2&E2)). destruct (B2 f Hf) as ((z1&J1&F1)&(z2&J2&F2)).
  pose proof (A1 z1 J1 f Hf). pose proof (A1 z2 J2 f Hf). pose proof (B1 x1 I1 f Hf). pose proof (B1 x2 I2 f Hf). lra.
Qed.
Lemma boxes_unique : forall (t : tree R) p X bs bs', wf_tree t -> node_boxes p t X bs -> node_boxes p t X bs' ->
  forall v, (v < size t)%nat -> forall f, (f < p)%nat -> lower (nth v bs []) f = lower (nth v bs' []) f /\ upper (nth v bs []) f = upper (nth v bs' []) f.
Proof.
  intros t p X bs bs' WF (L&H&C) (L'&H'&C'). refine (L_Tree.tree_ind t WF (fun v => forall f, (f < p)%nat -> lower (nth v bs []) f = lower (nth v bs' []) f /\ upper (nth v bs []) f = upper (nth v bs' []) f) _ _).
  - apply (hull_unique p X); auto.
  - intros v c CH IH f Hf.
    assert (NL : exists l r, lc t v = Z.of_nat l /\ rc t v = Z.of_nat r).
    { pose proof (child_lt t WF v c CH) as LT. destruct (is_leafb t v) eqn:LF; [exfalso; eapply (leaf_no_child t WF); eauto; lia|].
      destruct (nonleaf_children t WF v ltac:(lia) LF) as (l&r&E1&E2&_). eauto. }
    destruct NL as (l&r&E1&E2). destruct (C v l r E1 E2) as ((_&CL)&(_&CR)). destruct (C' v l r E1 E2) as ((_&CL')&(_&CR')).
    destruct (IH f Hf) as (I1&I2).
    destruct (child_two t v c l r E1 E2 CH) as [->| ->].
    + destruct (CL f Hf) as (->&->). destruct (CL' f Hf) as (->&->). rewrite I1, I2. auto.
    + destruct (CR f Hf) as (->&->). destruct (CR' f Hf) as (->&->). rewrite I1, I2. auto.
Qed.
Lemma center_mid : forall (t : tree R) p X cs bs v c, wf_tree t -> features_ok p t -> data_ok p X -> center_tree t X = Ok cs -> node_boxes p t X bs ->
  (v < size t)%nat -> (c < p)%nat -> nth c (nth v cs []) 0 = mid (nth v bs []) c.
Proof.
  intros t p X cs bs v c WF F D E NB Hv Hc. destruct (p_C49_center t p X WF F D) as (bs2&cs2&B2&E2&_&P).
  assert (cs2 = cs) by congruence. subst cs2. destruct (P v Hv) as (_&P1&_). rewrite P1 by auto.
  destruct (p_C49_boxes t p X WF F D) as (bs3&B3&NB3). assert (bs3 = bs2) by congruence. subst bs3.
  unfold mid. destruct (boxes_unique t p X bs bs2 WF NB NB3 v Hv c Hc) as (->&->). reflexivity.
Qed.

(** C77 *)
Lemma one_center_spec : forall ts p X c, Forall (@wf_tree R) ts -> Forall (features_ok p) ts -> data_ok p X -> (c < p)%nat ->
  exists v, one_d_center ts X c = Ok v /\ leaf_centers p ts X c v.
Proof.
  intros ts p X c W F D Hc. destruct (one_center_ok ts p X c W F D Hc) as (v&E&L&P). exists v. split; auto. split; auto.
  intros q t bs i N NB Hi. destruct (P q t N) as (cs&E1&P1). rewrite P1 by auto. pose proof (nth_error_In _ _ N) as IN. rewrite Forall_forall in W, F.
  apply (center_mid t p X cs bs); auto. apply leaf_id_lt; auto.
Qed.
Lemma two_center_spec : forall ts p X c M, Forall (@wf_tree R) ts -> ts <> [] -> Forall (features_ok p) ts -> data_ok p X -> (c < p)%nat -> is_max_depth ts M ->
  exists m, two_d_center ts X (snd (calc_depth_for_forest ts) + 1) c = Ok m /\ path_centers p ts X M c m.
Proof.
  intros ts p X c M W NE F D Hc MX. destruct (two_center_ok ts p X c M W NE F D Hc MX) as (v&E&L&RC&P). exists v. split; auto. split; auto. split; auto.
  intros q t bs i k a N NB Hi Hk U. destruct (P q t N) as (cs&E1&P1). rewrite (P1 i k a) by auto. pose proof (nth_error_In _ _ N) as IN. rewrite Forall_forall in W, F.
  apply (center_mid t p X cs bs); auto. apply (up_lt t (W t IN) _ _ _ U).
Qed.

Lemma center_dict : forall A (f : nat -> result A) p (P : nat -> A -> Prop) (d : dict A), no_centers d -> (forall c, (c < p)%nat -> exists v, f c = Ok v /\ P c v) ->
  exists d', foldM (fun a c => do v <- f c; Ok (dict_set a (Center c) v)) (seq 0 p) d = Ok d' /\ with_centers p P d d'.
Proof.
  intros A f p P d ND H. destruct (dict_loop A f p 0 d) as (vs&E1&E2&E3).
  - intros c Hc. destruct (H c ltac:(lia)) as (v&E&_). eauto.
  - intros c v _. apply ND.
  - rewrite E3. eexists. split; [reflexivity|]. exists vs. split; auto. split; [reflexivity|]. intros c v Hv.
    assert (Hc : (c < p)%nat) by (rewrite <- E2; apply nth_error_Some; congruence). destruct (H c Hc) as (v'&E&PV).
    destruct (mapM_nth_error _ _ _ E1 c c) as (v2&N2&E4).
    { rewrite (nth_error_nth' _ 0%nat) by (rewrite seq_length; auto). rewrite seq_nth by auto. reflexivity. }
    assert (v' = v) by congruence. subst v'. auto.
Qed.

Lemma p_C77 : forall ts p X M (one : option (list (key * list R))) (two : option (list (key * list (list R)))), Forall (@wf_tree R) ts -> ts <> [] ->
  Forall (features_ok p) ts -> data_ok p X -> is_max_depth ts M -> (forall d, one = Some d -> no_centers d) -> (forall d, two = Some d -> no_centers d) ->
  match one, two with
  | None, None => node_spatial_structure_update ts X one two = Err ValueError
  | _, _ => exists one' two', node_spatial_structure_update ts X one two = Ok (one', two') /\
      match one with None => one' = None | Some d => exists d', one' = Some d' /\ with_centers p (leaf_centers p ts X) d d' end /\
      match two with None => two' = None | Some d => exists d', two' = Some d' /\ with_centers p (path_centers p ts X M) d d' end
  end.
Proof.
  intros ts p X M one two W NE F D MX H1 H2. unfold node_spatial_structure_update. rewrite (ncols_ok p X D).
  assert (P1 : forall d, one = Some d -> exists d', foldM (fun a c => do v <- one_d_center ts X c; Ok (dict_set a (Center c) v)) (seq 0 p) d = Ok d' /\ with_centers p (leaf_centers p ts X) d d').
  { intros d E. apply center_dict; auto. intros c Hc. apply one_center_spec; auto. }
  assert (P2 : forall d, two = Some d -> exists d', foldM (fun a c => do v <- two_d_center ts X (snd (calc_depth_for_forest ts) + 1) c; Ok (dict_set a (Center c) v)) (seq 0 p) d = Ok d' /\ with_centers p (path_centers p ts X M) d d').
  { intros d E. apply center_dict; auto. intros c Hc. apply two_center_spec; auto. }
  destruct one as [d1|], two as [d2|].
  - destruct (P1 d1 eq_refl) as (e1&E1&C1). destruct (P2 d2 eq_refl) as (e2&E2&C2). rewrite E1. cbn [bind]. rewrite E2. cbn [bind]. eexists. eexists. split; [reflexivity|]. split; eauto.
  - destruct (P1 d1 eq_refl) as (e1&E1&C1). rewrite E1. cbn [bind]. eexists. eexists. split; [reflexivity|]. split; eauto.
  - destruct (P2 d2 eq_refl) as (e2&E2&C2). cbn [bind]. rewrite E2. cbn [bind]. eexists. eexists. split; [reflexivity|]. split; eauto.
  - reflexivity.
Qed.
