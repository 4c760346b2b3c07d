(** L_Tight: lemmas about refused arguments and overwritten dictionary entries (C62, C68, C69, C77, C80). *)
From Verif Require Import Base TreeSpec Spec SpecSmooth SpecDepth SpecBox SpecTorch M_Tree M_Gamma M_Levels M_Prox M_Grad M_Sgd M_Smooth M_Box M_More M_Torch M_Pytorch M_Clean M_Level M_Prune M_Oob SpecTight.
From Verif Require Import L_Base L_Tree L_Smooth4 L_Grad L_Sgd L_Prox L_Gamma2 L_Smooth L_More L_Depth2 L_Torch2 L_Torch3 L_Torch4 L_Torch7 L_Torch8 L_Clean3 L_Box L_Torch8 .
From Coq Require Import Reals Lra Lia.
Local Open Scope R_scope.

(** ** the start of the descent of smooth_clean *)
Lemma tol_eq : npow (1 / INR 10) 8 + npow (1 / INR 10) 5 = / 100000000 + / 100000.
Proof. rewrite (npow_pow (1 / INR 10) 8), (npow_pow (1 / INR 10) 5). replace (INR 10) with 10 by (cbn; ring). field. Qed.

Lemma allclose1_spec : forall x : R, allclose1 x = true <-> Rabs (x - 1) <= / 100000000 + / 100000.
Proof.
  intros x. unfold allclose1, nleb. rn. rewrite !tol_eq.
  destruct (Rltb_spec (/ 100000000 + / 100000) (x - 1)) as [A|A], (Rltb_spec (/ 100000000 + / 100000) (1 - x)) as [B|B]; cbn; split; intros H; try discriminate; auto.
  - exfalso. lra.
  - exfalso. pose proof (Rle_abs (x - 1)). lra.
  - exfalso. pose proof (Rle_abs (- (x - 1))) as U. rewrite Rabs_Ropp in U. lra.
  - apply Rabs_le. lra.
Qed.

Lemma start_check : forall (P : clean_problem R) cons init,
  (negb (Nat.eqb (ncols (c_Gamma P)) (length init)) || (cons && (negb (allclose1 (nsum init)) || existsb (fun x => nltb x n0) init)))%bool = false <->
  start_fine (ncols (c_Gamma P)) cons init.
Proof.
  intros P cons init. unfold start_fine. rewrite Bool.orb_false_iff, Bool.negb_false_iff, Nat.eqb_eq. apply and_iff_compat_l.
  destruct cons; cbn [andb]; [|split; auto; intros _ H; discriminate].
  rewrite Bool.orb_false_iff, Bool.negb_false_iff, allclose1_spec. split.
  - intros [A B] _. split; auto. intros x Hx. destruct (Rle_dec 0 x); auto. exfalso.
    assert (existsb (fun x : R => nltb x n0) init = true); [|congruence]. apply existsb_exists. exists x. split; auto.
    change (@nltb R _ x n0) with (Rltb x 0). destruct (Rltb_spec x 0); [auto|lra].
  - intros H. destruct (H eq_refl) as [A B]. split; auto. apply Bool.not_true_is_false. intros E. apply existsb_exists in E. destruct E as (x&Hx&E).
    change (@nltb R _ x n0) with (Rltb x 0) in E. destruct (Rltb_spec x 0); [|discriminate]. specialize (B x Hx). lra.
Qed.

Lemma p_start_refused : forall (P : clean_problem R) init n_obs full t cons ad draws, ~ start_fine (ncols (c_Gamma P)) cons init ->
  stocastic_grad_descent_clean P init n_obs full t cons ad draws = Err TypeError.
Proof.
  intros P init n_obs full t cons ad draws H. unfold stocastic_grad_descent_clean.
  destruct (negb (Nat.eqb (ncols (c_Gamma P)) (length init))) eqn:E1; auto.
  destruct (cons && (negb (allclose1 (nsum init)) || existsb (fun x => nltb x n0) init))%bool eqn:E2; auto.
  exfalso. apply H. apply start_check. rewrite E1, E2. reflexivity.
Qed.
Lemma p_start_taken : forall (P : clean_problem R) init n_obs t cons ad, start_fine (ncols (c_Gamma P)) cons init ->
  stocastic_grad_descent_clean P init n_obs false t cons ad [] = Ok (init, init, []).
Proof.
  intros P init n_obs t cons ad H. unfold stocastic_grad_descent_clean. apply start_check in H. apply Bool.orb_false_iff in H. destruct H as [-> ->]. reflexivity.
Qed.

(** ** dictionary of depths *)
Lemma p_missing_depths : forall (ts : list (tree R)) X dd, (length dd < length ts)%nat -> forall V, make_Vt_mat ts X (Some dd) <> Ok V.
Proof.
  intros ts X dd H V E. unfold make_Vt_mat in E.
  assert (HN : exists t, nth_error ts (length dd) = Some t).
  { destruct (nth_error ts (length dd)) eqn:N; eauto. apply nth_error_None in N. lia. }
  destruct HN as (t&N).
  destruct (mapM_nth_error _ _ _ E (length dd) (length dd, t)) as (r&_&E2).
  { assert (L : (length dd < length (combine (seq 0 (length ts)) ts))%nat) by (rewrite combine_length, seq_length; lia).
    rewrite (nth_error_nth' _ (0%nat, t) L), combine_nth by (rewrite seq_length; reflexivity). rewrite seq_nth by auto. rewrite (nth_error_nth _ _ _ N). reflexivity. }
  cbn [fst snd] in E2. assert (N0 : nth_error dd (length dd) = None) by (apply nth_error_None; lia). rewrite N0 in E2. discriminate.
Qed.
Lemma p_no_depths : forall (ts : list (tree R)) X, ts <> [] -> make_Vt_mat ts X (Some []) = Err KeyError.
Proof. intros [|t ts] X H; [congruence|]. reflexivity. Qed.

(** ** dictionaries *)
Lemma dict_set_in : forall A (d : M_Pytorch.dict A) k v, NoDup (map fst d) ->
  NoDup (map fst (M_Pytorch.dict_set d k v)) /\ forall k' v', In (k', v') (M_Pytorch.dict_set d k v) <-> (k' = k /\ v' = v) \/ (k' <> k /\ In (k', v') d).
Proof.
  induction d as [|[k0 v0] d IH]; intros k v ND.
  - cbn. split; [constructor; [intros []|constructor]|]. intros k' v'. split.
    + intros [E|[]]. left. split; congruence.
    + intros [[-> ->]|[_ []]]. auto.
  - cbn [map fst] in ND. apply NoDup_cons_iff in ND. destruct ND as [NI ND]. cbn [M_Pytorch.dict_set]. destruct (key_eq_dec k k0) as [->|NK].
    + split; [cbn; constructor; auto|]. intros k' v'. cbn [In]. split.
      * intros [E|E]; [left; split; congruence|]. right. split; auto. intros ->. apply NI. apply (in_map fst) in E. auto.
      * intros [[-> ->]|[N [E|E]]]; auto. congruence.
    + destruct (IH k v ND) as [A0 B]. split.
      * cbn. constructor; auto. intros H. apply in_map_iff in H. destruct H as ([k1 v1]&E&H). cbn in E. subst k1. apply B in H. destruct H as [[-> _]|[_ H]]; [congruence|].
        apply NI. apply (in_map fst) in H. auto.
      * intros k' v'. cbn [In]. rewrite B. split.
        -- intros [E|[E|[N E]]]; auto. assert (k' = k0) by congruence. right. split; [congruence|auto].
        -- intros [E|[N [E|E]]]; auto.
Qed.

Lemma dict_loop_in : forall A (f : nat -> result A) (P : nat -> A -> Prop) n s (d : M_Pytorch.dict A), NoDup (map fst d) ->
  (forall c, (s <= c < s + n)%nat -> exists v, f c = Ok v /\ P c v) ->
  exists d', foldM (fun a c => do v <- f c; Ok (M_Pytorch.dict_set a (Center c) v)) (seq s n) d = Ok d' /\ NoDup (map fst d') /\
    (forall k, (forall c, (s <= c < s + n)%nat -> k <> Center c) -> forall v, In (k, v) d' <-> In (k, v) d) /\
    (forall c, (s <= c < s + n)%nat -> exists v, P c v /\ forall v', In (Center c, v') d' <-> v' = v).
Proof.
  intros A f P n. induction n as [|n IH]; intros s d ND HF.
  - exists d. split; [reflexivity|]. split; auto. split; [tauto|]. intros c Hc. lia.
  - destruct (HF s ltac:(lia)) as (v&Ev&Pv). cbn [seq foldM]. rewrite Ev. cbn [bind].
    destruct (dict_set_in A d (Center s) v ND) as [ND1 D1].
    destruct (IH (S s) (M_Pytorch.dict_set d (Center s) v) ND1) as (d'&E&ND2&O&C). { intros c Hc. apply HF. lia. }
    exists d'. split; auto. split; auto. split.
    + intros k Hk v'. rewrite O by (intros c Hc; apply Hk; lia). rewrite D1. pose proof (Hk s ltac:(lia)). intuition.
    + intros c Hc. destruct (Nat.eq_dec c s) as [->|NC]; [|apply C; lia].
      exists v. split; auto. intros v'. rewrite O by (intros c' Hc' EE; injection EE; lia). rewrite D1. intuition.
Qed.

Lemma center_dict_in : forall A (f : nat -> result A) p (P : nat -> A -> Prop) (d : M_Pytorch.dict A), NoDup (map fst d) -> (forall c, (c < p)%nat -> exists v, f c = Ok v /\ P c v) ->
  exists d', foldM (fun a c => do v <- f c; Ok (M_Pytorch.dict_set a (Center c) v)) (seq 0 p) d = Ok d' /\ overwritten p P d d'.
Proof.
  intros A f p P d ND H. destruct (dict_loop_in A f P p 0 d ND) as (d'&E&N&O&C).
  - intros c Hc. apply H. lia.
  - exists d'. split; auto. split; auto. split.
    + intros k Hk. apply O. intros c Hc. apply Hk. lia.
    + intros c Hc. apply C. lia.
Qed.

Lemma p_overwrite : forall ts p X M (d1 : list (key * list R)) (d2 : list (key * list (list R))), Forall (@wf_tree R) ts -> ts <> [] ->
  Forall (features_ok p) ts -> data_ok p X -> is_max_depth ts M -> NoDup (map fst d1) -> NoDup (map fst d2) ->
  exists d1' d2', node_spatial_structure_update ts X (Some d1) (Some d2) = Ok (Some d1', Some d2') /\
    overwritten p (leaf_centers p ts X) d1 d1' /\ overwritten p (path_centers p ts X M) d2 d2'.
Proof.
  intros ts p X M d1 d2 W NE F D MX N1 N2. unfold node_spatial_structure_update. rewrite (ncols_ok p X D).
  destruct (center_dict_in _ (fun c => one_d_center ts X c) p (leaf_centers p ts X) d1 N1) as (e1&E1&C1); [intros c Hc; apply one_center_spec; auto|].
  destruct (center_dict_in _ (fun c => two_d_center ts X (snd (calc_depth_for_forest ts) + 1) c) p (path_centers p ts X M) d2 N2) as (e2&E2&C2); [intros c Hc; apply two_center_spec; auto|].
  rewrite E1. cbn [bind]. rewrite E2. cbn [bind]. eauto.
Qed.

(** ** shapes that do not match *)
Lemma bop_mismatch : forall e (f : R -> R -> R) a b, length a <> length b -> length a <> 1%nat -> length b <> 1%nat ->
  bop e f (of_list a) (of_list b) = Err e.
Proof.
  intros e f a b N A B. unfold bop, bcast. cbn [sh of_list rev app bcast_rev bind].
  apply Nat.eqb_neq in N, A, B. rewrite N, A, B. reflexivity.
Qed.

(** ** rows of _append_oob_values *)
Lemma take_rows_err : forall A (l : list A) idx, (exists i, In i idx /\ (length l <= i)%nat) -> take_rows l idx = Err IndexError.
Proof.
  intros A l idx (i&Hi&L). unfold take_rows. eapply mapM_err; [|exact Hi|].
  - intros y e' E. cbv beta in E. destruct (nth_error l y); cbn in E; congruence.
  - cbv beta. apply nth_error_None in L. rewrite L. reflexivity.
Qed.

(** ** features beyond the columns *)
Lemma nth_upd_len : forall A (p : nat) (st : list (list A)) i x, (forall v, (length (nth v st []) <= p)%nat) -> (length x <= p)%nat ->
  forall v, (length (nth v (upd st i x) []) <= p)%nat.
Proof.
  intros A p st i x H HX v. destruct (Nat.eq_dec v i) as [->|N].
  - destruct (le_lt_dec (length st) i) as [L|L]; [rewrite upd_oob by auto; apply H|rewrite nth_upd_eq by auto; auto].
  - rewrite nth_upd_neq by auto. apply H.
Qed.
Lemma anc_down : forall (t : tree R) v w, wf_tree t -> anc t v w -> v = w \/ exists c, child t v c /\ anc t c w.
Proof.
  intros t v w WF H. induction H as [v Hv|a p c A IH C].
  - auto.
  - right. destruct IH as [->|(d&D1&D2)].
    + exists c. split; auto. apply anc_refl. apply (child_lt t WF p c C).
    + exists d. split; auto. eapply anc_step; eauto.
Qed.

Lemma bb_from : forall p (t : tree R), wf_tree t -> forall fuel st v, (v < size t)%nat -> (size t <= fuel + v)%nat -> (forall u, (length (nth u st []) <= p)%nat) ->
  match bound_box_from fuel t st v with
  | Ok st' => (forall u, (length (nth u st' []) <= p)%nat) /\ forall w, anc t v w -> is_leafb t w = false -> (nth w (t_feature t) 0 < p)%nat
  | Err e => e = IndexError
  end.
Proof.
  intros p t WF. induction fuel as [|fu IH]; intros st v Hv HF HL; [lia|]. cbn [bound_box_from].
  destruct (Z.eqb (lc t v) (-1)) eqn:E.
  - split; auto. intros w A LF. exfalso. destruct (anc_down t v w WF A) as [<-|(c&C&_)].
    + unfold is_leafb in LF. congruence.
    + eapply (leaf_no_child t WF); [|exact C]. unfold is_leafb. auto.
  - assert (NL : is_leafb t v = false) by exact E.
    destruct (nonleaf_children t WF v Hv NL) as (l&r&E1&E2&_).
    pose proof (child_lt t WF v l (or_introl E1)) as L1. pose proof (child_lt t WF v r (or_intror E2)) as L2.
    rewrite E1, E2, !Nat2Z.id.
    destruct (Nat.leb (length (nth v st [])) (nth v (t_feature t) 0%nat)) eqn:E3; [reflexivity|]. apply Nat.leb_gt in E3.
    set (x := nth v (t_thresh t) n0). set (f := nth v (t_feature t) 0%nat) in *.
    assert (HL1 : forall u, (length (nth u (upd st l (cut_above (nth v st []) f x)) []) <= p)%nat).
    { apply nth_upd_len; auto. unfold cut_above. rewrite upd_length. apply HL. }
    pose proof (IH _ l ltac:(lia) ltac:(lia) HL1) as H1. destruct (bound_box_from fu t (upd st l (cut_above (nth v st []) f x)) l) as [st1|e1]; [|exact H1].
    destruct H1 as [A1 B1]. cbn [bind].
    assert (HL2 : forall u, (length (nth u (upd st1 r (cut_below (nth v st1 []) f x)) []) <= p)%nat).
    { apply nth_upd_len; auto. unfold cut_below. rewrite upd_length. apply A1. }
    pose proof (IH _ r ltac:(lia) ltac:(lia) HL2) as H2. destruct (bound_box_from fu t (upd st1 r (cut_below (nth v st1 []) f x)) r) as [st2|e2]; [|exact H2].
    destruct H2 as [A2 B2]. split; auto. intros w A LF. destruct (anc_down t v w WF A) as [<-|(c&C&AC)].
    + specialize (HL v). fold f. lia.
    + destruct (child_two t v c l r E1 E2 C) as [->| ->]; auto.
Qed.

Lemma p_box_errors : forall (t : tree R) p X, wf_tree t -> data_ok p X -> ~ features_ok p t ->
  bound_box_tree t X = Err IndexError /\ center_tree t X = Err IndexError.
Proof.
  intros t p X WF D NF. assert (B : bound_box_tree t X = Err IndexError).
  { unfold bound_box_tree. destruct X as [|r0 X0] eqn:EX; [destruct D as [D _]; congruence|]. rewrite <- EX in *. clear EX r0 X0.
    assert (DB : exists b, data_box X = Ok b /\ (length b <= p)%nat).
    { unfold data_box. destruct (mapM_total (fun f => let c := map (fun r => nth f r n0) X in do lo <- nminimum c; do hi <- nmaximum c; Ok (lo, hi)) (seq 0 (ncols X))) as (b&E&LE).
      - intros f _. cbv zeta. destruct X as [|r X]; [destruct D; congruence|]. cbn. eauto.
      - exists b. split; auto. rewrite LE, seq_length. rewrite (ncols_ok p X D). lia. }
    destruct DB as (b&->&LB). cbn [bind].
    pose proof (bb_from p t WF (size t) (upd (repeat (repeat (n0, n0) (ncols X)) (size t)) 0 b) 0 (wf_pos t WF) ltac:(lia)) as H.
    assert (HL : forall u, (length (nth u (upd (repeat (repeat (@n0 R _, @n0 R _) (ncols X)) (size t)) 0 b) []) <= p)%nat).
    { apply nth_upd_len; auto. intros v. destruct (le_lt_dec (size t) v) as [L|L].
      - rewrite nth_overflow by (rewrite repeat_length; auto). cbn. lia.
      - rewrite nth_repeat_lt by auto. rewrite repeat_length, (ncols_ok p X D). lia. }
    specialize (H HL). destruct (bound_box_from _ _ _ _) as [st'|e]; [|congruence]. exfalso. apply NF. intros v Hv LF. apply H; auto. apply (anc_root t WF). auto. }
  split; auto. unfold center_tree. rewrite B. reflexivity.
Qed.

(** C69: dictionaries of two forests *)
Lemma mapM_one_err : forall {A B} (f : A -> result B) e l, (forall x, In x l -> f x = Err e \/ exists y, f x = Ok y) ->
  (exists x, In x l /\ f x = Err e) -> mapM f l = Err e.
Proof.
  intros A B f e. induction l as [|a l IH]; intros H (x&Hx&E); [contradiction|]. cbn [mapM].
  destruct (H a (or_introl eq_refl)) as [EA|(y&EA)]; rewrite EA; cbn [bind]; auto.
  rewrite IH; auto; [intros z Hz; apply H; right; auto|]. destruct Hx as [<-|Hx]; [congruence|]. eauto.
Qed.
Lemma mapM_all_ok : forall {A B} (f : A -> result B) l, (forall x, In x l -> exists y, f x = Ok y) -> exists r, mapM f l = Ok r.
Proof.
  intros A B f. induction l as [|a l IH]; intros H; cbn [mapM]; [eauto|].
  destruct (H a (or_introl eq_refl)) as (y&->). destruct IH as (r&->); [intros; apply H; right; auto|]. cbn [bind]. eauto.
Qed.
Lemma mapM_fst : forall {B} (f : nat -> result B) l r, mapM (fun l => do ms <- f l; Ok (l, ms)) l = Ok r -> map fst r = l.
Proof.
  intros B f. induction l as [|a l IH]; intros r H; cbn [mapM] in H; [injection H as <-; auto|].
  destruct (f a); cbn [bind] in H; [|discriminate]. destruct (mapM _ l) eqn:E; cbn [bind] in H; [|discriminate]. injection H as <-. cbn [map fst]. f_equal. auto.
Qed.
Lemma in_combine_nth : forall {A B} (l : list A) (m : list B) a b, In (a, b) (combine l m) <-> exists i, nth_error l i = Some a /\ nth_error m i = Some b.
Proof.
  intros A B. induction l as [|x l IH]; intros [|y m] a b; cbn [combine In].
  - split; [contradiction|]. intros ([|i]&H&_); discriminate.
  - split; [contradiction|]. intros ([|i]&H&_); discriminate.
  - split; [contradiction|]. intros ([|i]&_&H); discriminate.
  - rewrite IH. split.
    + intros [E|(i&H1&H2)]; [injection E as -> ->; exists O; auto|exists (S i); auto].
    + intros ([|i]&H1&H2); cbn [nth_error] in *; [left; congruence|right; eauto].
Qed.
Lemma p_partners : forall dn d (Vn V : list (M_Level.dict (list (list nat)))) m, length Vn = length V -> lookup 0 d <> None -> lookup 0 dn <> None ->
  let missing := exists l i a b, (l < m)%nat /\ nth_error (dn :: Vn) i = Some a /\ nth_error (d :: V) i = Some b /\ lookup l b <> None /\ lookup l a = None in
  (missing -> make_Ut_prime (dn :: Vn) (d :: V) (Some m) = Err KeyError) /\
  (~ missing -> exists U, make_Ut_prime (dn :: Vn) (d :: V) (Some m) = Ok U /\ map fst U = seq 0 m).
Proof.
  intros dn d Vn V m L D DN missing. unfold make_Ut_prime. cbn [length]. rewrite L, Nat.eqb_refl. cbn [negb].
  destruct (lookup 0 d) as [m0|]; [|congruence]. destruct (lookup 0 dn) as [mn0|]; [|congruence].
  set (f := fun l => mapM (fun vw : M_Level.dict (list (list nat)) * M_Level.dict (list (list nat)) => match lookup l (snd vw) with
     | None => Ok (repeat (repeat O (length m0)) (length mn0)) | Some m1 => match lookup l (fst vw) with None => Err KeyError | Some mn => Ok (dot_t mn m1) end end) (combine (dn :: Vn) (d :: V))).
  change (mapM _ (seq 0 m)) with (mapM (fun l => do ms <- f l; Ok (l, ms)) (seq 0 m)).
  assert (F1 : forall l, (exists i a b, nth_error (dn :: Vn) i = Some a /\ nth_error (d :: V) i = Some b /\ lookup l b <> None /\ lookup l a = None) -> f l = Err KeyError).
  { intros l (i&a&b&Na&Nb&Lb&La). unfold f. apply mapM_one_err.
    - intros [a' b'] _. cbn [fst snd]. destruct (lookup l b'); [|eauto]. destruct (lookup l a'); eauto.
    - exists (a, b). split; [apply in_combine_nth; eauto|]. cbn [fst snd]. destruct (lookup l b); [|congruence]. rewrite La. auto. }
  assert (F2 : forall l, ~ (exists i a b, nth_error (dn :: Vn) i = Some a /\ nth_error (d :: V) i = Some b /\ lookup l b <> None /\ lookup l a = None) -> exists r, f l = Ok r).
  { intros l N. unfold f. apply mapM_all_ok. intros [a b] Hab. apply in_combine_nth in Hab. destruct Hab as (i&Na&Nb). cbn [fst snd].
    destruct (lookup l b) eqn:Eb; [|eauto]. destruct (lookup l a) eqn:Ea; [eauto|]. exfalso. apply N. exists i, a, b. do 2 (split; auto). split; congruence. }
  assert (FD : forall l, f l = Err KeyError \/ exists r, f l = Ok r).
  { intros l. unfold f. generalize (combine (dn :: Vn) (d :: V)). intros c. induction c as [|[a b] c IH]; cbn [mapM]; [eauto|]. cbn [fst snd].
    destruct (lookup l b); [destruct (lookup l a)|]; cbn [bind]; auto; destruct IH as [-> |(r&->)]; cbn [bind]; eauto. }
  split.
  - intros (l&i&a&b&Hl&Na&Nb&Lb&La). apply mapM_one_err.
    + intros x _. destruct (FD x) as [-> |(r&->)]; cbn [bind]; eauto.
    + exists l. split; [apply in_seq; lia|]. rewrite F1; [reflexivity|]. exists i, a, b. auto.
  - intros N. destruct (mapM_all_ok (fun l => do ms <- f l; Ok (l, ms)) (seq 0 m)) as (U&E).
    + intros l Hl. apply in_seq in Hl. destruct (F2 l) as (r&->); [|cbn [bind]; eauto]. intros (i&a&b&H). apply N. exists l, i, a, b. split; [lia|auto].
    + exists U. split; [auto|]. eapply mapM_fst; eauto.
Qed.

From Verif Require Import M_Depth L_Depth.
(** C38: a tree without tuning data *)
Lemma foldM_one_err : forall {A B} (f : A -> B -> result A) e l a, (forall a x, In x l -> f a x = Err e \/ exists a', f a x = Ok a') ->
  (exists x, In x l /\ forall a, f a x = Err e) -> foldM f l a = Err e.
Proof.
  intros A B f e. induction l as [|b l IH]; intros a H (x&Hx&E); [contradiction|]. cbn [foldM].
  destruct (H a b (or_introl eq_refl)) as [EA|(a'&EA)]; rewrite EA; cbn [bind]; auto.
  apply IH; [intros; apply H; right; auto|]. destruct Hx as [<-|Hx]; [rewrite E in EA; discriminate|eauto].
Qed.
Lemma steps_value : forall kd (X : list (list R)) y l st, (foldM (depth_step kd X y) l st = Err ValueError \/ exists t tl i, foldM (depth_step kd X y) l st = Ok (t, tl, i) /\ (l <> [] -> i <> None)).
Proof.
  intros kd X y. induction l as [|it l IH]; intros [[t tl] i]; cbn [foldM].
  - right. exists t, tl, i. split; [reflexivity|congruence].
  - unfold depth_step at 1 3. assert (D : forall t', data_loss kd t' X y = Err ValueError \/ exists r, data_loss kd t' X y = Ok r).
    { intros t'. unfold data_loss. destruct X; auto. destruct (negb _); eauto. }
    destruct (D (set_leaves t (snd it))) as [-> |(r&->)]; cbn [bind]; auto.
    destruct (IH (set_leaves t (snd it), upd tl (fst it) r, Some (fst it))) as [E|(t1&tl1&i1&E&N)]; auto. right. exists t1, tl1, i1. split; auto. intros _.
    destruct l as [|b l]; [cbn [foldM] in E; injection E as _ _ <-; discriminate|]. apply N. discriminate.
Qed.
Lemma p_no_observations : forall kd ts (o : depth_opts R) rd q, Forall wf_tree ts -> (forall t, In t ts -> (1 < size t)%nat) ->
  (forall p, (p < length ts)%nat -> exists X y, depth_rows o rd p X y) -> (q < length ts)%nat -> (exists y, depth_rows o rd q [] y) ->
  depth_tune (Forest kd ts) o rd = Err ValueError.
Proof.
  intros kd ts o rd q WF SZ RO Hq (y&RQ). unfold depth_tune.
  assert (CK : ((d_oob o || d_resample o) && (isNone (d_X_trained o) || isNone (d_y_trained o)))%bool = false) by (eapply rows_checks; eauto).
  rewrite CK.
  rewrite (foldM_one_err (depth_tree kd o rd (snd (calc_depth_for_forest ts))) ValueError); [reflexivity| |].
  - intros [fl i0] [p t] Hp. apply in_combine_nth in Hp. destruct Hp as (k&K1&K2).
    assert (LK : (k < length ts)%nat) by (apply nth_error_Some; congruence).
    rewrite (nth_error_nth' _ O) in K1 by (rewrite seq_length; auto). rewrite seq_nth in K1 by auto. injection K1 as <-. cbn [Nat.add].
    destruct (RO k LK) as (X&yy&RK). apply rows_data in RK. unfold depth_tree. cbn [fst snd]. rewrite RK. cbn [bind].
    assert (IT : In t ts) by (eapply nth_error_In; eauto).
    set (pl := combine _ _). destruct (steps_value kd X yy pl (t, repeat (- n1)%num (snd (calc_depth_for_forest ts)), i0)) as [E|(t1&tl&i&E&N)].
    + left. match goal with |- bind ?x _ = _ => change x with (foldM (depth_step kd X yy) pl (t, repeat (- n1)%num (snd (calc_depth_for_forest ts)), i0)) end. rewrite E. reflexivity.
    + right. rewrite E. cbn [bind]. destruct i as [i|]; [eauto|]. exfalso. apply N; [|reflexivity]. unfold pl.
      assert (W : wf_tree t) by (rewrite Forall_forall in WF; auto).
      pose proof (lpv_length t) as LL. pose proof (depth_pos t W (SZ t IT)) as DP. destruct (leaf_predicted_values t); cbn [length] in *; [lia|discriminate].
  - assert (NT' : exists t, nth_error ts q = Some t) by (destruct (nth_error ts q) eqn:E; eauto; apply nth_error_None in E; lia).
    destruct NT' as (t&NT'). exists (q, t). split.
    { apply in_combine_nth. exists q. split; auto. rewrite (nth_error_nth' _ O) by (rewrite seq_length; auto). rewrite seq_nth by auto. reflexivity. }
    intros [fl i0]. apply rows_data in RQ. unfold depth_tree. cbn [fst snd]. rewrite RQ. cbn [bind].
    assert (IT : In t ts) by (eapply nth_error_In; eauto). assert (W : wf_tree t) by (rewrite Forall_forall in WF; auto).
    pose proof (lpv_length t) as LL. pose proof (depth_pos t W (SZ t IT)) as DP. destruct (leaf_predicted_values t) as [|p0 pl]; cbn [length] in *; [lia|]. reflexivity.
Qed.
