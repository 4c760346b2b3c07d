(** L_Rel4: the gradient is orthogonal to the weights, so plain descent never loses all weights. *)
From Verif Require Import Base TreeSpec Spec M_Tree M_Gamma M_Levels M_Prox M_Grad M_Sgd M_Smooth SpecSmooth SpecRel.
From Verif Require Import L_Base L_Tree L_TreeModel L_TreeModel2 L_Dist L_Prox L_Grad L_Gamma L_Gamma2 L_Sgd L_Sgd2 L_Smooth L_Smooth2 L_Smooth3 L_Smooth4 L_Rel L_Rel2.
From Coq Require Import Reals Lra.
Local Open Scope R_scope.

Lemma nth_seq_id : forall (a : list R), map (fun k => nth k a 0) (seq 0 (length a)) = a.
Proof.
  intros a. apply nth_eq_ext with (d := 0); [rewrite map_length, seq_length; auto|].
  intros i Hi. rewrite map_length, seq_length in Hi. rewrite nth_map_seq by auto. reflexivity.
Qed.
Lemma dot_map_lin : forall (l : list R) (f g h : nat -> R) s, (forall k, In k s -> f k = g k + h k) ->
  dot l (map f s) = dot l (map g s) + dot l (map h s).
Proof.
  induction l as [|a l IH]; intros f g h [|k s] H; cbn [map]; rewrite ?dot_nil_l, ?dot_nil_r; try ring.
  rewrite !dot_cons, (IH f g h s), (H k); [ring|left; auto|]. intros; apply H; right; auto.
Qed.
Lemma dot_map_scal : forall (l : list R) (f : nat -> R) c s, dot l (map (fun k => c * f k) s) = c * dot l (map f s).
Proof. intros. rewrite <- (map_map f (fun x => c * x)). apply dot_scal_r. Qed.
Lemma dot_map_ext : forall (l : list R) (f g : nat -> R) s, (forall k, In k s -> f k = g k) -> dot l (map f s) = dot l (map g s).
Proof. intros. f_equal. apply map_ext_in; auto. Qed.

Definition inner (rw Gf Ef : list R) (G E : mat R) (k : nat) : R :=
  nsum (map2 nmul rw (map2 nsub (map2 (fun e g => nmul (ndiv n1 e) g) Ef (col k G))
                                (map2 nmul (map2 (fun g e => ndiv g (nmul e e)) Gf Ef) (col k E)))).

Lemma inner_orth : forall (l : list R) (G E : mat R) rw,
  (forall r, In r G -> length r = length l) -> (forall r, In r E -> length r = length l) ->
  zero_ok (mv G l) (mv E l) = true ->
  dot l (map (inner rw (mv G l) (fill1 (mv E l)) G E) (seq 0 (length l))) = 0.
Proof.
  intros l. induction G as [|g G IH]; intros E rw HG HE Z.
  - assert (X : forall k, inner rw (mv [] l) (fill1 (mv E l)) [] E k = 0 * 0).
    { intros k. unfold inner. cbn [mv map col map2]. destruct (fill1 (mv E l)), rw; cbn [map2]; rewrite nsum_nil; ring. }
    rewrite (dot_map_ext l _ (fun k => 0 * 0)) by (intros; apply X). rewrite (dot_map_scal l (fun _ => 0) 0). ring.
  - destruct E as [|e E]; [|destruct rw as [|c rw]].
    + assert (X : forall k, inner rw (mv (g :: G) l) (fill1 (mv [] l)) (g :: G) [] k = 0 * 0).
      { intros k. unfold inner. cbn [mv map col fill1 map2]. destruct rw; cbn [map2]; rewrite nsum_nil; ring. }
      rewrite (dot_map_ext l _ (fun k => 0 * 0)) by (intros; apply X). rewrite (dot_map_scal l (fun _ => 0) 0). ring.
    + rewrite (dot_map_ext l _ (fun k => 0 * 0)) by (intros; unfold inner; cbn [map2]; rewrite nsum_nil; ring).
      rewrite (dot_map_scal l (fun _ => 0) 0). ring.
    + set (f := if Reqb (dot e l) 0 then 1 else dot e l).
      assert (Z2 : (if Reqb (dot e l) 0 then Reqb (dot g l) 0 else true) = true /\ zero_ok (mv G l) (mv E l) = true).
      { unfold zero_ok in *. cbn [mv map map2 forallb] in Z. apply andb_prop in Z. exact Z. }
      destruct Z2 as [Z1 Z2].
      rewrite (dot_map_lin l _ (fun k => c * (1 / f) * nth k g 0 + (- (c * (dot g l / (f * f)))) * nth k e 0)
                 (inner rw (mv G l) (fill1 (mv E l)) G E)).
      2:{ intros k Hk. unfold inner. cbn [mv fill1 map col map2]. rewrite nsum_cons. 
          change (map (fun r => dot r l) G) with (mv G l).
          change (map (fun x => if neqb x n0 then n1 else x) (map (fun r => dot r l) E)) with (fill1 (mv E l)).
          change (map (fun r => nth k r n0) G) with (col k G). change (map (fun r => nth k r n0) E) with (col k E).
          rn. fold f. unfold Rdiv. ring. }
      rewrite IH; [|intros; apply HG; right; auto|intros; apply HE; right; auto|auto].
      rewrite (dot_map_lin l _ (fun k => c * (1 / f) * nth k g 0) (fun k => - (c * (dot g l / (f * f))) * nth k e 0)) by reflexivity.
      rewrite (dot_map_scal l (fun k => nth k g 0)), (dot_map_scal l (fun k => nth k e 0)).
      rewrite <- (HG g (or_introl eq_refl)) at 1. rewrite nth_seq_id.
      rewrite <- (HE e (or_introl eq_refl)). rewrite nth_seq_id, !(dot_comm l).
      unfold f. destruct (Reqb_spec (dot e l) 0) as [E0|E0].
      * destruct (Reqb_spec (dot g l) 0) as [G0|]; [|discriminate]. rewrite G0. unfold Rdiv. ring.
      * field. auto.
Qed.

Lemma grad_orth : forall (P : problem R) l g, rows_len (length l) P -> l_grad l2_loss P l = Ok g -> dot l g = 0.
Proof.
  intros P l g [HG HE] H. cbn [l_grad l2_loss] in H. unfold take_gradient in H.
  bok H. destruct a as [Gf Ef]. unfold fills in E. destruct (zero_ok _ _) eqn:Z; [|discriminate].
  inversion E; subst Gf Ef; clear E. inversion H as [Hg]; clear H Hg.
  match goal with |- dot l (map ?f ?s) = 0 => rewrite (dot_map_ext l f (fun k => -2 * inner
    (map2 nmul (map2 nsub (p_y P) (map2 ndiv (mv (p_Gamma P) l) (fill1 (mv (p_eta P) l)))) (p_w P))
    (mv (p_Gamma P) l) (fill1 (mv (p_eta P) l)) (p_Gamma P) (p_eta P) k)) end.
  - rewrite dot_map_scal, inner_orth; auto. ring.
  - intros k _. unfold inner. rn. ring.
Qed.

(** the projection keeps a positive coordinate *)
Lemma prox_nonzero : forall y r : list R, (exists x, In x y /\ 0 < x) -> prox_value y = Ok r -> 0 < nsum r.
Proof.
  intros y r (x&Hx&P) H. destruct (prox_spec y) as (m&th&Hm&T&_&ET&E); [intros ->; destruct Hx|].
  unfold prox_value in H. rewrite E in H. cbn [bind fst] in H. inversion H; subst r; clear H E.
  assert (X : exists z, In z (map ppos y) /\ th < z).
  { destruct (Rle_lt_dec (tau (sort_desc (map ppos y)) m) 0) as [L|L].
    - exists (ppos x). split; [apply in_map; auto|]. rewrite ET, Rmax_right by lra. unfold ppos. rewrite Rmax_left; lra.
    - exists (nth m (map ppos y) 0). split; [apply nth_In; rewrite map_length; auto|]. rewrite ET, Rmax_left; lra. }
  destruct X as (z&Hz&TZ).
  pose proof (nsum_pos_elem (fun x => ppos (x - th)) (map ppos y) z) as NP. cbv beta in NP.
  assert (PZ : 0 < ppos (z - th)) by (unfold ppos; rewrite Rmax_left; lra).
  assert (ppos (z - th) <= nsum (map (fun x => ppos (x - th)) (map ppos y)) \/ 0 < nsum (map (fun x => ppos (x - th)) (map ppos y))).
  { first [left; apply NP; auto; intros; apply Rmax_r | right; apply NP; auto; intros; apply Rmax_r]. }
  lra.
Qed.

Lemma dot_pos_in : forall l y : list R, (forall x, In x l -> 0 <= x) -> 0 < dot l y -> exists x, In x y /\ 0 < x.
Proof.
  induction l as [|a l IH]; intros [|b y] N H; rewrite ?dot_nil_l, ?dot_nil_r in H; try lra.
  rewrite dot_cons in H. destruct (Rle_lt_dec b 0) as [B|B]; [|exists b; split; [left|]; auto].
  destruct (IH y) as (x&Hx&P); [intros; apply N; right; auto| |exists x; split; [right|]; auto].
  pose proof (N a (or_introl eq_refl)). nra.
Qed.
Lemma dot_self_pos : forall l : list R, (forall x, In x l -> 0 <= x) -> 0 < nsum l -> 0 < dot l l.
Proof.
  induction l as [|a l IH]; intros N H; [rewrite nsum_nil in H; lra|]. rewrite nsum_cons in H. rewrite dot_cons.
  pose proof (N a (or_introl eq_refl)). assert (D : 0 <= dot l l) by (apply dot_nonneg; intros; apply N; right; auto).
  destruct (Rle_lt_dec a 0) as [A|A]; [|nra]. assert (0 < dot l l) by (apply IH; [intros; apply N; right; auto|lra]). nra.
Qed.
Lemma dot_step : forall (l z g : list R) t, length l = length g -> dot z (map2 (fun l g => nsub l (nmul t g)) l g) = dot z l - t * dot z g.
Proof.
  induction l as [|a l IH]; intros z [|b g] t H; try discriminate; cbn [map2].
  - rewrite !dot_nil_r. ring.
  - destruct z as [|c z]; [rewrite !dot_nil_l; ring|]. rewrite !dot_cons, IH by (simpl in H; lia). rn. ring.
Qed.

Lemma restrict_rows_len : forall K P q, rows_len K P -> rows_len K (restrict P q).
Proof. intros K P q [A B]. split; cbn; intros r H; [apply A|apply B]; eapply mask_select_incl; eauto. Qed.

(** one plain step with the constraint *)
Lemma plain_step_pos : forall t (P : problem R) nt st d st', rows_len (length (g_lamb st)) P ->
  sgd_step l2_loss prox_value true t None P nt st d = Ok st' ->
  (forall x, In x (g_lamb st) -> 0 <= x) -> 0 < nsum (g_lamb st) -> 0 < nsum (g_best st) ->
  0 < nsum (g_lamb st') /\ 0 < nsum (g_best st').
Proof.
  intros t P nt st d st' RL H N Q1 Q2. unfold sgd_step in H. bok H. destruct a as [l1 iv1]. bok E. inversion E; subst l1 iv1; clear E.
  bok H. bok H. inversion H; subst st'; clear H. cbn [g_lamb g_best].
  assert (P0 : 0 < nsum a0).
  { apply (prox_nonzero _ _) in E; auto. apply (dot_pos_in (g_lamb st)); auto.
    rewrite dot_step by (symmetry; eapply take_gradient_length; exact E0).
    rewrite (grad_orth (restrict P (d mod nt)) (g_lamb st) a) by (auto; apply restrict_rows_len; auto).
    pose proof (dot_self_pos _ N Q1). lra. }
  split; auto. match goal with |- context [if ?b then _ else _] => destruct b end; auto.
Qed.

Lemma sgd_pos : forall (P : problem R) init t draws best lst costs, rows_len (length init) P ->
  stocastic_grad_descent P init t true None draws = Ok (best, lst, costs) -> 0 < nsum best /\ 0 < nsum lst.
Proof.
  intros P init t draws best lst costs RL H. unfold stocastic_grad_descent in H.
  destruct (negb _); [discriminate|].
  destruct (true && off_simplex init)%bool eqn:OS; [discriminate|]. cbn [andb] in OS.
  assert (G0 : good (length init) true init).
  { split; auto. intros _ x Hx. apply Rnot_lt_le. intros B.
    assert (off_simplex init = true) by (apply off_simplex_spec; right; eauto). congruence. }
  assert (S1 : nsum init = 1).
  { destruct (Req_dec (nsum init) 1); auto. assert (off_simplex init = true) by (apply off_simplex_spec; left; auto). congruence. }
  unfold sgd_run in H. bok H. bok H. bok H. inversion H; subst; clear H.
  assert (Inv : forall draws s s', foldM (sgd_step l2_loss prox_value true t None P a0) draws s = Ok s' ->
     good (length init) true (g_lamb s) -> good (length init) true (g_best s) -> iv_len (length init) (g_iv s) ->
     0 < nsum (g_lamb s) -> 0 < nsum (g_best s) ->
     0 < nsum (g_lamb s') /\ 0 < nsum (g_best s')).
  { clear - RL. induction draws; simpl; intros s s' H A B C Q1 Q2; [inversion H; subst; auto|].
    bok H. destruct (sgd_step_good _ _ _ _ _ _ _ _ _ E A B C) as (A'&B'&C').
    assert (RL' : rows_len (length (g_lamb s)) P) by (destruct A as [-> _]; exact RL).
    destruct (plain_step_pos _ _ _ _ _ _ RL' E) as [X1 X2]; auto; [apply A; auto|]. eauto. }
  destruct (Inv _ _ _ E1); cbn; auto; lra.
Qed.

(** without the constraint the length of the weight vector never shrinks *)
Lemma plain_step_norm : forall t (P : problem R) nt st d st', rows_len (length (g_lamb st)) P ->
  sgd_step l2_loss prox_value false t None P nt st d = Ok st' ->
  length (g_lamb st') = length (g_lamb st) /\ dot (g_lamb st) (g_lamb st) <= dot (g_lamb st') (g_lamb st').
Proof.
  intros t P nt st d st' RL H. unfold sgd_step in H. bok H. destruct a as [l1 iv1]. bok E. inversion E; subst l1 iv1; clear E.
  cbn [bind] in H. bok H. inversion H; subst st'; clear H. cbn [g_lamb].
  assert (LG : length (g_lamb st) = length a) by (symmetry; eapply take_gradient_length; exact E0).
  pose proof (grad_orth (restrict P (d mod nt)) (g_lamb st) a ltac:(apply restrict_rows_len; auto) E0) as O.
  split; [rewrite map2_length; lia|].
  rewrite dot_step by auto. set (z := map2 _ _ _). rewrite (dot_comm z), (dot_comm z a). unfold z. rewrite !dot_step by auto.
  rewrite (dot_comm a (g_lamb st)), O. assert (0 <= dot a a).
  { clear. induction a; rewrite ?dot_nil_l; [lra|]. rewrite dot_cons. nra. }
  nra.
Qed.
Lemma sgd_norm : forall (P : problem R) init t draws best lst costs, rows_len (length init) P ->
  stocastic_grad_descent P init t false None draws = Ok (best, lst, costs) -> dot init init <= dot lst lst.
Proof.
  intros P init t draws best lst costs RL H. unfold stocastic_grad_descent in H.
  destruct (negb _); [discriminate|]. cbn [andb] in H.
  unfold sgd_run in H. bok H. bok H. bok H. inversion H; subst; clear H.
  assert (Inv : forall draws s s', foldM (sgd_step l2_loss prox_value false t None P a0) draws s = Ok s' ->
     length (g_lamb s) = length init -> dot (g_lamb s) (g_lamb s) <= dot (g_lamb s') (g_lamb s')).
  { clear - RL. induction draws; simpl; intros s s' H A; [inversion H; subst; lra|].
    bok H. assert (RL' : rows_len (length (g_lamb s)) P) by (rewrite A; exact RL).
    destruct (plain_step_norm _ _ _ _ _ _ RL' E) as [X1 X2].
    pose proof (IHdraws _ _ H ltac:(lia)). lra. }
  apply (Inv _ _ _ E1). reflexivity.
Qed.

(** *** the forest *)
Lemma problem_rows_len : forall K P, problem_ok K P -> rows_len K P.
Proof.
  intros K P [A B]. split; intros r H; apply In_nth with (d := []) in H; destruct H as (i&Hi&<-).
  - destruct (B (nth i (p_Gamma P) [], nth i (p_eta P) [])) as (X&_); auto.
    rewrite <- combine_nth by auto. apply nth_In. rewrite combine_length. lia.
  - destruct (B (nth i (p_Gamma P) [], nth i (p_eta P) [])) as (_&X&_); auto.
    rewrite <- combine_nth by auto. apply nth_In. rewrite combine_length. lia.
Qed.

Lemma smooth_sgd : forall lg kd ts (o : smooth_opts R) rd out,
  smooth lg (Forest kd ts) o rd = Ok out -> Forall (@wf_tree R) ts -> Forall pos_leaves ts -> ts <> [] -> plain_l2 kd o ->
  exists P init, rows_len (length init) P /\ stocastic_grad_descent P init (o_t_fix o) (negb (o_no_constraint o)) None (r_draws rd) = Ok (s_lamb out, s_lamb_last out, s_costs out) /\ exists K, (0 < K)%nat /\ init = initial_lamb kd o K.
Proof.
  intros lg kd ts o rd out H W PL NE (SA&AD&LO).
  destruct (smooth_desc lg kd ts o rd out H W NE) as (CC&(G&E&Ti&Y&W0&K&FM&KP&AT&OP&L1&L2)&_).
  destruct (forest_matrices_mats kd o ts G E Ti W NE FM) as (K'&sel&KP'&M&_).
  exists (flatten kd o G E Ti Y W0), (initial_lamb kd o K).
  assert (SG : stocastic_grad_descent (flatten kd o G E Ti Y W0) (initial_lamb kd o K) (o_t_fix o) (negb (o_no_constraint o)) None (r_draws rd) = Ok (s_lamb out, s_lamb_last out, s_costs out)).
  { unfold optimise in OP. rewrite SA, AD in OP. destruct LO as [-> |LO]; [auto|]. rewrite LO in OP. destruct kd; auto. }
  split; [|split; [exact SG|exists K; auto]].
  pose proof (problem_rows_len _ _ (flatten_ok kd o ts K' sel G E Ti Y W0 M PL)) as RL.
  assert (EK : ncols (p_Gamma (flatten kd o G E Ti Y W0)) = length (initial_lamb kd o K)).
  { unfold stocastic_grad_descent in SG. destruct (Nat.eqb_spec (ncols (p_Gamma (flatten kd o G E Ti Y W0))) (length (initial_lamb kd o K))); auto. discriminate. }
  rewrite <- EK. set (P := flatten kd o G E Ti Y W0) in *. unfold ncols.
  destruct (p_Gamma P) as [|r rs] eqn:EG.
  - exfalso. rewrite initial_lamb_length in EK. cbn in EK. lia.
  - assert (LR : length r = K') by (apply (proj1 RL); rewrite EG; left; auto). cbn [hd]. rewrite LR. exact RL.
Qed.

Lemma p_C84_weights : forall lg kd ts (o : smooth_opts R) rd out,
  smooth lg (Forest kd ts) o rd = Ok out -> Forall (@wf_tree R) ts -> Forall pos_leaves ts -> ts <> [] -> plain_l2 kd o ->
  o_no_constraint o = false -> 0 < nsum (s_lamb out) /\ 0 < nsum (s_lamb_last out).
Proof.
  intros lg kd ts o rd out H W PL NE PP NC. destruct (smooth_sgd _ _ _ _ _ _ H W PL NE PP) as (P&init&RL&SG&_).
  rewrite NC in SG. eapply sgd_pos; eauto.
Qed.
Lemma p_C84_norm : forall lg ts (o : smooth_opts R) rd out,
  smooth lg (Forest Reg ts) o rd = Ok out -> Forall (@wf_tree R) ts -> Forall pos_leaves ts -> ts <> [] -> plain_l2 Reg o ->
  o_no_constraint o = true -> o_lamb_draws o = None -> 1 <= dot (s_lamb_last out) (s_lamb_last out).
Proof.
  intros lg ts o rd out H W PL NE PP NC LD. destruct (smooth_sgd _ _ _ _ _ _ H W PL NE PP) as (P&init&RL&SG&K&KP&EI).
  rewrite NC in SG. apply sgd_norm in SG; auto.
  assert (X : dot init init = 1).
  { subst init. unfold initial_lamb. rewrite LD. destruct K as [|K]; [lia|].
    cbn [repeat upd]. rewrite dot_cons.
    rewrite (dot_zero_l (repeat n0 K) (repeat n0 K)) by (intros x Hx; apply repeat_spec in Hx; exact Hx). rn. ring. }
  lra.
Qed.

(** own leaf: all weights with parents_all *)
Lemma own_weight : forall t s lamb i kap, wf_tree t -> (i < n_leaves t)%nat -> is_kernel t s true lamb i kap -> kap i = nsum lamb.
Proof.
  intros t s lamb i kap WF Hi HK. destruct (HK i Hi) as (d&Dd&->).
  assert (d = 0)%nat. { apply (leaf_dist_unique t WF s (leaf_id t i) (leaf_id t i)); auto. apply (leaf_dist_refl t WF). apply leaf_id_lt; auto. }
  subst d. cbn [dweight Nat.leb]. symmetry. apply nsum_sumto.
Qed.

Lemma p_C84_range : forall lg ts (o : smooth_opts R) rd out,
  smooth lg (Forest Reg ts) o rd = Ok out -> Forall (@wf_tree R) ts -> Forall pos_leaves ts -> ts <> [] -> plain_l2 Reg o ->
  o_no_constraint o = false -> draws_nonneg o -> o_dist o = DDepth true ->
  forall q t, nth_error ts q = Some t -> exists t', nth_error (s_forest out) q = Some t' /\
  forall i lo hi, (i < n_leaves t)%nat -> (forall j, (j < n_leaves t)%nat -> lo <= leaf_v t 0 j <= hi) -> lo <= leaf_v t' 0 i <= hi.
Proof.
  intros lg ts o rd out H W PL NE PP NC DN OD q t N. destruct (p_C84_weights _ _ _ _ _ _ H W PL NE PP NC) as [S1 _].
  destruct (p_C13 lg ts o rd out H W PL NE NC DN q t N) as (t'&N'&V). exists t'. split; auto.
  intros i lo hi Hi B. destruct (V i lo hi Hi B) as [X|(_&kap&KK&Z)]; auto. exfalso.
  unfold smooth_kernel in KK. rewrite OD in KK. rewrite Forall_forall in W.
  rewrite <- (own_weight t _ _ i kap (W t (nth_error_In _ _ N)) Hi KK), Z in S1 by auto. lra.
Qed.
Lemma p_C84_class : forall lg nc ts (o : smooth_opts R) rd out,
  smooth lg (Forest (Class nc) ts) o rd = Ok out -> Forall (@wf_tree R) ts -> Forall pos_leaves ts ->
  Forall (class_counts nc) ts -> ts <> [] -> plain_l2 (Class nc) o -> draws_nonneg o -> 0 <= o_class_eps o -> o_dist o = DDepth true ->
  forall q t, nth_error ts q = Some t -> exists t', nth_error (s_forest out) q = Some t' /\
  forall i, (i < n_leaves t)%nat -> (forall c, (c < nc)%nat -> 0 <= leaf_v t' c i <= 1) /\ sumto nc (fun c => leaf_v t' c i) = 1.
Proof.
  intros lg nc ts o rd out H W PL CC NE PP DN EP OD q t N.
  destruct (smooth_desc lg _ ts o rd out H W NE) as (NC&_).
  destruct (p_C84_weights _ _ _ _ _ _ H W PL NE PP NC) as [S1 _].
  destruct (p_C15 lg nc ts o rd out H W PL CC NE DN EP q t N) as (t'&N'&V). exists t'. split; auto.
  intros i Hi. destruct (V i Hi) as [A [X|(_&kap&KK&Z)]]; auto. exfalso.
  unfold smooth_kernel in KK. rewrite OD in KK. rewrite Forall_forall in W.
  rewrite <- (own_weight t _ _ i kap (W t (nth_error_In _ _ N)) Hi KK), Z in S1 by auto. lra.
Qed.
