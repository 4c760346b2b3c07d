(** L_Sgd2: with proper data a constrained descent never fails. *)
From Verif Require Import Base TreeSpec Spec M_Gamma M_Prox M_Grad M_Sgd L_Base L_Prox L_Sgd L_Grad.
From Coq Require Import Reals Lra.
Local Open Scope R_scope.

(** a pair of rows with nonnegative mass that carries no response where it has no mass *)
Definition row_ok (K : nat) (ge : list R * list R) : Prop :=
  length (fst ge) = K /\ length (snd ge) = K /\
  (forall k, 0 <= nth k (snd ge) 0) /\ (forall k, nth k (snd ge) 0 = 0 -> nth k (fst ge) 0 = 0).

Lemma row_dot_zero : forall (e g l : list R), length e = length l -> length g = length l ->
  (forall k, 0 <= nth k e 0) -> (forall k, nth k e 0 = 0 -> nth k g 0 = 0) ->
  (forall x, In x l -> 0 <= x) -> 0 <= dot e l /\ (dot e l = 0 -> dot g l = 0).
Proof.
  induction e as [|a e IH]; intros [|b g] [|c l] L1 L2 NE Z NL; try discriminate.
  - rewrite !dot_nil_l. split; [lra|auto].
  - rewrite !dot_cons.
    destruct (IH g l) as [P1 P2]; [simpl in *; lia|simpl in *; lia|intros k; apply (NE (S k))|
      intros k; apply (Z (S k))|intros; apply NL; right; auto|].
    pose proof (NE 0%nat) as A. cbn [nth] in A. pose proof (NL c (or_introl eq_refl)) as C.
    pose proof (Z 0%nat) as Z0. cbn [nth] in Z0.
    assert (0 <= a * c) by (apply Rmult_le_pos; auto). split; [lra|]. intros H0.
    assert (X : a * c = 0) by lra. rewrite P2 by lra.
    apply Rmult_integral in X. destruct X as [X|X]; [rewrite Z0 by auto|rewrite X]; ring.
Qed.

Lemma fills_total : forall K (G E : mat R) l, length G = length E -> length l = K ->
  (forall ge, In ge (combine G E) -> row_ok K ge) -> (forall x, In x l -> 0 <= x) ->
  fills G E l = Ok (mv G l, fill1 (mv E l)).
Proof.
  intros K G E l LE LK RO NL. apply fills_ok; auto. intros i Hi.
  destruct (RO (nth i G [], nth i E [])) as (A&B&C&D).
  { rewrite <- combine_nth by auto. apply nth_In. rewrite combine_length. lia. }
  apply row_dot_zero; cbn [fst snd] in *; auto; lia.
Qed.

Lemma mask_select_combine : forall {A B} m (a : list A) (b : list B), length a = length b ->
  mask_select m (combine a b) = combine (mask_select m a) (mask_select m b).
Proof.
  induction m as [|x m IH]; intros [|y a] [|z b] L; try discriminate; try (destruct x); auto;
    simpl in L; cbn [mask_select combine]; rewrite IH by lia; auto.
Qed.
Lemma mask_select_len : forall {A B} m (a : list A) (b : list B), length a = length b ->
  length (mask_select m a) = length (mask_select m b).
Proof.
  induction m as [|x m IH]; intros [|y a] [|z b] L; try discriminate; try (destruct x); auto;
    simpl in L; cbn [mask_select length]; rewrite (IH a b) by lia; auto.
Qed.
Lemma mask_select_incl : forall {A} m (a : list A) x, In x (mask_select m a) -> In x a.
Proof.
  induction m as [|b m IH]; intros [|y a] x H; try (destruct b); try contradiction;
  cbn [mask_select] in H; first [destruct H; [left|right]; solve [auto]|right; auto].
Qed.

Definition problem_ok (K : nat) (P : problem R) : Prop :=
  length (p_Gamma P) = length (p_eta P) /\ forall ge, In ge (combine (p_Gamma P) (p_eta P)) -> row_ok K ge.

Lemma restrict_problem_ok : forall K P q, problem_ok K P -> problem_ok K (restrict P q).
Proof.
  intros K P q [A B]. unfold restrict, problem_ok. cbn [p_Gamma p_eta]. split; [apply mask_select_len; auto|].
  intros ge H. rewrite <- mask_select_combine in H by auto. apply B. eapply mask_select_incl; eauto.
Qed.

Lemma cost_total : forall K P l, problem_ok K P -> length l = K -> (forall x, In x l -> 0 <= x) ->
  exists c, l_cost l2_loss P l = Ok c.
Proof.
  intros K P l [A B] LK NL. cbn [l_cost l2_loss]. unfold calc_cost. rewrite (fills_total K) by auto. cbn [bind]. eauto.
Qed.
Lemma grad_total : forall K P l, problem_ok K P -> length l = K -> (forall x, In x l -> 0 <= x) ->
  exists c, l_grad l2_loss P l = Ok c.
Proof.
  intros K P l [A B] LK NL. cbn [l_grad l2_loss]. unfold take_gradient. rewrite (fills_total K) by auto. cbn [bind]. eauto.
Qed.

Lemma step_total : forall t ad (P : problem R) nt st d K, (0 < K)%nat -> problem_ok K P ->
  length (g_lamb st) = K -> (forall x, In x (g_lamb st) -> 0 <= x) -> iv_len K (g_iv st) ->
  exists st', sgd_step l2_loss prox_value true t ad P nt st d = Ok st' /\
    length (g_lamb st') = K /\ (forall x, In x (g_lamb st') -> 0 <= x) /\ iv_len K (g_iv st').
Proof.
  intros t ad P nt st d K KP PO LK NL IV. unfold sgd_step.
  destruct (grad_total K (restrict P (d mod nt)) (g_lamb st)) as (g&Hg); auto using restrict_problem_ok.
  assert (Lg : length g = K) by (rewrite <- LK; eapply take_gradient_length; exact Hg).
  assert (X : exists l1 iv1, match ad with
    | Some p => do r <- adam_step (l_grad l2_loss (restrict P (d mod nt))) (Some (g_lamb st)) p (g_iv st); Ok (fst r, Some (snd r))
    | None => do grad <- l_grad l2_loss (restrict P (d mod nt)) (g_lamb st);
       Ok (map2 (fun l g => nsub l (nmul t g)) (g_lamb st) grad, None) end = Ok (l1, iv1) /\ length l1 = K /\ iv_len K iv1).
  { destruct ad as [p|].
    - destruct (adam_step (l_grad l2_loss (restrict P (d mod nt))) (Some (g_lamb st)) p (g_iv st)) as [r|e] eqn:EA.
      + exists (fst r), (Some (snd r)). split; auto. subst K. eapply adam_step_length; [exact EA| |auto].
        intros x y Hx. eapply take_gradient_length; exact Hx.
      + exfalso. unfold adam_step in EA. destruct (g_iv st); cbn [bind iv_lamb] in EA; rewrite Hg in EA; discriminate.
    - rewrite Hg. cbn [bind]. eexists. exists None. split; [reflexivity|]. split; [rewrite map2_length; lia|exact I]. }
  destruct X as (l1&iv1&E1&L1&IV1). rewrite E1. cbn [bind].
  destruct (prox_general l1) as (r&Er&Lr&Br); [intros ->; simpl in *; lia|].
  assert (EP : prox_value l1 = Ok r) by (unfold prox_value; rewrite Er; reflexivity). rewrite EP. cbn [bind].
  destruct (prox_value_ok l1 r EP) as [_ NR].
  destruct (cost_total K P r) as (c&Ec); auto; [lia|]. rewrite Ec. cbn [bind].
  eexists. split; [reflexivity|]. cbn [g_lamb g_iv]. split; [lia|auto].
Qed.

Lemma sgd_total : forall (P : problem R) init t ad draws,
  problem_ok (length init) P -> ncols (p_Gamma P) = length init -> p_tidx P <> [] ->
  nsum init = 1 -> (forall x, In x init -> 0 <= x) ->
  exists r, stocastic_grad_descent P init t true ad draws = Ok r.
Proof.
  intros P init t ad draws PO NC NT SI NI. unfold stocastic_grad_descent.
  rewrite NC, Nat.eqb_refl. cbn [negb andb].
  assert (OS : off_simplex init = false).
  { destruct (off_simplex init) eqn:E; auto. apply off_simplex_spec in E. destruct E as [E|(x&H1&H2)]; [lra|].
    specialize (NI x H1). lra. }
  rewrite OS. unfold sgd_run.
  destruct (cost_total (length init) P init) as (c0&E0); auto. rewrite E0. cbn [bind].
  unfold count_trees. destruct (p_tidx P) as [|i0 tl] eqn:ET; [congruence|]. cbn [bind].
  set (nt := (list_maxn (i0 :: tl) + 1)%nat).
  assert (KP : (0 < length init)%nat) by (destruct init; [rewrite nsum_nil in SI; lra|simpl; lia]).
  assert (F : forall st, length (g_lamb st) = length init -> (forall x, In x (g_lamb st) -> 0 <= x) -> iv_len (length init) (g_iv st) ->
     exists st', foldM (sgd_step l2_loss prox_value true t ad P nt) draws st = Ok st').
  { clear - KP PO. revert KP PO. generalize (length init) as K. intros K KP PO.
    induction draws as [|d draws IH]; intros st A B C; [exists st; auto|].
    destruct (step_total t ad P nt st d K KP PO A B C) as (st'&E&A'&B'&C').
    cbn [foldM]. rewrite E. cbn [bind]. auto. }
  match goal with |- context [foldM _ _ ?s] => destruct (F s) as (st'&Ef); [reflexivity|exact NI|exact I|] end.
  rewrite Ef. cbn [bind]. eauto.
Qed.

Lemma sgd_total' : forall (P : problem R) init t ad draws,
  length (p_Gamma P) = length (p_eta P) ->
  (forall g e, In (g, e) (combine (p_Gamma P) (p_eta P)) ->
     length g = length init /\ length e = length init /\
     (forall k, 0 <= nth k e 0) /\ (forall k, nth k e 0 = 0 -> nth k g 0 = 0)) ->
  ncols (p_Gamma P) = length init -> p_tidx P <> [] -> simplex (length init) init ->
  exists r, stocastic_grad_descent P init t true ad draws = Ok r.
Proof.
  intros P init t ad draws L RO NC NT (_&A&B). apply sgd_total; auto. split; auto.
  intros [g e] H. destruct (RO g e H) as (X1&X2&X3&X4). unfold row_ok. cbn [fst snd]. auto.
Qed.

Lemma prox_ce_fails : forall (y : list R) eps, prox_project_ce y eps = Err AssertionError.
Proof. reflexivity. Qed.

Lemma sgd_best : forall (P : problem R) init t cons ad draws best lst costs,
  stocastic_grad_descent P init t cons ad draws = Ok (best, lst, costs) ->
  exists cb c0, calc_cost (p_y P) (p_Gamma P) (p_eta P) (p_w P) best = Ok cb /\
    calc_cost (p_y P) (p_Gamma P) (p_eta P) (p_w P) init = Ok c0 /\ cb <= c0 /\ hd_error costs = Some c0 /\
    In cb costs /\ forall c, In c costs -> cb <= c.
Proof.
  intros P init t cons ad draws best lst costs H.
  destruct (sgd_trajectory _ _ _ _ _ _ _ _ _ H) as (nt&its&gs&_&L1&L2&_&I0&_&C&_&b&Hb&->&Min&_).
  exists (nth b costs 0), (nth 0 costs 0).
  split; [apply C; auto|]. split; [rewrite <- I0; apply C; lia|].
  split; [apply Min; lia|]. split; [destruct costs; [simpl in *; lia|reflexivity]|].
  split; [apply nth_In; lia|]. intros c Hc. destruct (In_nth _ _ 0 Hc) as (s&Hs&<-). apply Min. lia.
Qed.

Lemma sgd_nonneg : forall (P : problem R) init t cons ad draws best lst costs,
  stocastic_grad_descent P init t cons ad draws = Ok (best, lst, costs) ->
  (length best = length init /\ (cons = true -> forall x, In x best -> 0 <= x)) /\
  (length lst = length init /\ (cons = true -> forall x, In x lst -> 0 <= x)) /\
  forall s, (s <= length draws)%nat -> exists bs ls cs,
    stocastic_grad_descent P init t cons ad (firstn s draws) = Ok (bs, ls, cs) /\
    length ls = length init /\ (cons = true -> forall x, In x ls -> 0 <= x).
Proof.
  intros P init t cons ad draws best lst costs H.
  destruct (sgd_good _ _ _ _ _ _ _ _ _ H) as [A B]. split; [exact A|]. split; [exact B|].
  intros s Hs. unfold stocastic_grad_descent in H.
  destruct (negb (Nat.eqb (ncols (p_Gamma P)) (length init))) eqn:EN; [discriminate|].
  destruct (cons && off_simplex init)%bool eqn:OS; [discriminate|].
  destruct (sgd_run_spec _ _ _ _ _ _ _ _ _ _ _ H) as (its&_&_&_&_&Pre&_).
  destruct (Pre s Hs) as (_&bs&RN).
  assert (RN' : stocastic_grad_descent P init t cons ad (firstn s draws) = Ok (bs, nth s its [], firstn (S s) costs)).
  { unfold stocastic_grad_descent. rewrite EN, OS. exact RN. }
  destruct (sgd_good _ _ _ _ _ _ _ _ _ RN') as [_ [G1 G2]]. eauto 10.
Qed.

Lemma prox_off_simplex :
  (exists (y r : list R) o, prox_project y = Ok (r, o) /\ nsum r < 1) /\
  (exists (y r : list R) o, prox_project y = Ok (r, o) /\ 1 <= nsum (map ppos y) /\ 1 < nsum r).
Proof.
  split.
  - exists [1/2; -1]. eexists. eexists.
    assert (S : nsum (map ppos [1/2; -1]) = 1/2).
    { cbn [map]. unfold ppos. rewrite (Rmax_left (1/2) 0), (Rmax_right (-1) 0) by lra. rewrite !nsum_cons, nsum_nil. lra. }
    rewrite prox_small; [split; [reflexivity|rewrite S; lra]|discriminate|lra].
  - destruct (prox_spec [0; 2]) as (m&th&Hm&T1&T2&ET&E); [discriminate|].
    exists [0; 2]. eexists. eexists. split; [exact E|].
    assert (P : map ppos [0; 2] = [0; 2]).
    { cbn [map]. unfold ppos. rewrite !Rmax_left by lra. auto. }
    rewrite P in *.
    assert (SU : sort_desc [0; 2] = [2; 0]).
    { cbn. destruct (Rltb_spec 0 2); [reflexivity|lra]. }
    rewrite SU in *. cbn [length] in *.
    assert (A0 : tau [2; 0] 0 = 1) by (unfold tau; cbn; lra).
    assert (A1 : tau [2; 0] 1 = 1/2) by (unfold tau; cbn; lra).
    destruct m as [|[|m]]; [|subst th|lia].
    { rewrite A0 in T1. cbn in T1. lra. }
    rewrite A1 in *. rewrite (Rmax_left (1/2) 0) in * by lra.
    cbn [map]. unfold ppos. rewrite (Rmax_right (0 - 1/2) 0), (Rmax_left (2 - 1/2) 0) by lra.
    rewrite !nsum_cons, nsum_nil. lra.
Qed.

(** *** Adam against the published rule *)
Lemma adam_equal : forall (p : adam_par R) K (h : list (list R * list R)), h <> [] ->
  (forall l g, In (l, g) h -> length l = K /\ length g = K) -> ad_b1 p = ad_b2 p ->
  exists v, adam_history p None h = Ok (Some v) /\
    forall k, (k < K)%nat -> let gs := map (fun lg => nth k (snd lg) 0) h in
      nth k (iv_lamb v) 0 = adam_next (ad_alpha p) (ad_b1 p) (ad_b2 p) (ad_eps p) (1 - ad_b2 p) gs
                                      (nth k (fst (last h ([], []))) 0).
Proof.
  intros p K h NE HL EB. destruct (adam_history_spec p K h NE HL) as (v&E&_&_&_&_&V).
  exists v. split; auto. intros k Hk gs. destruct (V k Hk) as (_&_&X). fold gs in X. rewrite X, EB. reflexivity.
Qed.

Lemma adam_one : forall (p : adam_par R) lam g, exists v, adam_history p None [([lam], [g])] = Ok (Some v) /\
  nth 0 (iv_lamb v) 0 = adam_next (ad_alpha p) (ad_b1 p) (ad_b2 p) (ad_eps p) (1 - ad_b1 p) [g] lam.
Proof.
  intros p lam g. destruct (adam_history_spec p 1 [([lam], [g])]) as (v&E&_&_&_&_&V); [discriminate| |].
  - intros l g' [H|[]]. inversion H; auto.
  - exists v. split; auto. destruct (V 0%nat ltac:(lia)) as (_&_&X). exact X.
Qed.

Lemma adam_differs : forall (p : adam_par R) (lam g : R),
  0 < ad_b1 p < 1 -> 0 < ad_b2 p < 1 -> ad_b1 p <> ad_b2 p -> 0 < ad_alpha p -> 0 <= ad_eps p -> g <> 0 ->
  exists v, adam_history p None [([lam], [g])] = Ok (Some v) /\
    nth 0 (iv_lamb v) 0 <> adam_next (ad_alpha p) (ad_b1 p) (ad_b2 p) (ad_eps p) (1 - ad_b2 p) [g] lam.
Proof.
  intros p lam g B1 B2 NB A E0 G0. destruct (adam_one p lam g) as (v&E&V). exists v. split; auto. rewrite V.
  assert (Q : 0 < (1 - ad_b1 p) / (1 - ad_b2 p)) by (apply Rdiv_lt_0_compat; lra).
  assert (Q1 : (1 - ad_b2 p) / (1 - ad_b2 p) = 1) by (field; lra).
  rewrite !adam_first by (try lra; rewrite ?Q1; lra). rewrite Q1, sqrt_1.
  set (q := (1 - ad_b1 p) / (1 - ad_b2 p)) in *.
  assert (GP : 0 < Rabs g) by (apply Rabs_pos_lt; auto).
  assert (SP : 0 < sqrt q) by (apply sqrt_lt_R0; auto).
  intros H.
  assert (D1 : 0 < sqrt q * Rabs g + ad_eps p).
  { assert (0 < sqrt q * Rabs g) by (apply Rmult_lt_0_compat; auto). lra. }
  assert (H2 : ad_alpha p * g / (sqrt q * Rabs g + ad_eps p) = ad_alpha p * g / (1 * Rabs g + ad_eps p)) by lra.
  assert (AG : ad_alpha p * g <> 0) by (apply Rmult_integral_contrapositive; split; lra).
  assert (H3 : / (sqrt q * Rabs g + ad_eps p) = / (1 * Rabs g + ad_eps p)).
  { apply (Rmult_eq_reg_l (ad_alpha p * g)); auto. }
  assert (H4 : sqrt q * Rabs g + ad_eps p = 1 * Rabs g + ad_eps p).
  { rewrite <- (Rinv_inv (sqrt q * Rabs g + ad_eps p)), H3, Rinv_inv. reflexivity. }
  assert (H5 : sqrt q = 1) by (apply (Rmult_eq_reg_r (Rabs g)); lra).
  assert (H6 : q = 1) by (rewrite <- (sqrt_sqrt q) by lra; rewrite H5; ring).
  apply NB. unfold q in H6. apply (Rmult_eq_compat_r (1 - ad_b2 p)) in H6.
  unfold Rdiv in H6. rewrite Rmult_assoc, Rinv_l in H6 by lra. lra.
Qed.

Lemma adam_default : forall (p : adam_par R) (lam g : R),
  ad_b1 p = 9/10 -> ad_b2 p = 999/1000 ->
  exists v, adam_history p None [([lam], [g])] = Ok (Some v) /\
    nth 0 (iv_lamb v) 0 = lam - ad_alpha p * g / (10 * Rabs g + ad_eps p) /\
    adam_next (ad_alpha p) (ad_b1 p) (ad_b2 p) (ad_eps p) (1 - ad_b2 p) [g] lam
      = lam - ad_alpha p * g / (Rabs g + ad_eps p).
Proof.
  intros p lam g B1 B2. destruct (adam_one p lam g) as (v&E&V). exists v. split; auto. rewrite V, B1, B2.
  assert (X1 : (1 - 9/10) / (1 - 999/1000) = 10 * 10) by field.
  assert (X2 : (1 - 999/1000) / (1 - 999/1000) = 1) by field.
  rewrite !adam_first by (rewrite ?X1, ?X2; lra). rewrite X1, X2, sqrt_1, sqrt_square by lra.
  rewrite Rmult_1_l. auto.
Qed.
