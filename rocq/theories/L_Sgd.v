(** L_Sgd: lemmas about the descent loops. *)
From Verif Require Import Base TreeSpec Spec M_Gamma M_Prox M_Grad M_Sgd L_Base L_Prox.
From Coq Require Import Reals Lra.
Local Open Scope R_scope.

Lemma bind_ok : forall {A B} (x : result A) (f : A -> result B) b,
  bind x f = Ok b -> exists a, x = Ok a /\ f a = Ok b.
Proof. intros A B [a|e] f b H; simpl in H; [eauto|discriminate]. Qed.
Lemma bind_err : forall {A B} (x : result A) (f : A -> result B) e,
  bind x f = Err e -> x = Err e \/ exists a, x = Ok a /\ f a = Err e.
Proof. intros A B [a|e'] f e H; simpl in H; [eauto|]. inversion H; auto. Qed.

Ltac bok H := let a := fresh "a" in let E := fresh "E" in apply bind_ok in H; destruct H as (a&E&H).

(** *** a fold is run prefix by prefix *)
Lemma foldM_prefix : forall {A B} (f : A -> B -> result A) l a r, foldM f l a = Ok r ->
  forall s, (s <= length l)%nat -> exists x, foldM f (firstn s l) a = Ok x.
Proof.
  induction l; intros a0 r H s Hs; destruct s; simpl in *; eauto; try lia.
  bok H. rewrite E. simpl. eapply IHl; eauto. lia.
Qed.
Lemma foldM_snoc : forall {A B} (f : A -> B -> result A) l x a,
  foldM f (l ++ [x]) a = (do b <- foldM f l a; f b x).
Proof.
  intros. rewrite foldM_app. destruct (foldM f l a); simpl; auto. destruct (f a0 x); auto.
Qed.
Lemma firstn_S_snoc : forall {A} (l : list A) s d, (s < length l)%nat ->
  firstn (S s) l = firstn s l ++ [nth s l d].
Proof.
  induction l; simpl; intros s d H; [lia|]. destruct s; auto. simpl. f_equal.
  rewrite <- IHl by lia. reflexivity.
Qed.

Section Run.
Variables (L : loss R) (proj : list R -> result (list R)) (cons : bool) (t_fix : R)
          (ad : option (adam_par R)) (P : problem R) (nt : nat).
Notation step := (sgd_step L proj cons t_fix ad P nt).

(** invariant of the loop, for some trajectory *)
Definition sgd_inv (init : list R) (st : sgd_state R) (its : list (list R)) : Prop :=
  hd_error its = Some init /\ length (g_costs st) = length its /\ g_lamb st = last its [] /\
  (forall s, (s < length its)%nat -> l_cost L P (nth s its []) = Ok (nth s (g_costs st) 0)) /\
  exists b, (b < length its)%nat /\ g_best st = nth b its [] /\ g_cbest st = nth b (g_costs st) 0 /\
    (forall s, (s < length its)%nat -> nth b (g_costs st) 0 <= nth s (g_costs st) 0) /\
    (forall s, (s < b)%nat -> nth b (g_costs st) 0 < nth s (g_costs st) 0).

Lemma step_shape : forall st d st', step st d = Ok st' ->
  exists c, l_cost L P (g_lamb st') = Ok c /\ g_costs st' = g_costs st ++ [c] /\
    (c < g_cbest st /\ g_best st' = g_lamb st' /\ g_cbest st' = c \/
     g_cbest st <= c /\ g_best st' = g_best st /\ g_cbest st' = g_cbest st).
Proof.
  intros st d st' H. unfold sgd_step in H. bok H. destruct a as [l1 iv1]. bok H. bok H.
  inversion H; subst; clear H. cbn [g_lamb g_costs g_best g_cbest]. exists a0.
  split; auto. split; auto. rn. destruct (Rltb_spec a0 (g_cbest st)); auto.
Qed.

Lemma last_snoc : forall {A} (l : list A) x d, last (l ++ [x]) d = x.
Proof. intros. apply last_last. Qed.

Lemma sgd_inv_step : forall init st its d st', sgd_inv init st its -> step st d = Ok st' ->
  sgd_inv init st' (its ++ [g_lamb st']).
Proof.
  intros init st its d st' (I1&I2&I3&I4&b&Hb&Ib&Ic&Imin&Ifirst) S.
  destruct (step_shape _ _ _ S) as (c&Ec&Eco&Cmp).
  assert (NC : forall s, (s < length its)%nat -> nth s (g_costs st') 0 = nth s (g_costs st) 0).
  { intros. rewrite Eco, app_nth1 by lia. auto. }
  assert (NL : nth (length its) (g_costs st') 0 = c).
  { rewrite Eco, app_nth2, I2, Nat.sub_diag by lia. auto. }
  split; [destruct its; simpl in *; auto; try lia|].
  split; [rewrite Eco, !app_length; simpl; lia|].
  split; [symmetry; apply last_snoc|].
  split.
  { intros s Hs. rewrite app_length in Hs. simpl in Hs. destruct (Nat.eq_dec s (length its)) as [->|Ne].
    - rewrite app_nth2, Nat.sub_diag by lia. simpl. rewrite NL. auto.
    - rewrite app_nth1, NC by lia. apply I4. lia. }
  destruct Cmp as [(Lt&B1&B2)|(Ge&B1&B2)].
  - exists (length its). rewrite app_length. cbn [length]. split; [lia|].
    split; [rewrite B1, app_nth2, Nat.sub_diag by lia; auto|]. split; [rewrite NL; auto|].
    rewrite Ic in Lt.
    split; intros s Hs.
    + rewrite NL. destruct (Nat.eq_dec s (length its)) as [->|Ne]; [rewrite NL; lra|].
      rewrite NC by lia. pose proof (Imin s ltac:(lia)). lra.
    + rewrite NL, NC by lia. pose proof (Imin s ltac:(lia)). lra.
  - exists b. rewrite app_length. cbn [length]. split; [lia|].
    split; [rewrite B1, app_nth1 by lia; auto|]. split; [rewrite NC by lia; congruence|].
    split; intros s Hs.
    + rewrite (NC b) by lia. destruct (Nat.eq_dec s (length its)) as [->|Ne]; [rewrite NL; lra|].
      rewrite NC by lia. apply Imin. lia.
    + rewrite !NC by lia. apply Ifirst. lia.
Qed.

Definition st0 (init : list R) (c0 : R) : sgd_state R :=
  {| g_lamb := init; g_iv := None; g_best := init; g_cbest := c0; g_costs := [c0] |}.

Lemma sgd_inv_init : forall init c0, l_cost L P init = Ok c0 -> sgd_inv init (st0 init c0) [init].
Proof.
  intros. split; [auto|split; [auto|split; [auto|split]]].
  - intros s Hs. simpl in Hs. replace s with 0%nat by lia. simpl. auto.
  - exists 0%nat. simpl. split; [lia|]. split; auto. split; auto. split; intros s Hs; [|lia].
    replace s with 0%nat by lia. simpl. lra.
Qed.

Lemma fold_inv : forall init c0 draws st, l_cost L P init = Ok c0 ->
  foldM step draws (st0 init c0) = Ok st ->
  exists its, length its = S (length draws) /\ sgd_inv init st its /\
  forall s, (s <= length draws)%nat -> exists sts,
    foldM step (firstn s draws) (st0 init c0) = Ok sts /\ g_lamb sts = nth s its [] /\
    g_costs sts = firstn (S s) (g_costs st).
Proof.
  intros init c0 draws. induction draws using rev_ind; intros st C F.
  - simpl in F. inversion F; subst. exists [init]. split; auto. split; [apply sgd_inv_init; auto|].
    intros s Hs. simpl in Hs. replace s with 0%nat by lia. eexists. split; [reflexivity|]. auto.
  - rewrite foldM_snoc in F. bok F. destruct (IHdraws _ C E) as (its&LI&I&Pre).
    exists (its ++ [g_lamb st]). rewrite !app_length. cbn [length]. split; [lia|].
    split; [eapply sgd_inv_step; eauto|].
    destruct (step_shape _ _ _ F) as (c&_&Eco&_).
    assert (LC : length (g_costs a) = S (length draws)).
    { destruct I as (_&L2&_). lia. }
    intros s Hs. destruct (Nat.eq_dec s (length draws + 1)) as [->|Ne].
    + exists st. rewrite firstn_all2 by (rewrite app_length; simpl; lia).
      split; [rewrite foldM_snoc, E; auto|].
      split; [rewrite app_nth2 by lia; replace (length draws + 1 - length its)%nat with 0%nat by lia; auto|].
      rewrite firstn_all2; auto. rewrite Eco, app_length. simpl. lia.
    + destruct (Pre s ltac:(lia)) as (sts&F1&F2&F3). exists sts.
      rewrite firstn_app. replace (s - length draws)%nat with 0%nat by lia. change (firstn 0 [x]) with (@nil nat). rewrite app_nil_r.
      split; auto. split; [rewrite app_nth1 by lia; auto|].
      rewrite Eco, firstn_app. replace (S s - length (g_costs a))%nat with 0%nat by lia.
      change (firstn 0 [c]) with (@nil R). rewrite app_nil_r. auto.
Qed.
End Run.

Section Full.
Variables (L : loss R) (proj : list R -> result (list R)) (cons : bool) (t_fix : R)
          (ad : option (adam_par R)) (P : problem R).
Notation run := (sgd_run L proj cons t_fix ad P).

Lemma sgd_run_spec : forall init draws best lst costs, run init draws = Ok (best, lst, costs) ->
  exists its, length its = S (length draws) /\ length costs = S (length draws) /\
    nth 0 its [] = init /\ nth (length draws) its [] = lst /\
    (forall s, (s <= length draws)%nat ->
       l_cost L P (nth s its []) = Ok (nth s costs 0) /\
       exists bs, run init (firstn s draws) = Ok (bs, nth s its [], firstn (S s) costs)) /\
    exists b, (b <= length draws)%nat /\ best = nth b its [] /\
      (forall s, (s <= length draws)%nat -> nth b costs 0 <= nth s costs 0) /\
      (forall s, (s < b)%nat -> nth b costs 0 < nth s costs 0).
Proof.
  intros init draws best lst costs H. unfold sgd_run in H. bok H. bok H. bok H.
  inversion H; subst; clear H.
  destruct (fold_inv L proj cons t_fix ad P a0 init a draws a1 E E1) as (its&LI&I&Pre).
  destruct I as (I1&I2&I3&I4&b&Hb&Ib&Ic&Imin&Ifirst).
  exists its. split; auto. split; [lia|].
  split; [destruct its; simpl in *; [lia|congruence]|].
  split. { rewrite I3. clear -LI. revert LI. generalize (length draws). induction its as [|x its IH]; simpl; intros; [lia|].
    destruct n; simpl. - destruct its; simpl in *; [auto|lia]. - destruct its; simpl in *; [lia|]. apply IH. lia. }
  split.
  - intros s Hs. split; [apply I4; lia|]. destruct (Pre s Hs) as (sts&F1&F2&F3).
    exists (g_best sts). unfold sgd_run. rewrite E, E0. cbn [bind].
    change ({| g_lamb := init; g_iv := None; g_best := init; g_cbest := a; g_costs := [a] |}) with (st0 init a).
    rewrite F1. cbn [bind]. rewrite F2, F3. auto.
  - exists b. split; [lia|]. split; auto. split; auto. intros; apply Imin; lia.
Qed.

(** *** the start is rejected or the run is Ok / raises only what its parts raise *)
Lemma foldM_err : forall {A B} (f : A -> B -> result A) (Q : exn -> Prop),
  (forall a b e, f a b = Err e -> Q e) -> forall l a e, foldM f l a = Err e -> Q e.
Proof.
  intros A B f Q HF. induction l; intros a0 e H; simpl in H; [discriminate|].
  apply bind_err in H. destruct H as [H|(x&_&H)]; eauto.
Qed.
End Full.

Lemma fills_err : forall (G E : mat R) l e, fills G E l = Err e -> e = AssertionError.
Proof. intros. unfold fills in H. destruct (zero_ok _ _); congruence. Qed.
Lemma calc_cost_err : forall y (G E : mat R) w l e, calc_cost y G E w l = Err e -> e = AssertionError.
Proof.
  intros. unfold calc_cost in H. apply bind_err in H. destruct H as [H|([a b]&_&H)]; [eapply fills_err; eauto|discriminate].
Qed.
Lemma take_gradient_err : forall y (G E : mat R) w l e, take_gradient y G E w l = Err e -> e = AssertionError.
Proof.
  intros. unfold take_gradient in H. apply bind_err in H. destruct H as [H|([a b]&_&H)]; [eapply fills_err; eauto|discriminate].
Qed.
Lemma take_gradient_ce_err : forall y (G E : mat R) w l e, take_gradient_ce y G E w l = Err e -> e = AssertionError.
Proof.
  intros. unfold take_gradient_ce in H. apply bind_err in H. destruct H as [H|([a b]&_&H)]; [eapply fills_err; eauto|discriminate].
Qed.
Lemma adam_step_err : forall gf l (p : adam_par R) iv e, adam_step gf (Some l) p iv = Err e ->
  exists x, gf x = Err e.
Proof.
  intros gf l p iv e H. unfold adam_step in H. destruct iv; cbn [bind iv_lamb] in H;
  apply bind_err in H; destruct H as [H|(x&_&H)]; try discriminate; eauto.
Qed.
Lemma prox_value_err : forall (y : list R) e, prox_value y = Err e -> e = ValueError.
Proof.
  intros. unfold prox_value in H. apply bind_err in H. destruct H as [H|(x&_&H)]; [|discriminate].
  unfold prox_project in H. apply bind_err in H. destruct H as [H|(x&_&H)]; [|discriminate].
  unfold nmaximum in H. destruct (mask_select _ _); congruence.
Qed.

Lemma sgd_step_err : forall cons t ad (P : problem R) nt st d e,
  sgd_step l2_loss prox_value cons t ad P nt st d = Err e -> e = AssertionError \/ e = ValueError.
Proof.
  intros cons t ad P nt st d e H. unfold sgd_step in H. apply bind_err in H.
  destruct H as [H|([l1 iv1]&_&H)].
  - destruct ad.
    + apply bind_err in H. destruct H as [H|(x&_&H)]; [|discriminate].
      apply adam_step_err in H. destruct H as (x&H). left. eapply take_gradient_err; exact H.
    + apply bind_err in H. destruct H as [H|(x&_&H)]; [|discriminate]. left. eapply take_gradient_err; exact H.
  - apply bind_err in H. destruct H as [H|(x&_&H)].
    + destruct cons; [|discriminate]. right. eapply prox_value_err; eauto.
    + apply bind_err in H. destruct H as [H|(y&_&H)]; [|discriminate]. left. eapply calc_cost_err; exact H.
Qed.

Lemma sgd_run_err : forall cons t ad (P : problem R) init draws e,
  sgd_run l2_loss prox_value cons t ad P init draws = Err e -> e = AssertionError \/ e = ValueError.
Proof.
  intros cons t ad P init draws e H. unfold sgd_run in H. apply bind_err in H.
  destruct H as [H|(c0&_&H)]; [left; eapply calc_cost_err; exact H|].
  apply bind_err in H. destruct H as [H|(nt&_&H)].
  { unfold count_trees in H. destruct (p_tidx P); [inversion H; auto|discriminate]. }
  apply bind_err in H. destruct H as [H|(st&_&H)]; [|discriminate].
  apply (foldM_err _ (fun e => e = AssertionError \/ e = ValueError)) in H; auto.
  intros. eapply sgd_step_err; eauto.
Qed.

Lemma off_simplex_spec : forall l : list R, off_simplex l = true <-> nsum l <> 1 \/ exists x, In x l /\ x < 0.
Proof.
  intros. unfold off_simplex. rn. rewrite orb_true_iff, negb_true_iff, existsb_exists.
  assert (X : (exists x, In x l /\ Rltb x 0 = true) <-> (exists x, In x l /\ x < 0)).
  { split; intros (x&I1&L1); exists x; split; auto; [destruct (Rltb_spec x 0); [auto|discriminate]|apply Rltb_true; auto]. }
  rewrite X. destruct (Reqb_spec (nsum l) 1); intuition congruence.
Qed.

Lemma sgd_typeerror : forall (P : problem R) init t cons ad draws,
  stocastic_grad_descent P init t cons ad draws = Err TypeError <->
  ncols (p_Gamma P) <> length init \/ (cons = true /\ (nsum init <> 1 \/ exists x, In x init /\ x < 0)).
Proof.
  intros. unfold stocastic_grad_descent. destruct (Nat.eqb_spec (ncols (p_Gamma P)) (length init)); cbn [negb].
  2:{ split; auto. }
  rewrite <- off_simplex_spec. destruct cons; cbn [andb].
  - destruct (off_simplex init); [split; auto|]. split.
    + intros H. apply sgd_run_err in H. destruct H; discriminate.
    + intros [H|[_ H]]; [contradiction|discriminate].
  - split.
    + intros H. apply sgd_run_err in H. destruct H; discriminate.
    + intros [H|[H _]]; [contradiction|discriminate].
Qed.

(** *** lengths and signs *)
Lemma take_gradient_length : forall y (G E : mat R) w l g, take_gradient y G E w l = Ok g -> length g = length l.
Proof.
  intros. unfold take_gradient in H. apply bind_ok in H. destruct H as ([a b]&_&H). inversion H.
  rewrite map_length, seq_length. auto.
Qed.
Lemma prox_value_ok : forall (y r : list R), prox_value y = Ok r ->
  length r = length y /\ forall x, In x r -> 0 <= x.
Proof.
  intros y r H. destruct y as [|a y].
  { unfold prox_value, prox_project in H. simpl in H. discriminate. }
  destruct (prox_general (a :: y)) as (r'&E&Len&B); [congruence|].
  unfold prox_value in H. rewrite E in H. simpl in H. inversion H; subst. split; auto.
  intros x Hx. destruct (In_nth _ _ 0 Hx) as (i&Hi&<-). apply B. lia.
Qed.

Definition iv_len (n : nat) (o : option (adam_iv R)) : Prop :=
  match o with None => True | Some v => length (iv_m1 v) = n /\ length (iv_m2 v) = n end.

Lemma adam_step_length : forall gf l p iv r, adam_step gf (Some l) p iv = Ok r ->
  (forall x g, gf x = Ok g -> length g = length x) -> iv_len (length l) iv ->
  length (fst r) = length l /\ iv_len (length l) (Some (snd r)).
Proof.
  intros gf l p iv r H LG LI. unfold adam_step in H. 
  assert (X : exists v, iv_lamb v = l /\ length (iv_m1 v) = length l /\ length (iv_m2 v) = length l /\
     (do g <- gf l; Ok (iv_lamb (adam_update p v g), adam_update p v g)) = Ok r).
  { destruct iv as [v|]; cbn [bind iv_lamb iv_m1 iv_m2 iv_t] in H.
    - destruct LI. eexists. split; [|split; [|split; [|exact H]]]; auto.
    - eexists. split; [|split; [|split; [|exact H]]]; cbn; rewrite ?repeat_length; auto. }
  destruct X as (v&V1&V2&V3&X). bok X. inversion X; subst. apply LG in E.
  unfold adam_update, iv_len; cbn. rewrite ?map2_length, ?map_length, ?map2_length. lia.
Qed.

Definition good (n : nat) (cons : bool) (l : list R) : Prop :=
  length l = n /\ (cons = true -> forall x, In x l -> 0 <= x).

Lemma sgd_step_good : forall cons t ad (P : problem R) nt st d st' n,
  sgd_step l2_loss prox_value cons t ad P nt st d = Ok st' ->
  good n cons (g_lamb st) -> good n cons (g_best st) -> iv_len n (g_iv st) ->
  good n cons (g_lamb st') /\ good n cons (g_best st') /\ iv_len n (g_iv st').
Proof.
  intros cons t ad P nt st d st' n H [G1 G1'] [G2 G2'] V. unfold sgd_step in H. bok H. destruct a as [l1 iv1].
  assert (X : length l1 = n /\ iv_len n iv1).
  { destruct ad.
    - bok E. inversion E; subst. eapply adam_step_length in E0; eauto.
      intros x g Hg. eapply take_gradient_length. exact Hg.
    - bok E. inversion E; subst. apply take_gradient_length in E0. rewrite map2_length. simpl. split; auto. lia. }
  destruct X as [X1 X2]. bok H. bok H.
  assert (GA : good n cons a).
  { destruct cons; [destruct (prox_value_ok _ _ E0); split; auto; lia|]. inversion E0; subst. split; auto. discriminate. }
  inversion H as [Hst]. clear H Hst. cbn [g_lamb g_best g_iv].
  split; [exact GA|]. split; [|exact X2].
  match goal with |- context [if ?b then _ else _] => destruct b end; [exact GA|split; auto].
Qed.

Lemma sgd_good : forall (P : problem R) init t cons ad draws best lst costs,
  stocastic_grad_descent P init t cons ad draws = Ok (best, lst, costs) ->
  good (length init) cons best /\ good (length init) cons lst.
Proof.
  intros P init t cons ad draws best lst costs H. unfold stocastic_grad_descent in H.
  destruct (negb _); [discriminate|].
  destruct (cons && off_simplex init)%bool eqn:OS; [discriminate|].
  assert (G0 : good (length init) cons init).
  { split; auto. intros -> x Hx. simpl in OS. apply Rnot_lt_le. intros B.
    assert (off_simplex init = true) by (apply off_simplex_spec; right; eauto). congruence. }
  unfold sgd_run in H. bok H. bok H. bok H. inversion H; subst; clear H.
  assert (Inv : forall draws s s', foldM (sgd_step l2_loss prox_value cons t ad P a0) draws s = Ok s' ->
     good (length init) cons (g_lamb s) -> good (length init) cons (g_best s) -> iv_len (length init) (g_iv s) ->
     good (length init) cons (g_lamb s') /\ good (length init) cons (g_best s')).
  { clear. induction draws; simpl; intros s s' H A B C; [inversion H; subst; auto|].
    bok H. destruct (sgd_step_good _ _ _ _ _ _ _ _ _ E A B C) as (A'&B'&C'). eauto. }
  destruct (Inv _ _ _ E1); cbn; auto.
Qed.

(** *** the random choice does not matter when all indices are 0 *)
Lemma sgd_step_draw : forall L pr cons t ad (P : problem R) st d d',
  sgd_step L pr cons t ad P 1 st d = sgd_step L pr cons t ad P 1 st d'.
Proof. intros. unfold sgd_step. rewrite !Nat.mod_1_r. auto. Qed.
Lemma count_zero : forall l : list nat, (forall i, In i l -> i = 0%nat) -> l <> [] -> count_trees l = Ok 1%nat.
Proof.
  intros l H N. unfold count_trees. destruct l; [congruence|].
  assert (X : list_maxn (n :: l) = 0%nat).
  { apply H. apply list_maxn_in. discriminate. }
  rewrite X. auto.
Qed.
Lemma sgd_run_draws : forall L pr cons t ad (P : problem R) init d1 d2,
  (forall i, In i (p_tidx P) -> i = 0%nat) -> length d1 = length d2 ->
  sgd_run L pr cons t ad P init d1 = sgd_run L pr cons t ad P init d2.
Proof.
  intros L pr cons t ad P init d1 d2 Z LD. unfold sgd_run.
  destruct (l_cost L P init); simpl; auto.
  destruct (p_tidx P) eqn:ET; [reflexivity|]. rewrite count_zero by (auto; discriminate). cbn [bind].
  f_equal. generalize ({| g_lamb := init; g_iv := None; g_best := init; g_cbest := r; g_costs := [r] |}).
  clear - LD. revert d2 LD. induction d1; destruct d2; simpl; intros; try lia; auto.
  rewrite (sgd_step_draw _ _ _ _ _ _ s a n). destruct (sgd_step _ _ _ _ _ _ _ s n); simpl; auto.
Qed.
(** ... and every step then uses the whole problem *)
Lemma restrict_all : forall (P : problem R), (forall i, In i (p_tidx P) -> i = 0%nat) ->
  length (p_y P) = length (p_tidx P) -> length (p_w P) = length (p_tidx P) ->
  length (p_Gamma P) = length (p_tidx P) -> length (p_eta P) = length (p_tidx P) -> restrict P 0 = P.
Proof.
  intros P Z L1 L2 L3 L4. unfold restrict. destruct P as [y w G E I0]; simpl in *.
  assert (X : forall {A} (l : list A), length l = length I0 -> mask_select (map (fun i => Nat.eqb i 0) I0) l = l).
  { clear - Z. induction I0; destruct l; simpl; intros; try lia; auto.
    rewrite (Z a (or_introl eq_refl)). simpl. f_equal. apply IHI0; [|lia]. intros. apply Z. right; auto. }
  rewrite !X; auto.
Qed.

(** *** cross entropy: the projection always fails *)
Lemma sgd_ce_fails : forall lg (P : problem R) init t eps ad draws,
  draws <> [] -> ncols (p_Gamma P) = length init -> p_tidx P <> [] ->
  stocastic_grad_descent_ce lg P init t true eps ad draws = Err AssertionError.
Proof.
  intros lg P init t eps ad draws ND NC NT. unfold stocastic_grad_descent_ce.
  rewrite NC, Nat.eqb_refl. cbn [negb]. unfold sgd_run. cbn [l_cost ce_loss bind].
  unfold count_trees. destruct (p_tidx P) eqn:ET; [congruence|]. cbn [bind].
  destruct draws as [|d draws]; [congruence|]. cbn [foldM]. 
  match goal with |- bind (bind ?x _) _ = _ => assert (E : x = Err AssertionError) end.
  { unfold sgd_step. match goal with |- bind ?x _ = _ => destruct x as [[l1 iv1]|e] eqn:E end; cbn [bind].
    - reflexivity.
    - f_equal. destruct ad.
      + apply bind_err in E. destruct E as [E|(x&_&E)]; [|discriminate].
        apply adam_step_err in E. destruct E as (x&E). eapply take_gradient_ce_err; exact E.
      + apply bind_err in E. destruct E as [E|(x&_&E)]; [|discriminate]. eapply take_gradient_ce_err; exact E. }
  rewrite E. reflexivity.
Qed.
Lemma sgd_ce_never : forall lg (P : problem R) init t eps ad draws,
  draws <> [] -> exists e, stocastic_grad_descent_ce lg P init t true eps ad draws = Err e.
Proof.
  intros lg P init t eps ad draws ND.
  destruct (Nat.eq_dec (ncols (p_Gamma P)) (length init)) as [E|E].
  - destruct (p_tidx P) eqn:ET.
    + unfold stocastic_grad_descent_ce. rewrite E, Nat.eqb_refl. cbn [negb]. unfold sgd_run.
      cbn [l_cost ce_loss bind]. rewrite ET. simpl. eauto.
    + rewrite sgd_ce_fails; eauto. congruence.
  - unfold stocastic_grad_descent_ce. apply Nat.eqb_neq in E. rewrite E. simpl. eauto.
Qed.
