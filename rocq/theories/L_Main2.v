(** L_Main2: the arrays filled by check_rf_grow, and the comparison script. *)
From Verif Require Import Base TreeSpec M_Tree M_Gamma M_Levels M_Prox M_Grad M_Sgd M_Smooth M_Main Spec SpecMain.
From Verif Require Import L_Base L_Sgd L_Main.
From Coq Require Import Reals Lia Lra.
Local Open Scope R_scope.

(** ** Length of the costs *)
Lemma run_costs : forall L pr cons t ad (P : problem R) init draws b l c,
  sgd_run L pr cons t ad P init draws = Ok (b, l, c) -> length c = S (length draws).
Proof.
  intros L pr cons t ad P init draws b l c H. unfold sgd_run in H. bok H. bok H. bok H. injection H as _ _ <-.
  rename E1 into HF. assert (G : forall ds (s s' : sgd_state R), foldM (sgd_step L pr cons t ad P a0) ds s = Ok s' -> length (g_costs s') = (length (g_costs s) + length ds)%nat).
  { clear. induction ds as [|d ds IH]; intros s s' H; cbn [foldM] in H; [injection H as ->; cbn; lia|].
    bok H. rewrite (IH _ _ H). unfold sgd_step in E. cbv zeta in E. bok E. destruct a1 as [l1 iv]. bok E. bok E. injection E as <-.
    cbn [g_costs]. rewrite app_length. cbn. lia. }
  rewrite (G _ _ _ HF). cbn. lia.
Qed.
Lemma smooth_costs : forall lg rf (o : smooth_opts R) rd out, smooth lg rf o rd = Ok out -> o_sanity o = false ->
  length (s_costs out) = S (length (r_draws rd)).
Proof.
  intros lg rf o rd out H SAN. unfold smooth in H. destruct rf as [kd ts|]; [|discriminate].
  destruct (_ && _)%bool; [discriminate|]. destruct (match kd with Class _ => _ | Reg => _ end); [discriminate|].
  bok H. destruct a as [[G E0] Ti]. bok H. destruct a as [Y W]. bok H. destruct a as [[l ll] c]. bok H. bok H. injection H as <-. cbn [s_costs].
  unfold optimise in E2. rewrite SAN in E2.
  assert (A : forall P init t cons ad ds b l c, @stocastic_grad_descent R _ P init t cons ad ds = Ok (b, l, c) -> length c = S (length ds)).
  { clear. intros P init t cons ad ds b l c H. unfold stocastic_grad_descent in H.
    repeat match type of H with (if ?x then _ else _) = _ => destruct x; try discriminate end. eapply run_costs; eauto. }
  assert (B : forall P init t cons eps ad ds b l c, @stocastic_grad_descent_ce R _ lg P init t cons eps ad ds = Ok (b, l, c) -> length c = S (length ds)).
  { clear. intros P init t cons eps ad ds b l c H. unfold stocastic_grad_descent_ce in H.
    repeat match type of H with (if ?x then _ else _) = _ => destruct x; try discriminate end. eapply run_costs; eauto. }
  destruct kd; [|destruct (o_class_loss o)]; first [eapply A; exact E2|eapply B; exact E2].
Qed.

(** ** Writing *)
Definition shape (A : arr3 R) a b c := d_0 A = a /\ d_1 A = b /\ d_2 A = c.

Lemma set3_ok : forall (A : arr3 R) i j k v, (i < d_0 A)%nat -> (j < d_1 A)%nat -> (k < d_2 A)%nat ->
  exists A', set3 A i j k v = Ok A' /\ shape A' (d_0 A) (d_1 A) (d_2 A) /\ at3 A' i j k = v /\
    forall a b c, (a, b, c) <> (i, j, k) -> at3 A' a b c = at3 A a b c.
Proof.
  intros A i j k v Hi Hj Hk. unfold set3. rewrite (proj2 (Nat.ltb_lt _ _) Hi), (proj2 (Nat.ltb_lt _ _) Hj), (proj2 (Nat.ltb_lt _ _) Hk). cbn [andb].
  eexists. split; [reflexivity|]. split; [repeat split|]. cbn [at3]. rewrite !Nat.eqb_refl. split; auto.
  intros a b c N. destruct (Nat.eqb_spec a i), (Nat.eqb_spec b j), (Nat.eqb_spec c k); cbn [andb]; auto. congruence.
Qed.
Lemma set_scores_ok : forall l (A : arr3 R) i j, (length l <= d_0 A)%nat -> (i < d_1 A)%nat -> (j < d_2 A)%nat ->
  exists A', set_scores A i j l = Ok A' /\ shape A' (d_0 A) (d_1 A) (d_2 A) /\
    (forall k, (k < length l)%nat -> at3 A' k i j = nth k l 0) /\
    forall k a b, (a, b) <> (i, j) -> at3 A' k a b = at3 A k a b.
Proof.
  intros l A i j HL Hi Hj. unfold set_scores.
  assert (G : forall l s (A : arr3 R), (s + length l <= d_0 A)%nat -> (i < d_1 A)%nat -> (j < d_2 A)%nat ->
    exists A', foldM (fun A (it : nat * R) => set3 A (fst it) i j (snd it)) (combine (seq s (length l)) l) A = Ok A' /\ shape A' (d_0 A) (d_1 A) (d_2 A) /\
    (forall k, (k < length l)%nat -> at3 A' (s + k)%nat i j = nth k l 0) /\
    (forall k, (k < s)%nat -> at3 A' k i j = at3 A k i j) /\
    forall k a b, (a, b) <> (i, j) -> at3 A' k a b = at3 A k a b).
  { clear. induction l as [|v l IH]; intros s A HL Hi Hj.
    - exists A. cbn. repeat split; auto. intros; lia.
    - cbn [length] in HL. cbn [length seq combine foldM fst snd]. destruct (set3_ok A s i j v) as (A1&E1&(S1&S2&S3)&V1&O1); [lia|auto|auto|].
      rewrite E1. cbn [bind]. destruct (IH (S s) A1) as (A2&E2&SH&V2&P2&O2); [lia|lia|lia|].
      exists A2. split; auto. rewrite S1, S2, S3 in SH. split; auto. split; [|split].
      + intros [|k] Hk; cbn [nth]; [rewrite Nat.add_0_r, P2 by lia; auto|]. replace (s + S k)%nat with (S s + k)%nat by lia. apply V2. lia.
      + intros k Hk. rewrite P2 by lia. apply O1. intro E. injection E as E. lia.
      + intros k a b N. rewrite O2 by auto. apply O1. congruence. }
  destruct (G l 0%nat A HL Hi Hj) as (A'&E&SH&V&_&O). exists A'. auto.
Qed.
Lemma set_row_ok : forall (A : arr3 R) i j l, (i < d_0 A)%nat -> (j < d_1 A)%nat -> length l = d_2 A ->
  exists A', set_row A i j l = Ok A' /\ shape A' (d_0 A) (d_1 A) (d_2 A) /\
    (forall k, at3 A' i j k = nth k l 0) /\ forall a b k, (a, b) <> (i, j) -> at3 A' a b k = at3 A a b k.
Proof.
  intros A i j l Hi Hj HL. unfold set_row. rewrite (proj2 (Nat.ltb_lt _ _) Hi), (proj2 (Nat.ltb_lt _ _) Hj). cbn [andb negb].
  rewrite HL, Nat.eqb_refl. eexists. split; [reflexivity|]. split; [repeat split|]. cbn [at3]. rewrite !Nat.eqb_refl. split; auto.
  intros a b k N. destruct (Nat.eqb_spec a i), (Nat.eqb_spec b j); cbn [andb]; auto. congruence.
Qed.

(** ** The double loop *)
Lemma skipn_tail : forall {A} (l : list A) a x t, x :: t = skipn a l -> t = skipn (S a) l.
Proof.
  induction l as [|y l IH]; intros [|a] x t E; cbn [skipn] in *; try discriminate; [congruence|]. apply (IH a x t E).
Qed.
Section Grow.
Variable lg : R -> R.
Variable score : kind -> list (tree R) -> mat R * list R -> R.
Variable level : mat R * list R -> option (mat R * list R) -> bool -> bool -> bool -> list (tree R) -> result (list (tree R)).
Variable w : grow_args R.
Variable cells : nat -> nat -> cell R.
Let nd := length (w_depths w).
Let nj := w_draws w.
Let np := match w_style w with LevelBase => 2%nat | _ => 3%nat end.

Definition pass (i : nat) (dep : nat) (st : arr3 R * arr3 R) (j : nat) : result (arr3 R * arr3 R) :=
  do '(sc, c) <- grow_cell lg score level w dep (cells i j);
  do C' <- match w_style w with ElementBased => set_row (snd st) i j c | _ => Ok (snd st) end;
  do Sm' <- set_scores (fst st) i j sc;
  Ok (Sm', C').
Definition grid (l : list (nat * nat)) st : result (arr3 R * arr3 R) :=
  foldM (fun st (it : nat * nat) => foldM (pass (fst it) (snd it)) (seq 0 nj) st) l st.

Lemma cell_sizes : forall dep x sc c, grow_cell lg score level w dep x = Ok (sc, c) ->
  (length sc <= np)%nat /\ (w_style w = ElementBased -> length c = (w_max_iter w + 1)%nat /\ length sc = 3%nat).
Proof.
  clear. subst np. intros dep x sc c H. unfold grow_cell in H. bok H. destruct a as [[train tune] test]. destruct (w_style w) eqn:ES.
  - bok H. injection H as <- <-. cbn. split; [lia|discriminate].
  - bok H. bok H. bok H. injection H as <- <-. cbn [length]. split; [lia|]. intros _. split; auto.
    rewrite (smooth_costs _ _ _ _ _ E2) by reflexivity. cbn [r_draws]. rewrite map_length, seq_length. lia.
  - injection H as <- <-. cbn. split; [lia|discriminate].
Qed.

Definition stored (st : arr3 R * arr3 R) (i j : nat) : Prop :=
  exists dep sc c, nth_error (w_depths w) i = Some dep /\ grow_cell lg score level w dep (cells i j) = Ok (sc, c) /\
    (forall k, (k < length sc)%nat -> at3 (fst st) k i j = nth k sc 0) /\
    (w_style w = ElementBased -> forall k, at3 (snd st) i j k = nth k c 0).
Definition inv (st : arr3 R * arr3 R) (a b : nat) : Prop :=
  shape (fst st) np nd nj /\ shape (snd st) nd nj (w_max_iter w + 1) /\
  forall i j, (j < nj)%nat -> ((i < a)%nat \/ i = a /\ (j < b)%nat) -> stored st i j.

Lemma pass_ok : forall st a b dep r, inv st a b -> nth_error (w_depths w) a = Some dep -> (b < nj)%nat ->
  grow_cell lg score level w dep (cells a b) = Ok r -> exists st', pass a dep st b = Ok st' /\ inv st' a (S b).
Proof.
  intros [Sm C] a b dep [sc c] ((S1&S2&S3)&(C1&C2&C3)&I0) Ea Hb HG. cbn [fst snd] in *.
  assert (Ha : (a < nd)%nat) by (apply nth_error_Some; congruence).
  destruct (cell_sizes _ _ _ _ HG) as (LS&LC). unfold pass. rewrite HG. cbn [bind fst snd].
  assert (HC : exists C', match w_style w with ElementBased => set_row C a b c | _ => Ok C end = Ok C' /\ shape C' nd nj (w_max_iter w + 1) /\
     (w_style w = ElementBased -> forall k, at3 C' a b k = nth k c 0) /\ forall i j k, (i, j) <> (a, b) -> at3 C' i j k = at3 C i j k).
  { destruct (w_style w) eqn:ES; try (exists C; split; auto; split; [split; auto|]; split; auto; discriminate).
    destruct (LC eq_refl) as [L1 _]. destruct (set_row_ok C a b c) as (C'&E&SH&V&O); [lia|lia|lia|]. rewrite C1, C2, C3 in SH. exists C'. auto. }
  destruct HC as (C'&EC&SHC&VC&OC). rewrite EC. cbn [bind].
  destruct (set_scores_ok sc Sm a b) as (Sm'&ES&SHS&VS&OS); [lia|lia|lia|]. rewrite ES. cbn [bind].
  exists (Sm', C'). split; auto. split; [rewrite S1, S2, S3 in SHS; auto|]. split; auto.
  intros i j Hj D. destruct (Nat.eq_dec i a) as [->|NI]; [destruct (Nat.eq_dec j b) as [->|NJ]|].
  - exists dep, sc, c. cbn [fst snd]. auto.
  - destruct (I0 a j Hj ltac:(lia)) as (dep'&sc'&c'&A1&A2&A3&A4). exists dep', sc', c'. split; auto. split; auto. cbn [fst snd] in *. split.
    + intros k Hk. rewrite OS by congruence. auto.
    + intros EB k. rewrite OC by congruence. auto.
  - destruct (I0 i j Hj ltac:(lia)) as (dep'&sc'&c'&A1&A2&A3&A4). exists dep', sc', c'. split; auto. split; auto. cbn [fst snd] in *. split.
    + intros k Hk. rewrite OS by congruence. auto.
    + intros EB k. rewrite OC by congruence. auto.
Qed.
Lemma line_ok : forall a dep, nth_error (w_depths w) a = Some dep ->
  (forall j, (j < nj)%nat -> exists r, grow_cell lg score level w dep (cells a j) = Ok r) ->
  forall n b st, (b + n = nj)%nat -> inv st a b -> exists st', foldM (pass a dep) (seq b n) st = Ok st' /\ inv st' a nj.
Proof.
  intros a dep Ea HG. induction n as [|n IH]; intros b st Hn I0; cbn [seq foldM].
  - exists st. split; auto. replace nj with b by lia. auto.
  - destruct (HG b ltac:(lia)) as (r&Hr). destruct (pass_ok st a b dep r I0 Ea ltac:(lia) Hr) as (st1&E1&I1). rewrite E1. cbn [bind].
    apply IH; auto. lia.
Qed.
Lemma grid_ok : (forall i j dep, nth_error (w_depths w) i = Some dep -> (j < nj)%nat -> exists r, grow_cell lg score level w dep (cells i j) = Ok r) ->
  forall l a st, l = skipn a (w_depths w) -> (a <= nd)%nat -> inv st a 0 ->
  exists st', grid (combine (seq a (length l)) l) st = Ok st' /\ inv st' nd 0.
Proof.
  intros HG. induction l as [|dep l IH]; intros a st El La I0.
  - exists st. split; auto. assert (E : length (skipn a (w_depths w)) = O) by (rewrite <- El; auto). rewrite skipn_length in E. fold nd in E.
    replace nd with a by lia. auto.
  - assert (Ea : nth_error (w_depths w) a = Some dep).
    { rewrite <- (firstn_skipn a (w_depths w)), <- El, nth_error_app2; rewrite firstn_length; fold nd; [|lia].
      replace (a - Nat.min a nd)%nat with O by lia. auto. }
    assert (Ha : (a < nd)%nat) by (apply nth_error_Some; congruence).
    unfold grid. cbn [length seq combine foldM fst snd].
    destruct (line_ok a dep Ea (fun j => HG a j dep Ea) nj 0%nat st eq_refl I0) as (st1&E1&I1). rewrite E1. cbn [bind].
    apply (IH (S a) st1); [|lia|].
    + eapply skipn_tail; eauto.
    + destruct I1 as (A&B&I1). split; auto. split; auto. intros i j Hj D. apply I1; auto. destruct (Nat.eq_dec i a); [right; auto|left; lia].
Qed.
Lemma grid_inv : forall l a st st', grid (combine (seq a (length l)) l) st = Ok st' ->
  forall i j dep, nth_error l i = Some dep -> (j < nj)%nat -> exists r, grow_cell lg score level w dep (cells (a + i) j) = Ok r.
Proof.
  induction l as [|d l IH]; intros a st st' H i j dep Ei Hj; [destruct i; discriminate|].
  unfold grid in H. cbn [length seq combine foldM fst snd] in H. bok H. destruct i as [|i]; cbn [nth_error] in Ei.
  - injection Ei as ->. rewrite Nat.add_0_r. clear -E Hj.
    assert (G : forall n b s s', foldM (pass a dep) (seq b n) s = Ok s' -> forall j, (b <= j < b + n)%nat -> exists r, grow_cell lg score level w dep (cells a j) = Ok r).
    { induction n as [|n IH]; intros b s s' H k Hk; [lia|]. cbn [seq foldM] in H. bok H. destruct (Nat.eq_dec k b) as [->|N].
      - unfold pass in E0. destruct (grow_cell lg score level w dep (cells a b)) as [r|]; [eauto|discriminate].
      - eapply IH; eauto. lia. }
    eapply G; eauto. lia.
  - replace (a + S i)%nat with (S a + i)%nat by lia. eapply IH; eauto.
Qed.
Lemma check_eq : w_type w <> TOther -> check_rf_grow lg score level w cells =
  bind (grid (combine (seq 0 nd) (w_depths w)) (zeros3 np nd nj, zeros3 nd nj (w_max_iter w + 1)))
    (fun '(Sm, C) => match w_style w with LevelBase => Ok (Sm, None) | ElementBased => Ok (Sm, Some C) | OtherStyle => Err UnboundLocalError end).
Proof.
  intros NT. unfold check_rf_grow. destruct (w_type w); [| |congruence];
    (unfold grid, pass, np, nd, nj; destruct (w_style w); reflexivity).
Qed.
Lemma start_inv : inv (zeros3 np nd nj, zeros3 nd nj (w_max_iter w + 1)) 0 0.
Proof. split; [repeat split|]. split; [repeat split|]. intros i j _ D. lia. Qed.

Lemma check_ok : w_type w <> TOther -> w_style w <> OtherStyle ->
  (forall i j dep, nth_error (w_depths w) i = Some dep -> (j < nj)%nat -> exists r, grow_cell lg score level w dep (cells i j) = Ok r) ->
  exists Sm C, check_rf_grow lg score level w cells = Ok (Sm, C).
Proof.
  intros NT NS HG. rewrite check_eq by auto. destruct (grid_ok HG (w_depths w) 0%nat _ eq_refl ltac:(lia) start_inv) as ([Sm C]&E&_).
  fold nd in E. rewrite E. cbn [bind]. destruct (w_style w); [eauto|eauto|congruence].
Qed.
Lemma check_stored : forall Sm C, check_rf_grow lg score level w cells = Ok (Sm, C) ->
  exists Cm, inv (Sm, Cm) nd 0 /\ match w_style w with LevelBase => C = None | ElementBased => C = Some Cm | OtherStyle => False end.
Proof.
  intros Sm C H. assert (NT : w_type w <> TOther) by (intro E; unfold check_rf_grow in H; rewrite E in H; discriminate).
  rewrite check_eq in H by auto. bok H. pose proof E as E0. unfold nd in E0.
  pose proof (grid_inv _ _ _ _ E0) as HG. cbn [Nat.add] in HG.
  destruct (grid_ok HG (w_depths w) 0%nat _ eq_refl ltac:(lia) start_inv) as ([Sm1 C1]&E1&I1). fold nd in E1. rewrite E1 in E. injection E as <-.
  exists C1. assert (G : Sm1 = Sm /\ match w_style w with LevelBase => C = None | ElementBased => C = Some C1 | OtherStyle => False end).
  { clear -H. revert H. generalize (w_style w). intros [| |] H; [injection H as <- <-; auto|injection H as <- <-; auto|discriminate]. }
  destruct G as [<- G]. auto.
Qed.
End Grow.

(** ** One pass *)
Lemma cell_data_ok : forall (w : grow_args R) (x : cell R) train tune test, cell_data w x = Ok (train, tune, test) -> pass_data w x train tune test.
Proof.
  intros w x train tune test H. unfold cell_data in H. unfold pass_data. destruct (w_data w); [|injection H as <- <- <-; auto|discriminate].
  assert (U : forall d : mat R * list R, moved d (fst d, map (fun v => nadd v (nof 100)) (snd d))).
  { intros d. split; auto. cbn [snd]. apply map_ext. intros v. rn. f_equal. rewrite INR_IZR_INZ. reflexivity. }
  injection H as <- <- <-. split; [apply U|]. split; [apply U|]. destruct (w_tuning w); auto. eexists. split; [reflexivity|apply U].
Qed.
Lemma grow_opts_ok : forall (w : grow_args R) (x : cell R) train tune all_trees seeded,
  (all_trees = true <-> w_batch w = AllTrees) -> (seeded = false <-> w_init w = RfInit) ->
  pass_call w x train tune (grow_opts w x train tune all_trees seeded) {| r_oob := x_oob x; r_boot := x_boot x; r_draws := map (x_draws x) (seq 0 (w_max_iter w)) |}.
Proof.
  intros w x train tune at_ sd HA HS. unfold pass_call, grow_opts.
  cbn [o_X_trained o_y_trained o_X_tune o_y_tune o_no_constraint o_sanity o_resample o_t_fix o_all_trees o_lamb_draws o_style o_dist o_class_eps o_class_loss o_adam r_oob r_boot r_draws].
  split; auto. split; auto. split; [destruct tune; auto|]. split; [destruct (w_constrained w); split; intro; auto; discriminate|].
  split; [destruct (w_tuning w); split; intro; auto; discriminate|]. split; auto.
  split; [rewrite <- HS; destruct sd; split; intro; auto; discriminate|].
  do 4 (split; auto). split; [cbn [npow]; rn; rewrite !INR_IZR_INZ; change (Z.of_nat 10) with 10%Z; field|]. split; auto.
  split; [|rewrite map_length, seq_length; auto].
  eexists. split; [reflexivity|]. cbn [ad_alpha ad_b1 ad_b2 ad_eps npow]. rn. rewrite !INR_IZR_INZ.
  change (Z.of_nat 1000) with 1000%Z. change (Z.of_nat 10) with 10%Z. change (Z.of_nat 9) with 9%Z. change (Z.of_nat 999) with 999%Z.
  repeat split; field.
Qed.

Lemma p_C97 : forall (lg : R -> R) score level (w : grow_args R) cells Sm C,
  check_rf_grow lg score level w cells = Ok (Sm, C) -> w_style w = ElementBased ->
  d_0 Sm = 3%nat /\ d_1 Sm = length (w_depths w) /\ d_2 Sm = w_draws w /\
  exists Cm, C = Some Cm /\ d_0 Cm = length (w_depths w) /\ d_1 Cm = w_draws w /\ d_2 Cm = (w_max_iter w + 1)%nat /\
  forall i j dep, nth_error (w_depths w) i = Some dep -> (j < w_draws w)%nat ->
    exists train tune test o rd out, pass_data w (cells i j) train tune test /\ pass_call w (cells i j) train tune o rd /\
      let kd := grow_kind w (cells i j) in let ts := x_fit (cells i j) dep train in
      smooth lg (Forest kd ts) o rd = Ok out /\
      at3 Sm 0 i j = score kd ts test /\ at3 Sm 1 i j = score kd (s_forest out) test /\ at3 Sm 2 i j = score kd (s_forest2 out) test /\
      length (s_costs out) = (w_max_iter w + 1)%nat /\ forall k, (k <= w_max_iter w)%nat -> at3 Cm i j k = nth k (s_costs out) 0.
Proof.
  intros lg score level w cells Sm C H ES. destruct (check_stored lg score level w cells Sm C H) as (Cm&((S1&S2&S3)&(C1&C2&C3)&I0)&EC).
  rewrite ES in *. cbn [fst snd] in *. split; auto. split; auto. split; auto. exists Cm. do 4 (split; auto).
  intros i j dep Ei Hj. assert (Hi : (i < length (w_depths w))%nat) by (apply nth_error_Some; congruence).
  destruct (I0 i j Hj (or_introl Hi)) as (dep'&sc&c&E1&E2&V&VC). assert (dep' = dep) by congruence. subst dep'.
  destruct (cell_sizes lg score level w dep _ _ _ E2) as (_&L3). destruct (L3 ES) as [L1 L2].
  unfold grow_cell in E2. bok E2. destruct a as [[train tune] test]. rewrite ES in E2. bok E2. bok E2. bok E2. rename a1 into out. injection E2 as <- <-.
  exists train, tune, test, (grow_opts w (cells i j) train tune a a0), {| r_oob := x_oob (cells i j); r_boot := x_boot (cells i j); r_draws := map (x_draws (cells i j)) (seq 0 (w_max_iter w)) |}, out.
  split; [apply cell_data_ok; auto|]. split.
  { apply grow_opts_ok.
    - destruct (w_batch w); try discriminate; match goal with H : Ok _ = Ok a |- _ => injection H as <- end; split; intro; auto; discriminate.
    - destruct (w_init w); try discriminate; match goal with H : Ok _ = Ok a0 |- _ => injection H as <- end; split; intro; auto; discriminate. }
  cbv zeta. split; auto. cbn [fst] in V. rewrite (V 0%nat), (V 1%nat), (V 2%nat) by (cbn; lia). cbn [nth]. do 3 (split; [reflexivity|]). split; [exact L1|].
  intros k _. apply VC. auto.
Qed.

Lemma p_C97_returns : forall (lg : R -> R) score level (w : grow_args R) cells,
  w_type w <> TOther -> w_style w = ElementBased -> w_data w <> OtherData -> w_batch w <> OtherBatch -> w_init w <> OtherInit ->
  (forall i j dep train tune test o rd, nth_error (w_depths w) i = Some dep -> (j < w_draws w)%nat ->
     pass_data w (cells i j) train tune test -> pass_call w (cells i j) train tune o rd ->
     exists out, smooth lg (Forest (grow_kind w (cells i j)) (x_fit (cells i j) dep train)) o rd = Ok out) ->
  exists Sm C, check_rf_grow lg score level w cells = Ok (Sm, C).
Proof.
  intros lg score level w cells NT ES ND NB NI H. apply check_ok; [auto|congruence|].
  intros i j dep Ei Hj. unfold grow_cell.
  assert (HD : exists train tune test, cell_data w (cells i j) = Ok (train, tune, test)).
  { unfold cell_data. destruct (w_data w); [eauto|eauto|congruence]. }
  destruct HD as (train&tune&test&HD). rewrite HD, ES. cbn [bind].
  assert (HB : exists b, match w_batch w with SingleTree => Ok false | AllTrees => Ok true | OtherBatch => Err UnboundLocalError end = Ok b /\ (b = true <-> w_batch w = AllTrees)).
  { destruct (w_batch w); [exists false|exists true|congruence]; split; auto; split; intro; auto; discriminate. }
  assert (HI : exists b, match w_init w with RfInit => Ok false | RandomInit => Ok true | OtherInit => Err UnboundLocalError end = Ok b /\ (b = false <-> w_init w = RfInit)).
  { destruct (w_init w); [exists false|exists true|congruence]; split; auto; split; intro; auto; discriminate. }
  destruct HB as (b&->&HB). destruct HI as (b'&->&HI). cbn [bind].
  destruct (H i j dep train tune test _ _ Ei Hj (cell_data_ok _ _ _ _ _ HD) (grow_opts_ok w (cells i j) train tune b b' HB HI)) as (out&E).
  rewrite E. cbn [bind]. eauto.
Qed.
Lemma p_C97_level : forall (lg : R -> R) score level (w : grow_args R) cells Sm C,
  check_rf_grow lg score level w cells = Ok (Sm, C) -> w_style w = LevelBase ->
  C = None /\ d_0 Sm = 2%nat /\ d_1 Sm = length (w_depths w) /\ d_2 Sm = w_draws w /\
  forall i j dep, nth_error (w_depths w) i = Some dep -> (j < w_draws w)%nat ->
    exists train tune test resample nc f, pass_data w (cells i j) train tune test /\
      (resample = true <-> w_tuning w = TuneResample) /\ (nc = true <-> w_constrained w = false) /\
      let kd := grow_kind w (cells i j) in let ts := x_fit (cells i j) dep train in
      level train tune resample nc (w_parents w) ts = Ok f /\ at3 Sm 0 i j = score kd ts test /\ at3 Sm 1 i j = score kd f test.
Proof.
  intros lg score level w cells Sm C H ES. destruct (check_stored lg score level w cells Sm C H) as (Cm&((S1&S2&S3)&(C1&C2&C3)&I0)&EC).
  rewrite ES in *. cbn [fst snd] in *. do 4 (split; auto).
  intros i j dep Ei Hj. assert (Hi : (i < length (w_depths w))%nat) by (apply nth_error_Some; congruence).
  destruct (I0 i j Hj (or_introl Hi)) as (dep'&sc&c&E1&E2&V&VC). assert (dep' = dep) by congruence. subst dep'.
  unfold grow_cell in E2. bok E2. destruct a as [[train tune] test]. rewrite ES in E2. bok E2. rename a into f. injection E2 as <- <-.
  exists train, tune, test, (match w_tuning w with TuneResample => true | _ => false end), (negb (w_constrained w)), f.
  split; [apply cell_data_ok; auto|]. split; [destruct (w_tuning w); split; intro; auto; discriminate|].
  split; [destruct (w_constrained w); split; intro; auto; discriminate|]. cbv zeta. split; auto.
  cbn [fst] in V. rewrite (V 0%nat), (V 1%nat) by (cbn; lia). auto.
Qed.
Lemma p_C97_unknown : forall (lg : R -> R) score level (w : grow_args R) cells,
  (w_type w = TOther -> check_rf_grow lg score level w cells = Err ValueError) /\
  (w_type w <> TOther -> w_depths w <> [] -> (0 < w_draws w)%nat ->
     w_data w = OtherData \/ w_style w = ElementBased /\ (w_batch w = OtherBatch \/ w_init w = OtherInit) ->
     check_rf_grow lg score level w cells = Err UnboundLocalError) /\
  forall Sm C, check_rf_grow lg score level w cells = Ok (Sm, C) -> w_style w <> OtherStyle.
Proof.
  intros lg score level w cells. split; [intros E; unfold check_rf_grow; rewrite E; auto|]. split.
  - intros NT ND HJ HU. rewrite check_eq by auto.
    assert (G : forall dep x, grow_cell lg score level w dep x = Err UnboundLocalError).
    { intros dep x. unfold grow_cell, cell_data. destruct HU as [E|[E HU]]; [rewrite E; auto|]. destruct (w_data w); auto; cbn [bind]; rewrite E.
      - destruct (w_batch w); cbn [bind]; auto; destruct HU as [HU|HU]; try discriminate; rewrite HU; auto.
      - destruct (w_batch w); cbn [bind]; auto; destruct HU as [HU|HU]; try discriminate; rewrite HU; auto. }
    destruct (w_depths w) as [|dep l]; [congruence|]. cbn [length seq combine]. unfold grid. cbn [foldM fst snd].
    destruct (w_draws w); [lia|]. cbn [seq foldM]. unfold pass at 1. rewrite G. reflexivity.
  - intros Sm C H ES. destruct (check_stored lg score level w cells Sm C H) as (Cm&_&F). rewrite ES in F. auto.
Qed.
Lemma p_C97_loss : forall (lg : R -> R) score level (w : grow_args R) cells l,
  check_rf_grow lg score level {| w_type := w_type w; w_depths := w_depths w; w_draws := w_draws w; w_data := w_data w; w_tuning := w_tuning w;
    w_constrained := w_constrained w; w_style := w_style w; w_parents := w_parents w; w_batch := w_batch w; w_init := w_init w;
    w_max_iter := w_max_iter w; w_t := w_t w; w_loss := l |} cells = check_rf_grow lg score level w cells.
Proof. reflexivity. Qed.

(** ** The comparison script *)
Lemma p_C98_never : forall (lg : R -> R) oob fit train rd range type, exists e, compare_sim lg oob fit train rd range type = Err e.
Proof.
  intros. unfold compare_sim. destruct (depth_search _ _ _) as [[dd r]|e]; cbn [bind]; [|eauto].
  destruct (fit _ _); cbn [bind]; [|eauto]. destruct (node_size_search _ _ _) as [[nn r']|e]; cbn [bind]; [|eauto].
  destruct (fit _ _); cbn [bind]; [|eauto]. destruct (fit _ _); cbn [bind dist_arg]; eauto.
Qed.
Lemma p_C98_error : forall (lg : R -> R) oob fit train rd range type, type <> TOther ->
  (forall kd p, exists rf, fit kd p = Ok rf) -> compare_sim lg oob fit train rd range type = Err ValueError.
Proof.
  intros lg oob fit train rd range type NT HF. unfold compare_sim.
  destruct (p_C93 (fun ty d => oob ty (MaxDepth d)) type range NT) as (bd&bs&E&_). rewrite E. cbn [bind fst].
  destruct (HF (compare_model type) (match bd with Some d => MaxDepth d | None => NoPar end)) as (rf1&->). cbn [bind].
  destruct (p_C93 (fun ty k => oob ty (MinSplit k)) TReg range ltac:(discriminate)) as (bn&bs'&_&E'&_). rewrite E'. cbn [bind fst].
  destruct (HF (compare_model type) (match bn with Some k => MinSplit k | None => NoPar end)) as (rf2&->). cbn [bind].
  destruct (HF (compare_model type) NoPar) as (rf3&->). reflexivity.
Qed.
Lemma p_C98_kind : forall (lg : R -> R) oob fit train rd range type other e, type <> TOther ->
  (type = TReg /\ other = TClass \/ type = TClass /\ other = TReg) -> (forall p, fit other p = Err e) ->
  compare_sim lg oob fit train rd range type = Err e.
Proof.
  intros lg oob fit train rd range type other e NT HO HF. unfold compare_sim.
  destruct (p_C93 (fun ty d => oob ty (MaxDepth d)) type range NT) as (bd&bs&E&_). rewrite E. cbn [bind fst].
  assert (EO : compare_model type = other) by (destruct HO as [[A B]|[A B]]; rewrite A, B; auto). rewrite EO, HF. reflexivity.
Qed.

(** ** Labels instead of one-hot rows *)
Lemma oracle_class : forall lg nc ts (o : smooth_opts R) rd X y, ts <> [] -> nc <> 1%nat ->
  o_X_tune o = Some X -> o_y_tune o = Some (map (fun v => [v]) y) -> o_resample o = false ->
  exists e, smooth lg (Forest (Class nc) ts) o rd = Err e.
Proof.
  intros lg nc ts o rd X y NT NC HX HY HR. destruct (smooth lg (Forest (Class nc) ts) o rd) as [out|e] eqn:H; [exfalso|eauto].
  unfold smooth in H. destruct (_ && _)%bool; [discriminate|]. destruct (o_no_constraint o); [discriminate|].
  apply bind_ok in H. destruct H as ([[G E0] Ti]&_&H). apply bind_ok in H. destruct H as (YW&H&_).
  unfold all_targets in H. destruct ts as [|t ts]; [congruence|].
  cbn [length seq combine foldM] in H. apply bind_ok in H. destruct H as (a1&H&_). unfold add_targets in H. cbn [fst snd n_gamma] in H.
  assert (ET : tuning_data (Class nc) o rd 0 = Ok (X, map (fun v => [v]) y)) by (unfold tuning_data, oob_logic; rewrite HX, HY, HR; reflexivity).
  rewrite ET in H. cbn [bind] in H. apply bind_ok in H. destruct H as ([yl w]&H&_).
  unfold leaf_targets in H. apply bind_ok in H. destruct H as (V&HV&H). destruct X as [|x X]; [discriminate|].
  destruct (Nat.eqb_spec (length (map (fun v : R => [v]) y)) (length (x :: X))) as [E|E]; [|discriminate]. cbn [negb] in H.
  destruct y as [|v y]; [discriminate|]. cbn [map forallb length] in H. destruct (Nat.eqb_spec 1 nc) as [E1|E1]; [congruence|discriminate].
Qed.
Lemma p_C97_oracle : forall (lg : R -> R) score level (w : grow_args R) cells,
  w_type w = TClass -> w_style w = ElementBased -> w_data w = Generated -> w_tuning w = TuneOracle ->
  w_depths w <> [] -> (0 < w_draws w)%nat ->
  (forall dep d, x_classes (cells 0%nat 0%nat) <> 1%nat /\ exists t, In t (x_fit (cells 0%nat 0%nat) dep d) /\ n_leaves t <> x_classes (cells 0%nat 0%nat)) ->
  exists e, check_rf_grow lg score level w cells = Err e.
Proof.
  intros lg score level w cells ET ES ED EU ND HJ HC. destruct (check_rf_grow lg score level w cells) as [[Sm C]|e] eqn:E; [exfalso|eauto].
  destruct (p_C97 _ _ _ _ _ _ _ E ES) as (_&_&_&Cm&_&_&_&_&H). destruct (w_depths w) as [|dep l]; [congruence|].
  destruct (H 0%nat 0%nat dep eq_refl HJ) as (train&tune&test&o&rd&out&PD&PC&HS&_).
  unfold pass_data in PD. rewrite ED, EU in PD. destruct PD as (_&_&u&->&_). destruct PC as (_&_&(HX&HY)&_&HR&_).
  destruct (HC dep train) as (NC&t&It&_). unfold grow_kind in HS. rewrite ET in HS.
  assert (NE : x_fit (cells 0%nat 0%nat) dep train <> []) by (intro X; rewrite X in It; destruct It).
  destruct (oracle_class lg (x_classes (cells 0%nat 0%nat)) _ o rd _ _ NE NC HX HY) as (e&HE); [|congruence].
  destruct (o_resample o); auto. destruct HR as [HR _]. rewrite EU in HR. specialize (HR eq_refl). discriminate.
Qed.
