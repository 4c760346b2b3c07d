(** L_Torch5: C59 and the tuning loop (C61, C73). *)
From Verif Require Import Base TreeSpec Spec SpecTorch M_Gamma M_Smooth M_Torch M_Pytorch L_Base L_Gamma L_Gamma2 L_Grad L_Sgd L_Sgd2 L_Smooth L_Smooth4 L_Tune L_Torch L_Torch2 L_Torch3 L_Torch4.
From Coq Require Import Reals Lra Lia.
Local Open Scope R_scope.

(** ** initial weights *)

Lemma score_init : forall K V x xs l, (l < K)%nat ->
  score K V (map (fun l => (repeat n0 V, if Nat.eqb l 0 then nmul n1 x else n0)) (seq 0 K)) xs l = if Nat.eqb l 0 then x else 0.
Proof.
  intros K V x xs l Hl. unfold score. rewrite nth_map_seq by auto. cbn [Nat.add fst snd].
  rewrite sumto_zero; [destruct (Nat.eqb l 0); rn; ring|]. intros v Hv. rewrite nth_repeat_lt by auto. rn. ring.
Qed.

Lemma sumto_first : forall n f a, (0 < n)%nat -> (forall i, (0 < i < n)%nat -> f i = a) -> sumto n f = f 0%nat + INR (n - 1) * a.
Proof.
  intros n f a Hn H. destruct n; [lia|]. clear Hn. induction n as [|n IH].
  - cbn. ring.
  - change (sumto (S (S n)) f) with (sumto (S n) f + f (S n)). rewrite IH by (intros; apply H; lia). rewrite (H (S n)) by lia.
    replace (S (S n) - 1)%nat with (S n) by lia. replace (S n - 1)%nat with n by lia. rewrite S_INR. ring.
Qed.

Lemma p_C59_init : forall V K x, (0 < K)%nat ->
  (x <= 0 -> softmax_tree_fit V K (InitScalar x) = Err ValueError) /\
  (0 < x -> V = 0%nat -> softmax_tree_fit V K (InitScalar x) = Err ZeroDivisionError) /\
  (0 < x -> (0 < V)%nat -> exists par, softmax_tree_fit V K (InitScalar x) = Ok {| m_vars := V; m_dim := K; m_lin := par |} /\ length par = K /\
    (forall l, (l < K)%nat -> length (fst (nth l par ([], 0))) = V) /\
    forall xs k, (k < K)%nat ->
      soft K (score K V par xs) k = (if Nat.eqb k 0 then exp x else 1) / (exp x + INR (K - 1))).
Proof.
  intros V K x HK. unfold softmax_tree_fit, nleb. change (@nltb R _ n0 x) with (Rltb 0 x). destruct (Rltb_spec 0 x) as [P|P]; cbn [negb].
  2:{ split; [reflexivity|]. split; intros; lra. }
  split; [intros; lra|]. split; [intros _ ->; destruct K; [lia|reflexivity]|]. intros _ HV.
  destruct (Nat.eqb_spec V 0) as [Z|_]; [lia|]. cbn [andb].
  eexists. split; [reflexivity|]. split; [rewrite map_length; apply seq_length|]. split.
  - intros l Hl. rewrite nth_map_seq by auto. cbn [fst]. apply repeat_length.
  - intros xs k Hk. unfold soft.
    assert (E : forall l, (l < K)%nat -> exp (score K V (map (fun l => (repeat n0 V, if Nat.eqb l 0 then nmul n1 x else n0)) (seq 0 K)) xs l)
                = if Nat.eqb l 0 then exp x else 1).
    { intros l Hl. rewrite score_init by auto. destruct (Nat.eqb l 0); [reflexivity|apply exp_0]. }
    rewrite E by auto. rewrite (sumto_ext K _ (fun l => if Nat.eqb l 0 then exp x else 1)) by (intros; apply E; auto).
    rewrite (sumto_first K _ 1) by (first [assumption | intros i Hi; destruct i; [lia|reflexivity]]). cbn [Nat.eqb]. rewrite Rmult_1_r. reflexivity.
Qed.

(** ** forward on a batch *)

Lemma forward_batch : forall K V par (it : @item R) y w (G E X : mat R) N C,
  it = {| it_y := batch_vec y; it_Gamma := batch_mat G; it_eta := batch_mat E; it_w := batch_vec w; it_x := batch_mat X |} ->
  (0 < K)%nat -> (0 < N)%nat -> length G = N -> length E = N -> length X = N -> rect K G -> rect K E -> rect C X -> (K * V <= C)%nat ->
  par_ok K V par ->
  exists yh la, forward exp {| m_vars := V; m_dim := K; m_lin := par |} it = Ok (yh, batch_vec w, la) /\
  sh yh = [1%nat; N; 1%nat] /\ length (dat yh) = N /\
  (forall i, (i < N)%nat -> nth i (dat yh) 0 = ratio K (nth i G []) (nth i E []) (soft K (score K V par (nth i X [])))) /\
  sh la = [1%nat; N; K; 1%nat] /\
  forall i k, (i < N)%nat -> (k < K)%nat -> get la [0%nat; i; k; 0%nat] = soft K (score K V par (nth i X [])) k.
Proof.
  intros K V par it y w G E X N C -> HK HN HG HE HX RG RE RX HC (_&HP).
  destruct (forward_ok K V par y w G E X N C HK HN HG HE HX RG RE RX HC HP) as (yh&la&F&S1&D&S2&L).
  exists yh, la. split; [exact F|]. split; auto. split; [rewrite D, map_length; apply seq_length|]. split; auto.
  intros i Hi. rewrite D, nth_map_seq by auto. reflexivity.
Qed.

(** too many variables for the columns of the batch *)
Lemma forward_index_error : forall K V par (it : @item R) (X : mat R) C,
  it_x it = batch_mat X -> (0 < K)%nat -> X <> [] -> rect C X -> (C <= K * (V - 1))%nat -> (0 < V)%nat ->
  forward exp {| m_vars := V; m_dim := K; m_lin := par |} it = Err IndexError.
Proof.
  intros K V par it X C EX HK NX RX HC HV. unfold forward. cbn [m_dim m_vars m_lin]. destruct K as [|K]; [lia|].
  cbn [seq mapM]. rewrite EX. unfold index_last at 1. cbn [sh batch_mat last]. rewrite (rect_ncols C X RX NX).
  replace (forallb _ _) with false; [reflexivity|]. symmetry. apply not_true_is_false. intros F. rewrite forallb_forall in F.
  specialize (F (0 + S K * (V - 1))%nat). rewrite Nat.ltb_lt in F. assert ((0 + S K * (V - 1) < C)%nat); [|lia].
  apply F. apply in_map_iff. exists (V - 1)%nat. split; auto. apply in_seq. lia.
Qed.

(** ** the loop *)

Section Loop.
Context {St : Type}.
Variables (opt : St -> list (list R * R) -> @item R -> St * list (list R * R)) (K V C : nat) (d dall : @dataset R).
Hypothesis HK : (0 < K)%nat.
Hypothesis HC : (K * V <= C)%nat.
Let N := length (ds_t d).
Hypothesis Ly : length (ds_y d) = N.
Hypothesis Lw : length (ds_w d) = N.
Hypothesis LG : length (ds_Gamma d) = N.
Hypothesis LE : length (ds_eta d) = N.
Hypothesis LX : length (ds_x d) = N.
Hypothesis RG : rect K (ds_Gamma d).
Hypothesis RE : rect K (ds_eta d).
Hypothesis RX : rect C (ds_x d).
Hypothesis Dall : dall = {| ds_y := ds_y d; ds_Gamma := ds_Gamma d; ds_eta := ds_eta d; ds_w := ds_w d; ds_t := map (fun _ => 0%nat) (ds_t d);
                            ds_x := ds_x d; ds_num := ds_num dall |}.
Hypothesis Hopt : forall s p x, par_ok K V p -> par_ok K V (snd (opt s p x)).

Lemma mask_len : forall A (q : nat) (l : list A), length l = N -> length (mask_select (map (fun i => Nat.eqb i q) (ds_t d)) l) = length (rows_of q (ds_t d)).
Proof. intros A q l H. symmetry. eapply F2_length. apply (picked_mask l (ds_t d) q). exact H. Qed.
Lemma mask_all : forall A (l : list A), length l = N -> mask_select (map (fun i => Nat.eqb i 0) (map (fun _ : nat => 0%nat) (ds_t d))) l = l.
Proof.
  intros A l. unfold N. generalize (ds_t d). intros tv. revert l. induction tv as [|a tv IH]; destruct l; cbn; intros H; try discriminate; auto.
  f_equal. apply IH. congruence.
Qed.

Definition loss_of := full_loss K V (ds_y d) (ds_w d) (ds_Gamma d) (ds_eta d) (ds_x d).

Lemma item_forward : forall q p, rows_of q (ds_t d) <> [] -> par_ok K V p ->
  exists yp la l, forward exp {| m_vars := V; m_dim := K; m_lin := p |} (getitem d q) = Ok (yp, it_w (getitem d q), la) /\
    weighted_l2 (it_y (getitem d q)) yp (it_w (getitem d q)) = Ok l.
Proof.
  intros q p NE PK. set (n := length (rows_of q (ds_t d))).
  assert (Hn : (0 < n)%nat) by (unfold n; destruct (rows_of q (ds_t d)); [congruence|cbn; lia]).
  destruct (forward_batch K V p (getitem d q) _ _ _ _ _ n C eq_refl HK Hn) as (yp&la&F&S1&D1&_); auto;
    try (apply mask_len; assumption).
  - intros r Hr. apply RG. eapply mask_select_incl; eauto.
  - intros r Hr. apply RE. eapply mask_select_incl; eauto.
  - intros r Hr. apply RX. eapply mask_select_incl; eauto.
  - exists yp, la. eexists. split; [exact F|]. unfold weighted_l2, getitem. cbn [it_y it_w].
    apply (loss_pairs _ _ _ _ n); auto; apply mask_len; assumption.
Qed.

Lemma all_forward : forall p, (0 < N)%nat -> par_ok K V p ->
  exists yp la, forward exp {| m_vars := V; m_dim := K; m_lin := p |} (getitem dall 0) = Ok (yp, it_w (getitem dall 0), la) /\
    weighted_l2 (it_y (getitem dall 0)) yp (it_w (getitem dall 0)) = Ok (loss_of p).
Proof.
  intros p HN PK.
  assert (EI : getitem dall 0 = {| it_y := batch_vec (ds_y d); it_Gamma := batch_mat (ds_Gamma d); it_eta := batch_mat (ds_eta d);
                                   it_w := batch_vec (ds_w d); it_x := batch_mat (ds_x d) |}).
  { rewrite Dall. unfold getitem. cbn [ds_y ds_Gamma ds_eta ds_w ds_t ds_x]. rewrite !mask_all by assumption. reflexivity. }
  destruct (forward_batch K V p (getitem dall 0) _ _ _ _ _ N C EI HK HN) as (yp&la&F&S1&D1&P1&_); auto.
  rewrite EI in *. cbn [it_w it_y]. exists yp, la. split; [exact F|]. unfold weighted_l2.
  rewrite (loss_pairs _ _ _ _ N) by assumption. f_equal. unfold loss_of, full_loss. rewrite Ly. unfold all_pairs. apply (f_equal2 Rdiv); [|reflexivity].
  apply sumto_ext. intros i Hi. apply sumto_ext. intros j Hj. rewrite P1 by auto. reflexivity.
Qed.

Lemma step_ok : forall st q, rows_of q (ds_t d) <> [] -> par_ok K V (ts_cells st) ->
  let op := opt (ts_opt st) (ts_cells st) (getitem d q) in
  let better := match ts_min st with None => true | Some m => nleb (loss_of (snd op)) m end in
  torch_step exp opt V K d dall st q =
  Ok {| ts_cells := snd op; ts_opt := fst op; ts_losses := ts_losses st ++ [loss_of (snd op)];
        ts_min := if better then Some (loss_of (snd op)) else ts_min st;
        ts_pmin := if better then seq 0 (length (snd op)) else ts_pmin st;
        ts_best := if better then Some (snd op) else ts_best st |}.
Proof.
  intros st q NE PK op better. unfold torch_step.
  assert (HN : (0 < N)%nat) by (unfold N; destruct (ds_t d); [exfalso; apply NE; reflexivity|cbn; lia]).
  destruct (item_forward q (ts_cells st) NE PK) as (yp&la&l&F1&L1). rewrite F1. cbn [bind]. rewrite L1. cbn [bind].
  destruct (all_forward (snd op) HN) as (yp2&la2&F2&L2); [apply Hopt; auto|]. fold op. rewrite F2. cbn [bind]. rewrite L2. cbn [bind]. reflexivity.
Qed.

(** the run: parameters and optimiser states before the first and after every step *)
Definition run_of (steps : list nat) (s0 : St) (p0 : list (list R * R)) (ps : list (list (list R * R))) (ss : list St) : Prop :=
  length ps = S (length steps) /\ length ss = S (length steps) /\ nth_error ps 0 = Some p0 /\ nth_error ss 0 = Some s0 /\
  forall i q, nth_error steps i = Some q -> exists s p s' p', nth_error ss i = Some s /\ nth_error ps i = Some p /\
    nth_error ss (S i) = Some s' /\ nth_error ps (S i) = Some p' /\ (s', p') = opt s p (getitem d q).

Lemma loop_ok : forall steps s0 p0, (forall q, In q steps -> rows_of q (ds_t d) <> []) -> par_ok K V p0 ->
  exists st ps ss, foldM (torch_step exp opt V K d dall) steps
    {| ts_cells := p0; ts_opt := s0; ts_losses := []; ts_min := None; ts_pmin := []; ts_best := None |} = Ok st /\
  run_of steps s0 p0 ps ss /\ Forall (par_ok K V) ps /\
  nth_error ps (length steps) = Some (ts_cells st) /\ nth_error ss (length steps) = Some (ts_opt st) /\
  ts_losses st = map loss_of (tl ps) /\
  (steps = [] -> ts_best st = None /\ ts_min st = None) /\
  (steps <> [] -> exists j b m, nth_error (tl ps) j = Some b /\ ts_best st = Some b /\ ts_min st = Some m /\ loss_of b = m /\
     ts_pmin st = seq 0 K /\
     (forall x, In x (ts_losses st) -> m <= x) /\ (forall i x, (j < i)%nat -> nth_error (ts_losses st) i = Some x -> m < x)).
Proof.
  intros steps s0 p0. induction steps as [|q steps IH] using rev_ind; intros HQ PK.
  - eexists. exists [p0], [s0]. split; [reflexivity|]. cbn [ts_cells ts_opt ts_losses ts_min ts_best length tl map nth_error].
    split; [|split; [repeat constructor; apply PK|]].
    + split; [reflexivity|]. split; [reflexivity|]. split; [reflexivity|]. split; [reflexivity|]. intros [|i] q H; discriminate.
    + split; [reflexivity|]. split; [reflexivity|]. split; [reflexivity|]. split; [intros _; split; reflexivity|intros Q; exfalso; apply Q; reflexivity].
  - destruct IH as (st&ps&ss&F&RU&FP&CP&CS&LO&_&NE); [intros q' Hq'; apply HQ, in_or_app; auto|auto|].
    destruct RU as (Lp&Ls&P0&S0&ST).
    assert (PC : par_ok K V (ts_cells st)).
    { rewrite Forall_forall in FP. apply FP. eapply nth_error_In; eauto. }
    assert (NQ : rows_of q (ds_t d) <> []) by (apply HQ, in_or_app; right; left; auto).
    pose proof (step_ok st q NQ PC) as SO. cbn zeta in SO.
    set (op := opt (ts_opt st) (ts_cells st) (getitem d q)) in *.
    assert (PO : par_ok K V (snd op)) by (apply Hopt; auto).
    eexists. exists (ps ++ [snd op]), (ss ++ [fst op]). split; [rewrite foldM_app, F; cbn [bind foldM]; rewrite SO; reflexivity|].
    cbn [ts_cells ts_opt ts_losses ts_min ts_best ts_pmin].
    split.
    { split; [rewrite !app_length; cbn; lia|]. split; [rewrite !app_length; cbn; lia|].
      split; [rewrite nth_error_app1 by lia; auto|]. split; [rewrite nth_error_app1 by lia; auto|].
      intros i q' Hq'. assert (Hi : (i < length (steps ++ [q]))%nat) by (apply nth_error_Some; congruence). rewrite app_length in Hi. cbn [length] in Hi.
      destruct (Nat.eq_dec i (length steps)) as [->|NI].
      - rewrite nth_error_app2, Nat.sub_diag in Hq' by lia. cbn in Hq'. assert (q' = q) by congruence. subst q'.
        exists (ts_opt st), (ts_cells st), (fst op), (snd op). rewrite !nth_error_app1 by lia. split; auto. split; auto.
        rewrite !nth_error_app2 by lia. rewrite Lp, Ls, Nat.sub_diag. split; [reflexivity|]. split; [reflexivity|]. destruct op eqn:EO. cbn [fst snd]. rewrite <- EO. reflexivity.
      - rewrite nth_error_app1 in Hq' by lia. destruct (ST i q' Hq') as (s&p&s'&p'&A1&A2&A3&A4&A5). exists s, p, s', p'.
        rewrite !nth_error_app1 by lia. auto. }
    split; [apply Forall_app; split; auto|].
    rewrite app_length. cbn [length]. replace (length steps + 1)%nat with (length ps) by lia.
    split; [rewrite nth_error_app2, Nat.sub_diag by lia; reflexivity|].
    replace (length ps) with (length ss) by lia.
    split; [rewrite nth_error_app2, Nat.sub_diag by lia; reflexivity|].
    assert (TL : tl (ps ++ [snd op]) = tl ps ++ [snd op]) by (destruct ps; [cbn in Lp; lia|reflexivity]).
    split; [rewrite TL, map_app, LO; reflexivity|].
    split; [intros Q; destruct steps; discriminate|]. intros _. rewrite TL.
    assert (LT : length (tl ps) = length steps) by (destruct ps; cbn in *; lia).
    assert (LL : length (ts_losses st) = length steps) by (rewrite LO, map_length; auto).
    assert (LK : length (snd op) = K) by apply PO.
    assert (NEW : nth_error (tl ps ++ [snd op]) (length steps) = Some (snd op)) by (rewrite nth_error_app2 by lia; rewrite LT, Nat.sub_diag; reflexivity).
    assert (BIG : forall i x, (length steps < i)%nat -> nth_error (ts_losses st ++ [loss_of (snd op)]) i = Some x -> False).
    { intros i x Hi Hx. assert (i < length (ts_losses st ++ [loss_of (snd op)]))%nat by (apply nth_error_Some; congruence). rewrite app_length in H. cbn in H. lia. }
    destruct steps as [|q0 steps'].
    { assert (E1 : ts_losses st = []) by (destruct (ts_losses st); [reflexivity|discriminate]).
      assert (E0 : ts_min st = None).
      { cbn in F. assert (st = {| ts_cells := p0; ts_opt := s0; ts_losses := []; ts_min := None; ts_pmin := []; ts_best := None |}) by congruence. subst st. reflexivity. }
      rewrite E0. exists 0%nat, (snd op), (loss_of (snd op)). split; [exact NEW|]. split; [reflexivity|]. split; [reflexivity|]. split; [reflexivity|].
      split; [rewrite LK; reflexivity|]. rewrite E1. split; [intros x [<-|[]]; lra|]. intros i x Hi Hx. exfalso. rewrite E1 in BIG. eapply BIG; eauto. }
    destruct (NE ltac:(discriminate)) as (j&b&m&J1&J2&J3&J4&J5&J6&J7). rewrite J3. unfold nleb.
    change (@nltb R _ m (loss_of (snd op))) with (Rltb m (loss_of (snd op))). destruct (Rltb_spec m (loss_of (snd op))) as [B|B]; cbn [negb].
    + exists j, b, m. split; [rewrite nth_error_app1; auto; apply nth_error_Some; congruence|]. split; auto. split; auto. split; auto. split; auto. split.
      * intros x Hx. apply in_app_or in Hx. destruct Hx as [Hx|[<-|[]]]; [auto|lra].
      * intros i x Hi Hx. destruct (Nat.lt_ge_cases i (length (ts_losses st))) as [L|L].
        -- rewrite nth_error_app1 in Hx by auto. eapply J7; eauto.
        -- rewrite nth_error_app2 in Hx by auto. destruct (i - length (ts_losses st))%nat as [|u]; cbn in Hx; [congruence|destruct u; discriminate].
    + exists (length (q0 :: steps')), (snd op), (loss_of (snd op)). split; [exact NEW|]. split; [reflexivity|]. split; [reflexivity|]. split; [reflexivity|].
      split; [rewrite LK; reflexivity|]. split.
      * intros x Hx. apply in_app_or in Hx. destruct Hx as [Hx|[<-|[]]]; [|lra]. specialize (J6 x Hx). lra.
      * intros i x Hi Hx. exfalso. eapply BIG; eauto.
Qed.
End Loop.
