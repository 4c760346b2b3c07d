(** L_Torch11: consequences for smooth_pytorch (C59, C60, C61, C73, C74, C75). *)
From Coq Require Import Reals Lra Lia Sorted.
From Verif Require Import Base TreeSpec Spec SpecSmooth SpecTune SpecDepth SpecBox SpecTorch M_Tree M_Gamma M_Levels M_Smooth M_Box M_More M_Torch M_Pytorch L_Base L_Tree L_TreeModel L_TreeModel2 L_Dist L_Gamma L_Gamma2 L_Levels L_Grad L_Sgd L_Sgd2 L_Smooth L_Smooth2 L_Smooth3 L_Smooth4 L_Tune L_Depth L_Depth2 L_Box L_More L_Level8 L_Torch L_Torch2 L_Torch3 L_Torch4 L_Torch5 L_Torch6 L_Torch7 L_Torch8 L_Torch9 L_Torch10.
Local Open Scope R_scope.

(** ** C59 *)
Lemma p_C59_forward : forall K V par y w (G E X : list (list R)), (0 < K)%nat -> G <> [] -> length E = length G -> length X = length G ->
  rect K G -> rect K E -> rect (K * V) X -> par_ok K V par ->
  exists yh la, forward exp {| m_vars := V; m_dim := K; m_lin := par |}
      {| it_y := batch_vec y; it_Gamma := batch_mat G; it_eta := batch_mat E; it_w := batch_vec w; it_x := batch_mat X |} = Ok (yh, batch_vec w, la) /\
  sh yh = [1%nat; length G; 1%nat] /\ length (dat yh) = length G /\ sh la = [1%nat; length G; K; 1%nat] /\
  forall i, (i < length G)%nat ->
    (forall k, (k < K)%nat -> get la [0%nat; i; k; 0%nat] = soft K (score K V par (nth i X [])) k) /\
    (forall k, (k < K)%nat -> 0 < get la [0%nat; i; k; 0%nat]) /\ sumto K (fun k => get la [0%nat; i; k; 0%nat]) = 1 /\
    nth i (dat yh) 0 = ratio K (nth i G []) (nth i E []) (fun k => get la [0%nat; i; k; 0%nat]) /\
    forall lo hi, (forall k, (k < K)%nat -> 0 <= nth k (nth i E []) 0 /\ lo * nth k (nth i E []) 0 <= nth k (nth i G []) 0 <= hi * nth k (nth i E []) 0) ->
      (exists k, (k < K)%nat /\ 0 < nth k (nth i E []) 0) -> lo <= nth i (dat yh) 0 <= hi.
Proof.
  intros K V par y w G E X HK HG HE HX RG RE RX PK.
  assert (HN : (0 < length G)%nat) by (destruct G; [congruence|cbn; lia]).
  destruct (forward_batch K V par _ y w G E X (length G) (K * V) eq_refl HK HN eq_refl HE HX RG RE RX (le_n _) PK) as (yh&la&F&S1&D1&Y1&S2&L1).
  exists yh, la. split; [exact F|]. split; auto. split; auto. split; auto. intros i Hi.
  assert (A : forall k, (k < K)%nat -> get la [0%nat; i; k; 0%nat] = soft K (score K V par (nth i X [])) k) by auto.
  assert (RR : nth i (dat yh) 0 = ratio K (nth i G []) (nth i E []) (fun k => get la [0%nat; i; k; 0%nat])).
  { rewrite Y1 by auto. unfold ratio. apply (f_equal2 Rdiv); apply sumto_ext; intros k Hk; rewrite A by auto; reflexivity. }
  split; auto. split; [intros k Hk; rewrite A by auto; apply soft_pos; auto|].
  split; [rewrite (sumto_ext K _ (soft K (score K V par (nth i X [])))) by (intros; auto); apply soft_sum; auto|].
  split; auto. intros lo hi B EX. rewrite RR. apply ratio_range; auto. intros k Hk. rewrite A by auto. apply soft_pos; auto.
Qed.

(** ** C60 *)
Lemma p_C60_dataset : forall y (G E : list (list R)) w tv (one : list (key * list R)) (two : list (key * list (list R))) K,
  (shapes_ok (length E) K one two -> exists X, attr_table (length E) K one two X /\
     forest_dataset y G E w tv one two K = Ok {| ds_y := y; ds_Gamma := G; ds_eta := E; ds_w := w; ds_t := tv; ds_x := X; ds_num := length (nodup Nat.eq_dec tv) |}) /\
  (~ shapes_ok (length E) K one two -> forest_dataset y G E w tv one two K = Err AssertionError).
Proof.
  intros y G E w tv one two K. unfold forest_dataset. split.
  - intros S0. destruct (structure_ok (length E) K one two S0) as (X&SX&LX&RX&TX). rewrite SX. cbn [bind]. exists X. split; [|reflexivity]. split; auto.
  - intros NS. destruct (softmax_structure (length E) K one two) as [X|e] eqn:SS.
    + exfalso. apply NS. eapply structure_inv; eauto.
    + rewrite (structure_err _ _ _ _ _ SS). reflexivity.
Qed.

Lemma p_C60_items : forall (d : @dataset R) q, length (ds_y d) = length (ds_t d) -> length (ds_w d) = length (ds_t d) -> length (ds_Gamma d) = length (ds_t d) ->
  length (ds_eta d) = length (ds_t d) -> length (ds_x d) = length (ds_t d) ->
  is_batch (ds_y d) (ds_w d) (ds_Gamma d) (ds_eta d) (ds_x d) (ds_t d) q (getitem d q).
Proof.
  intros d q H1 H2 H3 H4 H5. unfold getitem, is_batch.
  exists (mask_select (map (fun i => Nat.eqb i q) (ds_t d)) (ds_y d)), (mask_select (map (fun i => Nat.eqb i q) (ds_t d)) (ds_w d)),
    (mask_select (map (fun i => Nat.eqb i q) (ds_t d)) (ds_Gamma d)), (mask_select (map (fun i => Nat.eqb i q) (ds_t d)) (ds_eta d)),
    (mask_select (map (fun i => Nat.eqb i q) (ds_t d)) (ds_x d)).
  split; [apply picked_mask; auto|]. split; [apply picked_mask; auto|]. split; [apply picked_mask; auto|]. split; [apply picked_mask; auto|].
  split; [apply picked_mask; auto|]. reflexivity.
Qed.

Lemma p_C60_partition : forall (tv : list nat) r, (r < length tv)%nat ->
  exists q, In q tv /\ In r (rows_of q tv) /\ forall q', In r (rows_of q' tv) -> q' = q.
Proof.
  intros tv r Hr. exists (nth r tv 0%nat). split; [apply nth_In; auto|]. unfold rows_of. split.
  - apply filter_In. split; [apply in_seq; lia|]. apply Nat.eqb_refl.
  - intros q' H. apply filter_In in H. destruct H as (_&H). apply Nat.eqb_eq in H. auto.
Qed.

(** ** C73 *)
Lemma p_C73 : forall (y w : list R) (yh : tensor R), length w = length y -> sh yh = [1%nat; length y; 1%nat] -> length (dat yh) = length y -> 0 < nsum w ->
  let n := length y in let yv i := nth i y 0 in let wv i := nth i w 0 in let pv i := nth i (dat yh) 0 in
  weighted_l2 (batch_vec y) yh (batch_vec w) = Ok (sumto n (fun i => (pv i - wmean n wv yv) ^ 2) + INR n * wvar n wv yv).
Proof.
  intros y w yh Hw Sh Hp HW n yv wv pv. unfold weighted_l2. rewrite (loss_pairs _ y w yh (length y)) by auto. f_equal. apply all_pairs_split.
  rewrite nsum_sumto, Hw in HW. unfold n. lra.
Qed.

(** ** smooth_pytorch *)
Section Run.
Context {St : Type}.
Variables (kd : kind) (ts : list (tree R)) (o : @torch_opts R) (rd : torch_rows) (p M : nat)
  (opt : St -> list (list R * R) -> @item R -> St * list (list R * R)) (opt0 : St) (draw : nat -> nat -> nat).
Hypothesis TS : torch_setting kd ts o rd p M opt.
Hypothesis IO : init_ok (S M) (num_attrs o p) (to_init o).
Let V := num_attrs o p.
Let n := (n_gamma kd * offset ts (length ts))%nat.

Lemma cases : (to_x_one o = false /\ to_x_two o = false) \/ n_gamma kd = 1%nat \/ p = 0%nat \/
  ((to_x_one o = true \/ to_x_two o = true) /\ (1 < n_gamma kd)%nat /\ (0 < p)%nat).
Proof using TS.
  destruct TS as (_&_&NC&_). destruct (Nat.eq_dec (n_gamma kd) 1); auto. destruct (Nat.eq_dec p 0); auto.
  destruct (to_x_one o); [do 3 right; split; [auto|lia]|]. destruct (to_x_two o); [do 3 right; split; [auto|lia]|]. auto.
Qed.

(** which calls return, which fail how *)
Lemma p_C74_outcome :
  let bad := (to_x_one o = true \/ to_x_two o = true) /\ (1 < n_gamma kd)%nat /\ (0 < p)%nat in
  let run := smooth_pytorch exp opt opt0 (Forest kd ts) o rd draw in
  (bad -> run = Err AssertionError) /\
  (~ bad -> passes o ts = 0%nat -> run = Err UnboundLocalError) /\
  (~ bad -> (0 < passes o ts)%nat -> (5 < V)%nat -> run = Err IndexError) /\
  (~ bad -> (0 < passes o ts)%nat -> (V <= 5)%nat -> exists out, run = Ok out).
Proof using TS IO.
  cbn zeta. destruct (whole kd ts o rd p M opt opt0 draw TS) as (W1&W2).
  assert (NB : ~ ((to_x_one o = true \/ to_x_two o = true) /\ (1 < n_gamma kd)%nat /\ (0 < p)%nat) -> (to_x_one o = false /\ to_x_two o = false) \/ n_gamma kd = 1%nat \/ p = 0%nat).
  { intros H. destruct cases as [A|[A|[A|A]]]; auto. contradiction. }
  split; [intros (A&B&C); auto|]. split; [intros H; apply (W2 (NB H) IO)|]. split; [intros H; apply (W2 (NB H) IO)|].
  intros H Z HV. destruct (W2 (NB H) IO) as (_&_&W3). destruct (W3 Z HV) as (out&H1). exists out.
  destruct H1 as (y&G&E&w&tv&xn&xd&xi&xdf&xif&one&two&X&p0&ps&ss&steps&R&_). exact R.
Qed.

Lemma run_facts : forall out, smooth_pytorch exp opt opt0 (Forest kd ts) o rd draw = Ok out ->
  (0 < passes o ts)%nat /\ (V <= 5)%nat /\
  exists y G E w tv xn xd xi xdf xif one two X p0 ps ss steps,
      prepared kd ts (prep_args o) rd M y G E w tv xn xd xi xdf xif /\ chosen p M ts o xn xd xi xdf xif one two /\
      attr_table n (S M) one two X /\ start_par (S M) V (to_init o) p0 /\
      length steps = (passes o ts * length ts)%nat /\
      (forall e i, (e < passes o ts)%nat -> (i < length ts)%nat -> nth_error steps (e * length ts + i) = Some (draw e i mod length ts)%nat) /\
      tuning_run opt (is_batch y w G E X tv) steps opt0 p0 ps ss /\
      so_losses out = map (full_loss (S M) V y w G E X) (tl ps) /\
      m_vars (so_best out) = V /\ m_dim (so_best out) = S M /\ m_vars (so_model out) = V /\ m_dim (so_model out) = S M /\
      nth_error ps (length steps) = Some (m_lin (so_model out)) /\
      (exists j, nth_error (tl ps) j = Some (m_lin (so_best out)) /\ so_loss_min out = full_loss (S M) V y w G E X (m_lin (so_best out)) /\
         (forall x, In x (so_losses out) -> so_loss_min out <= x) /\
         (forall i x, (j < i)%nat -> nth_error (so_losses out) i = Some x -> so_loss_min out < x)) /\
      so_params_min out = seq 0 (S M) /\ length (m_lin (so_model out)) = S M /\
      length (so_forest out) = length ts /\
      (forall q t, nth_error ts q = Some t -> exists t', nth_error (so_forest out) q = Some t' /\ same_but_leaf_values t t' /\
         forall i, (i < n_leaves t)%nat -> soft_leaf kd (to_style o) (to_parents_all o) M V (m_lin (so_best out)) t t' i).
Proof using TS IO.
  intros out H. destruct (whole kd ts o rd p M opt opt0 draw TS) as (W1&W2).
  assert (NB : (to_x_one o = false /\ to_x_two o = false) \/ n_gamma kd = 1%nat \/ p = 0%nat).
  { destruct cases as [A|[A|[A|(A&B&C)]]]; auto. rewrite (W1 A B C) in H. discriminate. }
  destruct (W2 NB IO) as (U1&U2&U3). fold V in U2, U3.
  destruct (Nat.eq_dec (passes o ts) 0) as [Z|Z]; [rewrite (U1 Z) in H; discriminate|].
  destruct (le_lt_dec V 5) as [HV|HV]; [|rewrite (U2 ltac:(lia) HV) in H; discriminate].
  split; [lia|]. split; auto. destruct (U3 ltac:(lia) HV) as (out'&y&G&E&w&tv&xn&xd&xi&xdf&xif&one&two&X&p0&ps&ss&steps&R&F).
  assert (out' = out) by congruence. subst out'. exists y, G, E, w, tv, xn, xd, xi, xdf, xif, one, two, X, p0, ps, ss, steps. exact F.
Qed.

(** params_min lists the cells of the live model: read after the call they hold the last parameters *)
Lemma p_C61_alias : forall out, smooth_pytorch exp opt opt0 (Forest kd ts) o rd draw = Ok out ->
  map (fun c => nth c (m_lin (so_model out)) ([], 0)) (so_params_min out) = m_lin (so_model out) /\
  (last (so_losses out) 0 <> so_loss_min out -> map (fun c => nth c (m_lin (so_model out)) ([], 0)) (so_params_min out) <> m_lin (so_best out)).
Proof using TS IO.
  intros out H. destruct (run_facts out H) as (EP&_&y&G&E&w&tv&xn&xd&xi&xdf&xif&one&two&X&p0&ps&ss&steps&_&_&_&_&LS&_&RU&LO&_&_&_&_&CP&(j&J1&J2&_)&PM&LM&_).
  assert (A : map (fun c => nth c (m_lin (so_model out)) ([], 0)) (so_params_min out) = m_lin (so_model out)).
  { rewrite PM, <- LM. symmetry. apply list_as_seq. }
  split; auto. rewrite A. intros NL Q. apply NL. rewrite J2, <- Q.
  destruct RU as (LP&_). assert (TL : (0 < length ts)%nat) by (destruct TS as (_&NE&_); destruct ts; [congruence|cbn; lia]).
  assert (SP : (0 < length steps)%nat) by nia.
  rewrite LO. destruct ps as [|a ps]; [discriminate|]. cbn [tl]. destruct (length steps) as [|m] eqn:EL; [lia|]. cbn [nth_error] in CP. cbn [length] in LP.
  destruct (exists_last (l := ps)) as (ps'&b&->); [intros ->; cbn in LP; lia|].
  rewrite app_length in LP. cbn [length] in LP. rewrite nth_error_app2 in CP by lia. replace (m - length ps')%nat with 0%nat in CP by lia. cbn in CP.
  rewrite map_app. cbn [map]. rewrite last_last. congruence.
Qed.

(** leaf values stay in the range of the leaf values / are class distributions *)
Lemma p_C75_range : forall out, kd = Reg -> smooth_pytorch exp opt opt0 (Forest kd ts) o rd draw = Ok out ->
  forall q t, nth_error ts q = Some t -> exists t', nth_error (so_forest out) q = Some t' /\ same_but_leaf_values t t' /\
    forall lo hi, (forall j, (j < n_leaves t)%nat -> lo <= leaf_v t 0 j <= hi) ->
      forall i, (i < n_leaves t)%nat -> lo <= node_v t' 0 (leaf_id t i) <= hi.
Proof using TS IO.
  intros out EK H q t N. destruct (run_facts out H) as (_&_&y&G&E&w&tv&xn&xd&xi&xdf&xif&one&two&X&p0&ps&ss&steps&FF).
  do 17 (apply proj2 in FF). destruct (FF q t N) as (t'&N'&SB&SL). exists t'. split; auto. split; auto. intros lo hi B i Hi.
  destruct (SL i Hi) as (_&xs&kap&_&_&KP&VAL). rewrite EK in VAL. rewrite VAL by (cbn; lia).
  pose proof TS as (W&_&_&_&_&PL&_). pose proof (nth_error_In _ _ N) as IN.
  apply kmean_range_nz; auto; [intros j Hj; apply Rlt_le, KP; auto|].
  assert (WF : wf_tree t) by (rewrite Forall_forall in W; auto).
  assert (0 < kmass t kap); [|lra]. unfold kmass. apply sumto_pos; [apply n_leaves_pos; auto|]. intros j Hj. apply Rmult_lt_0_compat; [apply KP; auto|apply PL; auto].
Qed.

Lemma p_C75_class : forall out nc, kd = Class nc -> smooth_pytorch exp opt opt0 (Forest kd ts) o rd draw = Ok out ->
  forall q t, nth_error ts q = Some t -> class_counts nc t -> exists t', nth_error (so_forest out) q = Some t' /\ same_but_leaf_values t t' /\
    forall i, (i < n_leaves t)%nat -> (forall c, (c < nc)%nat -> 0 <= node_v t' c (leaf_id t i) <= 1) /\ sumto nc (fun c => node_v t' c (leaf_id t i)) = 1.
Proof using TS IO.
  intros out nc EK H q t N CC. destruct (run_facts out H) as (_&_&y&G&E&w&tv&xn&xd&xi&xdf&xif&one&two&X&p0&ps&ss&steps&FF).
  do 17 (apply proj2 in FF). destruct (FF q t N) as (t'&N'&SB&SL). exists t'. split; auto. split; auto. intros i Hi.
  destruct (SL i Hi) as (_&xs&kap&_&_&KP&VAL). rewrite EK in VAL. cbn [n_gamma] in VAL.
  pose proof TS as (W&_&_&_&_&PL&_). pose proof (nth_error_In _ _ N) as IN.
  assert (WF : wf_tree t) by (rewrite Forall_forall in W; auto).
  destruct (kmean_class t nc kap CC (PL t IN)) as (A1&A2); [intros j Hj; apply Rlt_le, KP; auto|].
  split; [intros c Hc; rewrite VAL by auto; auto|]. rewrite (sumto_ext nc _ (kmean t (Class nc) kap)) by (intros c Hc; apply VAL; auto).
  destruct A2 as [A2|(_&A2)]; auto. exfalso. pose proof (KP 0%nat (n_leaves_pos t WF)). rewrite (A2 0%nat (n_leaves_pos t WF)) in H0. lra.
Qed.

(** tuned on the depth and impurity of the ancestors, applied to the weight and depth of the leaf *)
Lemma p_C74_swap : forall out, to_which_one o = false -> to_which_two o = true -> to_x_one o = false -> to_x_two o = false ->
  smooth_pytorch exp opt opt0 (Forest kd ts) o rd draw = Ok out ->
  let par := m_lin (so_best out) in
  (exists y G E w tv xn xd xi xdf xif X, prepared kd ts (prep_args o) rd M y G E w tv xn xd xi xdf xif /\
     so_loss_min out = full_loss (S M) 2 y w G E X par /\
     forall r l, (r < n)%nat -> (l <= M)%nat -> score (S M) 2 par (nth r X []) l =
       nth l (nth r xdf []) 0 * nth 0 (fst (nth l par ([], 0))) 0 + nth l (nth r xif []) 0 * nth 1 (fst (nth l par ([], 0))) 0 + snd (nth l par ([], 0))) /\
  forall q t, nth_error ts q = Some t -> exists t', nth_error (so_forest out) q = Some t' /\
    forall i dp, (i < n_leaves t)%nat -> depth_of t (leaf_id t i) dp -> exists kap,
      is_kernel t (to_style o) (to_parents_all o)
        (map (soft (S M) (fun l => leaf_w t i * nth 0 (fst (nth l par ([], 0))) 0 + INR dp * nth 1 (fst (nth l par ([], 0))) 0 + snd (nth l par ([], 0)))) (seq 0 (S M))) i kap /\
      forall c, (c < n_gamma kd)%nat -> node_v t' c (leaf_id t i) = kmean t kd kap c.
Proof using TS IO.
  intros out W1 W2 X1 X2 H par. destruct (run_facts out H) as (_&_&y&G&E&w&tv&xn&xd&xi&xdf&xif&one&two&X&p0&ps&ss&steps&PP&CH&AT&_&_&_&_&_&_&_&_&_&_&(j&_&J2&_)&_&_&_&FF).
  assert (EV : V = 2%nat) by (unfold V, num_attrs; rewrite W1, W2, X1, X2; reflexivity). rewrite EV in *.
  split.
  - exists y, G, E, w, tv, xn, xd, xi, xdf, xif, X. split; auto. split; auto. intros r l Hr Hl.
    destruct CH as (C1&C2). rewrite W1, X1 in C1. rewrite W2, X2 in C2. subst one two. destruct AT as (_&_&AT). cbn [length Nat.add] in AT.
    unfold score. cbn [sumto]. rewrite (AT r 0%nat l), (AT r 1%nat l) by lia. unfold attr. cbn [length Nat.ltb Nat.leb Nat.sub nth snd].
    rewrite Rplus_0_l. reflexivity.
  - intros q t N. destruct (FF q t N) as (t'&N'&_&SL). exists t'. split; auto. intros i dp Hi DP. destruct (SL i Hi) as (_&xs&kap&LA&IK&_&VAL). exists kap. split; auto.
    pose proof TS as (W&_). assert (WF : wf_tree t) by (rewrite Forall_forall in W; apply W; eapply nth_error_In; eauto).
    replace (map (soft (S M) (fun l => leaf_w t i * nth 0 (fst (nth l par ([], 0))) 0 + INR dp * nth 1 (fst (nth l par ([], 0))) 0 + snd (nth l par ([], 0)))) (seq 0 (S M)))
      with (map (soft (S M) (score (S M) 2 (m_lin (so_best out)) xs)) (seq 0 (S M))); [exact IK|].
    assert (SE : forall l, (l <= M)%nat -> score (S M) 2 (m_lin (so_best out)) xs l = leaf_w t i * nth 0 (fst (nth l par ([], 0))) 0 + INR dp * nth 1 (fst (nth l par ([], 0))) 0 + snd (nth l par ([], 0))).
    { intros l Hl. destruct (LA l Hl) as (L1&(dp'&D1&L2)&_). rewrite (depth_unique t WF _ _ _ DP D1). unfold score. cbn [sumto].
      replace (S M * 0 + l)%nat with l by lia. replace (S M * 1 + l)%nat with (S M + l)%nat by lia. rewrite L1, L2. unfold par. rewrite Rplus_0_l. reflexivity. }
    apply map_ext_in. intros k Hk. apply in_seq in Hk. apply soft_ext; [|lia]. intros l Hl. apply SE. lia.
Qed.
End Run.

Lemma p_C74_no_start : forall {St} (kd : kind) (ts : list (tree R)) (o : @torch_opts R) rd p M
    (opt : St -> list (list R * R) -> @item R -> St * list (list R * R)) opt0 draw,
  torch_data kd ts o rd p M -> ~ ((to_x_one o = true \/ to_x_two o = true) /\ (1 < n_gamma kd)%nat /\ (0 < p)%nat) ->
  let run := smooth_pytorch exp opt opt0 (Forest kd ts) o rd draw in
  (forall x, to_init o = InitScalar x -> x <= 0 -> run = Err ValueError) /\
  (num_attrs o p = 0%nat -> (forall x, to_init o = InitScalar x -> 0 < x) -> run = Err ZeroDivisionError).
Proof.
  intros St kd ts o rd p M opt opt0 draw TS NB.
  assert (HX : (to_x_one o = false /\ to_x_two o = false) \/ n_gamma kd = 1%nat \/ p = 0%nat).
  { destruct TS as (_&_&NC&_). destruct (to_x_one o), (to_x_two o); auto; right; destruct (Nat.eq_dec p 0); auto; left; destruct (Nat.eq_dec (n_gamma kd) 1); auto; exfalso; apply NB; split; auto; lia. }
  destruct (whole_init kd ts o rd p M opt opt0 draw TS HX) as (A&B). split; [exact A|].
  intros Z H. apply B; auto. destruct (to_init o); auto.
Qed.
