(** L_Torch10: smooth_pytorch as a whole (C61, C74, C75). *)
From Coq Require Import Reals Lra Lia Sorted.
From Verif Require Import Base TreeSpec Spec SpecSmooth SpecTune SpecDepth SpecBox SpecTorch M_Tree M_Gamma M_Levels M_Smooth M_Box M_More M_Torch M_Pytorch L_Base L_Tree L_TreeModel L_TreeModel2 L_Dist L_Gamma L_Gamma2 L_Levels L_Grad L_Sgd L_Sgd2 L_Smooth L_Smooth2 L_Smooth3 L_Smooth4 L_Tune L_Depth L_Depth2 L_Box L_More L_Level8 L_Torch L_Torch2 L_Torch3 L_Torch4 L_Torch5 L_Torch6 L_Torch7 L_Torch8 L_Torch9.
Local Open Scope R_scope.

Lemma offset_pos : forall ts, Forall (@wf_tree R) ts -> ts <> [] -> (0 < offset ts (length ts))%nat.
Proof.
  intros [|t ts] W NE; [congruence|]. inversion W as [|? ? WT _]; subst. pose proof (n_leaves_pos t WT).
  change (offset (t :: ts) (length (t :: ts))) with (n_leaves t + offset ts (length ts))%nat. lia.
Qed.

Lemma with_centers_length : forall A p (P : nat -> A -> Prop) d d', with_centers p P d d' -> length d' = (length d + p)%nat.
Proof.
  intros A p P d d' (vs&L&->&_). rewrite app_length, combine_length, map_length, seq_length. lia.
Qed.
Lemma with_centers_in : forall A p (P : nat -> A -> Prop) d d' e, with_centers p P d d' -> In e d' -> In e d \/ exists c, P c (snd e).
Proof.
  intros A p P d d' e (vs&L&->&H) I0. apply in_app_or in I0. destruct I0 as [I0|I0]; auto. right. destruct e as [k v]. apply in_combine_r in I0.
  apply In_nth_error in I0. destruct I0 as (c&N). exists c. apply (H c v N).
Qed.
Lemma with_centers_some : forall A p (P : nat -> A -> Prop) d d', with_centers p P d d' -> (0 < p)%nat -> exists e, In e d' /\ P 0%nat (snd e).
Proof.
  intros A p P d d' (vs&L&->&H) Hp. destruct vs as [|v vs]; [cbn in L; lia|]. destruct p as [|p]; [lia|].
  exists (Center 0, v). split; [apply in_or_app; right; left; reflexivity|]. apply (H 0%nat v). reflexivity.
Qed.

Section Whole.
Context {St : Type}.
Variables (kd : kind) (ts : list (tree R)) (o : @torch_opts R) (rd : torch_rows) (p M : nat).
Hypothesis W : Forall (@wf_tree R) ts.
Hypothesis NE : ts <> [].
Hypothesis FO : Forall (features_ok p) ts.
Hypothesis DO : data_ok p (to_X_trained o).
Hypothesis MX : is_max_depth ts M.
Variables (pr : @prep_out R) (xn xd xi : list R) (xdf xif : list (list R)).
Hypothesis P1 : pr_one pr = [(Leaf_n, xn); (Leaf_d, xd); (Leaf_i, xi)].
Hypothesis P2 : pr_two pr = [(Full_d, xdf); (Full_i, xif)].
Let B := offset ts (length ts).
Let nc := n_gamma kd.

Lemma used_ok : exists one two, used_dicts o ts pr = Ok (one, two) /\ chosen p M ts o xn xd xi xdf xif one two /\ (length one + length two)%nat = num_attrs o p.
Proof using W NE FO DO MX P1 P2.
  clear nc B. unfold chosen, num_attrs.
  set (one0 := if to_which_one o then [(Leaf_n, xn); (Leaf_d, xd); (Leaf_i, xi)] else []).
  set (two0 := if to_which_two o then [(Full_d, xdf); (Full_i, xif)] else []).
  assert (L1 : length one0 = if to_which_one o then 3%nat else 0%nat) by (unfold one0; destruct (to_which_one o); reflexivity).
  assert (L2 : length two0 = if to_which_two o then 2%nat else 0%nat) by (unfold two0; destruct (to_which_two o); reflexivity).
  assert (N1 : no_centers one0) by (unfold one0; intros c v; destruct (to_which_one o); cbn; intuition discriminate).
  assert (N2 : no_centers two0) by (unfold two0; intros c v; destruct (to_which_two o); cbn; intuition discriminate).
  assert (H1 : forall d, Some one0 = Some d -> no_centers d) by (intros x Hx; replace x with one0 by congruence; exact N1).
  assert (H2 : forall d, Some two0 = Some d -> no_centers d) by (intros x Hx; replace x with two0 by congruence; exact N2).
  assert (UE : used_dicts o ts pr = if (to_x_one o || to_x_two o)%bool then
    do '(od, td) <- node_spatial_structure_update ts (to_X_trained o) (if to_x_one o then Some one0 else None) (if to_x_two o then Some two0 else None);
    Ok (match od with Some d => d | None => one0 end, match td with Some d => d | None => two0 end) else Ok (one0, two0)).
  { unfold used_dicts. rewrite P1, P2. reflexivity. }
  rewrite <- L1, <- L2, UE. clear UE.
  destruct (to_x_one o), (to_x_two o); cbn [orb].
  - destruct (p_C77 ts p (to_X_trained o) M (Some one0) (Some two0) W NE FO DO MX) as (a&b&E&(a'&->&C1)&(b'&->&C2)); [exact H1|exact H2|].
    rewrite E. cbn [bind]. exists a', b'. split; auto. split; auto. rewrite (with_centers_length _ _ _ _ _ C1), (with_centers_length _ _ _ _ _ C2). lia.
  - destruct (p_C77 ts p (to_X_trained o) M (Some one0) None W NE FO DO MX) as (a&b&E&(a'&->&C1)&->); [exact H1|intros x Hx; discriminate|].
    rewrite (E : node_spatial_structure_update ts (to_X_trained o) (Some one0) (@None (dict (mat R))) = _). cbn [bind]. exists a', two0. split; auto. split; auto. rewrite (with_centers_length _ _ _ _ _ C1). lia.
  - destruct (p_C77 ts p (to_X_trained o) M None (Some two0) W NE FO DO MX) as (a&b&E&->&(b'&->&C2)); [intros x Hx; discriminate|exact H2|].
    rewrite (E : node_spatial_structure_update ts (to_X_trained o) (@None (dict (list R))) (Some two0) = _). cbn [bind]. exists one0, b'. split; auto. split; auto. rewrite (with_centers_length _ _ _ _ _ C2). lia.
  - exists one0, two0. split; auto.
Qed.

Hypothesis SH : shapes_ok (nc * B) (S M) (pr_one pr) (pr_two pr).

Lemma chosen_shapes : forall one two, chosen p M ts o xn xd xi xdf xif one two ->
  (to_x_one o = false /\ to_x_two o = false) \/ nc = 1%nat \/ p = 0%nat -> shapes_ok (nc * B) (S M) one two.
Proof using P1 P2 SH.
  clear FO DO. intros one two (C1&C2) HX. destruct SH as (S1&S2). rewrite P1 in S1. rewrite P2 in S2.
  assert (A1 : forall e, In e (if to_which_one o then [(Leaf_n, xn); (Leaf_d, xd); (Leaf_i, xi)] else []) -> length (snd e) = (nc * B)%nat).
  { intros e He. destruct (to_which_one o); [apply S1; auto|destruct He]. }
  assert (A2 : forall e, In e (if to_which_two o then [(Full_d, xdf); (Full_i, xif)] else []) -> length (snd e) = (nc * B)%nat /\ rect (S M) (snd e)).
  { intros e He. destruct (to_which_two o); [apply S2; auto|destruct He]. }
  split.
  - intros e He. destruct (to_x_one o); [|subst one; auto]. destruct HX as [(Q&_)|[->|Hp]]; [discriminate| |].
    + destruct (with_centers_in _ _ _ _ _ e C1 He) as [I0|(c&L&_)]; auto. rewrite L. unfold B. lia.
    + destruct C1 as (vs&L&->&_). rewrite Hp in *. cbn in He. rewrite app_nil_r in He. auto.
  - intros e He. destruct (to_x_two o); [|subst two; auto]. destruct HX as [(_&Q)|[->|Hp]]; [discriminate| |].
    + destruct (with_centers_in _ _ _ _ _ e C2 He) as [I0|(c&L&RC&_)]; [auto|]. split; auto. rewrite L. unfold B. lia.
    + destruct C2 as (vs&L&->&_). rewrite Hp in *. cbn in He. rewrite app_nil_r in He. auto.
Qed.

Lemma chosen_bad : forall one two, chosen p M ts o xn xd xi xdf xif one two ->
  to_x_one o = true \/ to_x_two o = true -> (1 < nc)%nat -> (0 < p)%nat -> ~ shapes_ok (nc * B) (S M) one two.
Proof using W NE.
  clear FO DO MX SH. intros one two (C1&C2) HX Hn Hp (S1&S2). pose proof (offset_pos ts W NE) as BP. fold B in BP.
  assert (B < nc * B)%nat by nia. destruct HX as [E|E]; rewrite E in *.
  - destruct (with_centers_some _ _ _ _ _ C1 Hp) as (e&He&L&_). rewrite (S1 e He) in L. fold B in L. lia.
  - destruct (with_centers_some _ _ _ _ _ C2 Hp) as (e&He&L&_). destruct (S2 e He) as (L2&_). rewrite L2 in L. fold B in L. lia.
Qed.
End Whole.

(** ** the steps *)
Definition step_list (draw : nat -> nat -> nat) (T ep : nat) : list nat :=
  concat (map (fun e => map (fun i => Nat.modulo (draw e i) T) (seq 0 T)) (seq 0 ep)).

Lemma step_list_length : forall draw T ep, length (step_list draw T ep) = (ep * T)%nat.
Proof.
  intros draw T ep. unfold step_list.
  assert (A : forall ep s, length (concat (map (fun e => map (fun i => Nat.modulo (draw e i) T) (seq 0 T)) (seq s ep))) = (ep * T)%nat); [|apply A].
  clear ep. induction ep as [|ep IH]; intros s; cbn [seq map concat]; auto.
  rewrite app_length, map_length, seq_length, IH. lia.
Qed.
Lemma step_list_nth : forall draw T ep e i, (e < ep)%nat -> (i < T)%nat -> nth_error (step_list draw T ep) (e * T + i) = Some (draw e i mod T)%nat.
Proof.
  intros draw T ep e i He Hi. unfold step_list.
  assert (A : forall ep s e, (e < ep)%nat -> nth_error (concat (map (fun e => map (fun i => Nat.modulo (draw e i) T) (seq 0 T)) (seq s ep))) (e * T + i) = Some (draw (s + e) i mod T)%nat).
  { clear e ep He. induction ep as [|ep IH]; intros s e He; [lia|]. cbn [seq map concat]. destruct e as [|e].
    - rewrite nth_error_app1 by (rewrite map_length, seq_length; lia). cbn [Nat.mul Nat.add]. rewrite Nat.add_0_r. apply (map_nth_error (fun i => Nat.modulo (draw s i) T)).
      rewrite (nth_error_nth' _ 0%nat) by (rewrite seq_length; auto). rewrite seq_nth by auto. reflexivity.
    - rewrite nth_error_app2 by (rewrite map_length, seq_length; lia). rewrite map_length, seq_length.
      replace (S e * T + i - T)%nat with (e * T + i)%nat by (cbn; lia). rewrite IH by lia. f_equal. f_equal. f_equal. lia. }
  apply (A ep 0%nat e He).
Qed.
Lemma step_list_in : forall draw T ep q, (0 < T)%nat -> In q (step_list draw T ep) -> (q < T)%nat.
Proof.
  intros draw T ep q HT H. unfold step_list in H. apply in_concat in H. destruct H as (l&Hl&H). apply in_map_iff in Hl. destruct Hl as (e&<-&_).
  apply in_map_iff in H. destruct H as (i&<-&_). apply Nat.mod_upper_bound. lia.
Qed.

Lemma init_start : forall K V (ia : @init_arg R), (0 < V)%nat -> init_ok K V ia ->
  exists par, softmax_tree_fit V K ia = Ok {| m_vars := V; m_dim := K; m_lin := par |} /\ par_ok K V par /\ start_par K V ia par.
Proof.
  intros K V ia HV H. unfold softmax_tree_fit. destruct (Nat.eqb_spec V 0) as [Z|_]; [lia|]. cbn [andb]. clear HV.
  destruct ia as [x|par]; cbn [init_ok start_par] in *.
  - unfold nleb. change (@nltb R _ n0 x) with (Rltb 0 x). destruct (Rltb_spec 0 x); [|lra]. cbn [negb]. eexists. split; [reflexivity|].
    assert (A : forall l, (l < K)%nat -> nth l (map (fun l => (repeat (@n0 R _) V, if Nat.eqb l 0 then @nmul R _ n1 x else n0)) (seq 0 K)) ([], 0) = (repeat 0 V, if Nat.eqb l 0 then x else 0)).
    { intros l Hl. rewrite nth_map_seq by auto. cbn [Nat.add]. f_equal. destruct (Nat.eqb l 0); [rn; lra|reflexivity]. }
    assert (PK : par_ok K V (map (fun l => (repeat (@n0 R _) V, if Nat.eqb l 0 then @nmul R _ n1 x else n0)) (seq 0 K))).
    { split; [rewrite map_length; apply seq_length|]. intros l Hl. rewrite A by auto. apply repeat_length. }
    split; [exact PK|]. split; [exact PK|]. intros l Hl. rewrite A by auto. auto.
  - exists par. auto.
Qed.

Section Run.
Context {St : Type}.
Variables (kd : kind) (ts : list (tree R)) (o : @torch_opts R) (rd : torch_rows) (p M : nat)
  (opt : St -> list (list R * R) -> @item R -> St * list (list R * R)) (opt0 : St) (draw : nat -> nat -> nat).
Hypothesis TS : torch_setting kd ts o rd p M opt.
Let V := num_attrs o p.
Let B := offset ts (length ts).
Let n := (n_gamma kd * B)%nat.
Let ep := passes o ts.

Lemma good_train_prep : good_prep kd (prep_args o) rd ts.
Proof using TS.
  destruct TS as (W&NE&NC&NS&MX&PL&FO&DO&(GL&GT)&_). right. split; [intros (A&_); discriminate|].
  exists (to_X_trained o), (to_y_trained o). split; auto.
Qed.

Lemma whole : 
  (* centers for two or more response columns *)
  ((to_x_one o = true \/ to_x_two o = true) -> (1 < n_gamma kd)%nat -> (0 < p)%nat ->
     smooth_pytorch exp opt opt0 (Forest kd ts) o rd draw = Err AssertionError) /\
  (* otherwise *)
  ((to_x_one o = false /\ to_x_two o = false) \/ n_gamma kd = 1%nat \/ p = 0%nat ->
   init_ok (S M) V (to_init o) ->
   (ep = 0%nat -> smooth_pytorch exp opt opt0 (Forest kd ts) o rd draw = Err UnboundLocalError) /\
   ((0 < ep)%nat -> (5 < V)%nat -> smooth_pytorch exp opt opt0 (Forest kd ts) o rd draw = Err IndexError) /\
   ((0 < ep)%nat -> (V <= 5)%nat -> exists out y G E w tv xn xd xi xdf xif one two X p0 ps ss steps,
      smooth_pytorch exp opt opt0 (Forest kd ts) o rd draw = Ok out /\
      prepared kd ts (prep_args o) rd M y G E w tv xn xd xi xdf xif /\ chosen p M ts o xn xd xi xdf xif one two /\
      attr_table n (S M) one two X /\ start_par (S M) V (to_init o) p0 /\
      length steps = (ep * length ts)%nat /\
      (forall e i, (e < ep)%nat -> (i < length ts)%nat -> nth_error steps (e * length ts + i) = Some (draw e i mod length ts)%nat) /\
      tuning_run opt (is_batch y w G E X tv) steps opt0 p0 ps ss /\
      so_losses out = map (full_loss (S M) V y w G E X) (tl ps) /\
      m_vars (so_best out) = V /\ m_dim (so_best out) = S M /\ m_vars (so_model out) = V /\ m_dim (so_model out) = S M /\
      nth_error ps (length steps) = Some (m_lin (so_model out)) /\
      (exists j, nth_error (tl ps) j = Some (m_lin (so_best out)) /\ so_loss_min out = full_loss (S M) V y w G E X (m_lin (so_best out)) /\
         (forall x, In x (so_losses out) -> so_loss_min out <= x) /\
         (forall i x, (j < i)%nat -> nth_error (so_losses out) i = Some x -> so_loss_min out < x)) /\
      so_params_min out = seq 0 (S M) /\ length (m_lin (so_model out)) = S M /\
      length (so_forest out) = length ts /\
      (forall q t, nth_error ts q = Some t -> exists t', nth_error (so_forest out) q = Some t' /\ same_but_leaf_values t t' /\
         forall i, (i < n_leaves t)%nat -> soft_leaf kd (to_style o) (to_parents_all o) M V (m_lin (so_best out)) t t' i))).
Proof using TS.
  pose proof good_train_prep as GP. pose proof TS as (W&NE&NC&NS&MX&PL&FO&DO&GT&VP&HO).
  destruct (prep_total kd ts (prep_args o) rd M W NE NS MX GP) as (pr&PR).
  destruct (prepared_ok kd ts (prep_args o) rd M pr W NE NS MX PR) as (xn&xd&xi&xdf&xif&E1&E2&E3&E4&PP).
  destruct (prep_ok kd ts (prep_args o) rd pr M W NE NS MX PR) as (G&E&Ti&_&MT&PRW).
  pose proof PRW as (_&_&L1&L2&L3&L4&L5&R1&R2&_&_&_&_&_&_&_&_&SO&_). fold B in L1, L2, L3, L4, L5, SO. fold n in L1, L2, L3, L4, L5, SO.
  destruct (used_ok ts o p M W NE FO DO MX pr xn xd xi xdf xif E1 E2) as (one&two&UD&CH&LV). fold V in LV.
  assert (TL : (0 < length ts)%nat) by (destruct ts; [congruence|cbn; lia]).
  assert (UNF : smooth_pytorch exp opt opt0 (Forest kd ts) o rd draw =
    (do d <- forest_dataset (pr_y pr) (pr_Gamma pr) (pr_eta pr) (pr_w pr) (pr_t pr) one two (pr_dim pr);
    do dall <- forest_dataset (pr_y pr) (pr_Gamma pr) (pr_eta pr) (pr_w pr) (map (fun _ => 0%nat) (pr_t pr)) one two (pr_dim pr);
    do m0 <- softmax_tree_fit V (pr_dim pr) (to_init o);
    do st <- foldM (torch_step exp opt V (pr_dim pr) d dall) (step_list draw (ds_num d) ep)
               {| ts_cells := m_lin m0; ts_opt := opt0; ts_losses := []; ts_min := None; ts_pmin := []; ts_best := None |};
    match ts_best st, ts_min st with
    | Some b, Some lm =>
        let best := {| m_vars := V; m_dim := pr_dim pr; m_lin := b |} in
        do f <- update_rf exp (Forest kd ts) best (Some (to_X_trained o)) (Some (to_y_trained o)) (to_parents_all o) (to_style o) rd;
        Ok {| so_forest := f; so_losses := ts_losses st; so_loss_min := lm; so_params_min := ts_pmin st; so_best := best;
              so_model := {| m_vars := V; m_dim := pr_dim pr; m_lin := ts_cells st |} |}
    | _, _ => Err UnboundLocalError
    end)).
  { unfold smooth_pytorch. change (train_opts (Some (to_X_trained o)) (Some (to_y_trained o)) (to_style o) (to_parents_all o)) with (prep_args o).
    rewrite PR. cbn [bind]. rewrite UD. cbn [bind]. rewrite LV. reflexivity. }
  rewrite UNF, E3. clear UNF. unfold forest_dataset. rewrite L3. split.
  - intros HX Hn Hp. destruct (softmax_structure n (S M) one two) as [X|e] eqn:SS.
    + exfalso. apply structure_inv in SS. eapply (chosen_bad kd ts o p M W NE xn xd xi xdf xif); eauto.
    + rewrite (structure_err _ _ _ _ _ SS). reflexivity.
  - intros HX HI. pose proof (chosen_shapes kd ts o p M pr xn xd xi xdf xif E1 E2 SO one two CH HX) as SOK. fold B in SOK. fold n in SOK.
    destruct (structure_ok n (S M) one two SOK) as (X&SX&LX&RX&TX). rewrite LV in RX. rewrite SX. cbn [bind ds_num].
    destruct (init_start (S M) V (to_init o) VP HI) as (par&EI&PK&SP). rewrite EI. cbn [bind m_lin].
    pose proof (t_num kd ts (prep_args o) rd pr M G E Ti W NE NC MT PRW) as TN. rewrite TN.
    set (d := {| ds_y := pr_y pr; ds_Gamma := pr_Gamma pr; ds_eta := pr_eta pr; ds_w := pr_w pr; ds_t := pr_t pr; ds_x := X; ds_num := length ts |}).
    set (dall := {| ds_y := pr_y pr; ds_Gamma := pr_Gamma pr; ds_eta := pr_eta pr; ds_w := pr_w pr; ds_t := map (fun _ => 0%nat) (pr_t pr); ds_x := X;
                    ds_num := length (nodup Nat.eq_dec (map (fun _ => 0%nat) (pr_t pr))) |}).
    set (steps := step_list draw (length ts) ep).
    destruct (loop_ok opt (S M) V (S M * V) d dall) with (steps := steps) (s0 := opt0) (p0 := par) as (st&ps&ss&FM&RU&FP&CP&CS&LO&EN&EB);
      try (unfold d; cbn [ds_y ds_w ds_Gamma ds_eta ds_x ds_t]; rewrite ?L5; assumption); try lia; try reflexivity; try exact PK; try exact HO.
    { intros q Hq. apply (t_nonempty kd ts (prep_args o) rd pr M G E Ti W NE NC MT PRW q). eapply step_list_in; eauto. }
    rewrite FM. cbn [bind].
    assert (LS : length steps = (ep * length ts)%nat) by apply step_list_length.
    split; [|].
    { intros Z. assert (Z2 : steps = []) by (destruct steps; [reflexivity|rewrite Z in LS; discriminate]). destruct (EN Z2) as (->&_). reflexivity. }
    assert (NZ : (0 < ep)%nat -> steps <> []) by (intros Z Z2; rewrite Z2 in LS; cbn in LS; nia).
    assert (UP : forall b, par_ok (S M) V b -> _) by (intros b PB; exact (update_ok kd ts (Some (to_X_trained o)) (Some (to_y_trained o)) (to_parents_all o) (to_style o) rd pr M V b W NE NC NS MX PL PB PR)).
    split.
    + intros Z HV. destruct (EB (NZ Z)) as (j&b&m&J1&J2&J3&_). rewrite J2, J3. cbn zeta.
      assert (PB : par_ok (S M) V b).
      { rewrite Forall_forall in FP. apply FP. apply nth_error_In in J1. destruct ps; [destruct J1|right; exact J1]. }
      destruct (UP b PB) as (_&UE). rewrite (UE HV). reflexivity.
    + intros Z HV. destruct (EB (NZ Z)) as (j&b&m&J1&J2&J3&J4&J5&J6&J7). rewrite J2, J3. cbn zeta.
      assert (PB : par_ok (S M) V b).
      { rewrite Forall_forall in FP. apply FP. apply nth_error_In in J1. destruct ps; [destruct J1|right; exact J1]. }
      destruct (UP b PB) as (UE&_). destruct (UE HV) as (f&UF&LF&FF). rewrite UF. cbn [bind].
      eexists. exists (pr_y pr), (pr_Gamma pr), (pr_eta pr), (pr_w pr), (pr_t pr), xn, xd, xi, xdf, xif, one, two, X, par, ps, ss, steps.
      split; [reflexivity|]. cbn [so_forest so_losses so_loss_min so_params_min so_best so_model m_vars m_dim m_lin].
      split; auto. split; auto. split; [split; auto; split; [rewrite LV; auto|auto]|]. split; auto. split; auto.
      split; [intros e i He Hi; apply step_list_nth; auto|].
      split.
      { destruct RU as (U1&U2&U3&U4&U5). split; auto. split; auto. split; auto. split; auto. intros i q Hq.
        destruct (U5 i q Hq) as (s&p1&s'&p1'&A1&A2&A3&A4&A5). exists s, p1, s', p1', (getitem d q). split; auto. split; auto. split; auto. split; auto. split; auto.
        unfold getitem, d. cbn [ds_y ds_w ds_Gamma ds_eta ds_x ds_t].
        eexists. eexists. eexists. eexists. eexists.
        split; [apply picked_mask; congruence|]. split; [apply picked_mask; congruence|]. split; [apply picked_mask; congruence|].
        split; [apply picked_mask; congruence|]. split; [apply picked_mask; congruence|]. reflexivity. }
      split; [exact LO|]. do 4 (split; [reflexivity|]). split; [exact CP|].
      split; [exists j; split; [exact J1|]; split; [rewrite <- J4; reflexivity|]; split; auto|].
      split; auto. split; [|split; [exact LF|exact FF]].
      assert (PC : par_ok (S M) V (ts_cells st)) by (rewrite Forall_forall in FP; apply FP; eapply nth_error_In; eauto). apply PC.
Qed.
End Run.

(** a start value that is not positive, and no attributes at all *)
Lemma whole_init : forall {St} (kd : kind) (ts : list (tree R)) (o : @torch_opts R) (rd : torch_rows) (p M : nat)
    (opt : St -> list (list R * R) -> @item R -> St * list (list R * R)) opt0 draw, torch_data kd ts o rd p M ->
  (to_x_one o = false /\ to_x_two o = false) \/ n_gamma kd = 1%nat \/ p = 0%nat ->
  (forall x, to_init o = InitScalar x -> x <= 0 -> smooth_pytorch exp opt opt0 (Forest kd ts) o rd draw = Err ValueError) /\
  (num_attrs o p = 0%nat -> match to_init o with InitScalar x => 0 < x | InitRandom _ => True end ->
     smooth_pytorch exp opt opt0 (Forest kd ts) o rd draw = Err ZeroDivisionError).
Proof.
  intros St kd ts o rd p M opt opt0 draw TS HX. set (V := num_attrs o p). set (B := offset ts (length ts)). set (n := (n_gamma kd * B)%nat). set (ep := passes o ts).
  pose proof TS as (W&NE&NC&NS&MX&PL&FO&DO&GT).
  assert (GP : good_prep kd (prep_args o) rd ts).
  { destruct GT as (GL&GT). right. split; [intros (A&_); discriminate|]. exists (to_X_trained o), (to_y_trained o). split; auto. }
  destruct (prep_total kd ts (prep_args o) rd M W NE NS MX GP) as (pr&PR).
  destruct (prepared_ok kd ts (prep_args o) rd M pr W NE NS MX PR) as (xn&xd&xi&xdf&xif&E1&E2&E3&E4&PP).
  destruct (prep_ok kd ts (prep_args o) rd pr M W NE NS MX PR) as (G&E&Ti&_&MT&PRW).
  pose proof PRW as (_&_&L1&L2&L3&L4&L5&R1&R2&_&_&_&_&_&_&_&_&SO&_). fold B in L1, L2, L3, L4, L5, SO. fold n in L1, L2, L3, L4, L5, SO.
  destruct (used_ok ts o p M W NE FO DO MX pr xn xd xi xdf xif E1 E2) as (one&two&UD&CH&LV). fold V in LV.
  assert (TL : (0 < length ts)%nat) by (destruct ts; [congruence|cbn; lia]).
  assert (UNF : smooth_pytorch exp opt opt0 (Forest kd ts) o rd draw =
    (do d <- forest_dataset (pr_y pr) (pr_Gamma pr) (pr_eta pr) (pr_w pr) (pr_t pr) one two (pr_dim pr);
    do dall <- forest_dataset (pr_y pr) (pr_Gamma pr) (pr_eta pr) (pr_w pr) (map (fun _ => 0%nat) (pr_t pr)) one two (pr_dim pr);
    do m0 <- softmax_tree_fit V (pr_dim pr) (to_init o);
    do st <- foldM (torch_step exp opt V (pr_dim pr) d dall) (step_list draw (ds_num d) ep)
               {| ts_cells := m_lin m0; ts_opt := opt0; ts_losses := []; ts_min := None; ts_pmin := []; ts_best := None |};
    match ts_best st, ts_min st with
    | Some b, Some lm =>
        let best := {| m_vars := V; m_dim := pr_dim pr; m_lin := b |} in
        do f <- update_rf exp (Forest kd ts) best (Some (to_X_trained o)) (Some (to_y_trained o)) (to_parents_all o) (to_style o) rd;
        Ok {| so_forest := f; so_losses := ts_losses st; so_loss_min := lm; so_params_min := ts_pmin st; so_best := best;
              so_model := {| m_vars := V; m_dim := pr_dim pr; m_lin := ts_cells st |} |}
    | _, _ => Err UnboundLocalError
    end)).
  { unfold smooth_pytorch. change (train_opts (Some (to_X_trained o)) (Some (to_y_trained o)) (to_style o) (to_parents_all o)) with (prep_args o).
    rewrite PR. cbn [bind]. rewrite UD. cbn [bind]. rewrite LV. reflexivity. }
  rewrite UNF, E3. clear UNF. unfold forest_dataset. rewrite L3.
  pose proof (chosen_shapes kd ts o p M pr xn xd xi xdf xif E1 E2 SO one two CH HX) as SOK. fold B in SOK. fold n in SOK.
  destruct (structure_ok n (S M) one two SOK) as (X&SX&LX&RX&TX). rewrite SX. cbn [bind ds_num]. unfold softmax_tree_fit. split.
  - intros x -> Hx. unfold nleb. change (@nltb R _ n0 x) with (Rltb 0 x). destruct (Rltb_spec 0 x); [lra|reflexivity].
  - intros ->. cbn [Nat.eqb andb negb]. destruct (to_init o) as [x|par]; [intros Hx|reflexivity].
    unfold nleb. change (@nltb R _ n0 x) with (Rltb 0 x). destruct (Rltb_spec 0 x); [reflexivity|lra].
Qed.
