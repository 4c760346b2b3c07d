(** L_Level5: tuning shares of the leaves and the targets of smooth_all. *)
From Verif Require Import Base TreeSpec Spec M_Tree M_Gamma M_Levels M_Grad M_Smooth M_Level SpecSmooth SpecTune SpecLevel.
From Verif Require Import L_Base L_Tree L_TreeModel L_Gamma L_Gamma2 L_Sgd L_Grad L_Smooth L_Route L_Tune.
From Coq Require Import Reals Lra Lia.
Local Open Scope R_scope.

Lemma attr_total : forall (t : tree R) eps X y, X <> [] -> length y = length X -> exists r, process_tuning_leaf_attributes_tree t eps X y = Ok r.
Proof.
  intros t eps X y NX L. unfold process_tuning_leaf_attributes_tree, obs_V_leaf. destruct X; [congruence|]. cbn [bind]. rewrite L, Nat.eqb_refl. cbn [negb]. eexists. reflexivity.
Qed.
Lemma attr_spec : forall (t : tree R) eps X y w yl, wf_tree t -> process_tuning_leaf_attributes_tree t eps X y = Ok (w, yl) ->
  X <> [] /\ length y = length X /\
  forall lf, routed t X lf -> length w = n_leaves t /\ length yl = n_leaves t /\
  forall i, (i < n_leaves t)%nat ->
    let c := sum_sel (length X) (in_leaf lf i) (fun _ => 1) in
    nth i w 0 = (if Req_EM_T c 0 then eps else c / INR (length X)) /\
    nth i yl 0 = (if Req_EM_T c 0 then 0 else sum_sel (length X) (in_leaf lf i) (fun o => nth o y 0) / c).
Proof.
  intros t eps X y w yl WF H. unfold process_tuning_leaf_attributes_tree, obs_V_leaf in H. destruct X as [|x0 X0]; [discriminate|].
  set (X := x0 :: X0) in *. cbn [bind] in H. destruct (Nat.eqb_spec (length y) (length X)) as [LY|]; [|discriminate]. cbn [negb] in H. cbv zeta in H.
  split; [discriminate|]. split; auto. intros lf RT.
  set (V := map (fun x => leaf_select t (path_row t x)) X) in *.
  set (cols := transpose n0 (num_leaf t) V) in *.
  assert (EW : w = map (fun x => if neqb x n0 then eps else x) (map (fun c => ndiv c (nsum (map nsum cols))) (map nsum cols))) by congruence.
  assert (EY : yl = map2 (fun cl d => ndiv (dot cl y) d) cols (fill1 (map nsum cols))) by congruence. clear H.
  pose proof (num_leaf_eq t) as NL.
  assert (LC : length cols = n_leaves t) by (unfold cols, transpose; rewrite map_length, seq_length; auto).
  assert (LV : length V = length X) by apply map_length.
  assert (CN : forall i, (i < n_leaves t)%nat -> length (nth i cols []) = length X /\
    forall o, (o < length X)%nat -> nth o (nth i cols []) 0 = if in_leaf lf i o then 1 else 0).
  { intros i Hi. unfold cols, transpose. rewrite nth_map_in with (d := 0%nat) by (rewrite seq_length, NL; auto).
    rewrite seq_nth by (rewrite NL; auto). cbn [Nat.add]. split; [rewrite map_length; auto|].
    intros o Ho. rewrite nth_map_in with (d := []) by (rewrite LV; auto). unfold V. rewrite nth_map_in with (d := []) by auto.
    apply obs_row_nth; auto. }
  assert (CT : forall i, (i < n_leaves t)%nat -> nth i (map nsum cols) 0 = sum_sel (length X) (in_leaf lf i) (fun _ => 1)).
  { intros i Hi. destruct (CN i Hi) as [L1 V1]. rewrite nth_map_in with (d := []) by lia. rewrite nsum_sumto, L1. unfold sum_sel. apply sumto_ext. auto. }
  assert (TOT : nsum (map nsum cols) = INR (length X)).
  { rewrite nsum_sumto, map_length, LC. rewrite (sumto_ext _ _ (fun i => sum_sel (length X) (in_leaf lf i) (fun _ => 1))) by (intros; apply CT; auto).
    rewrite sum_over_leaves; [rewrite sumto_const; lra|]. intros o Ho; destruct (RT o Ho) as [[? _] _]; auto. }
  assert (PX : 0 < INR (length X)) by (apply (lt_INR 0); cbn; lia).
  split; [rewrite EW, !map_length; auto|].
  split; [rewrite EY, map2_length, fill1_length, map_length; lia|].
  intros i Hi c. destruct (CN i Hi) as [L1 V1]. split.
  - rewrite EW. rewrite nth_map_in with (d := 0) by (rewrite !map_length; lia). rewrite nth_map_in with (d := 0) by (rewrite map_length; lia).
    rewrite CT, TOT by auto. fold c. rn. destruct (Reqb_spec (c / INR (length X)) 0) as [Z|Z]; destruct (Req_EM_T c 0) as [Q|Q]; auto.
    + exfalso. apply Q. apply (f_equal (fun z => z * INR (length X))) in Z. unfold Rdiv in Z. rewrite Rmult_assoc, Rinv_l in Z; lra.
    + exfalso. apply Z. rewrite Q. unfold Rdiv. ring.
  - rewrite EY. rewrite nth_map2 with (da := []) (db := 0) by (rewrite ?fill1_length, ?map_length; lia).
    rewrite fill1_nth by (rewrite map_length; lia). rewrite CT by auto. fold c. rn.
    assert (DV : dot (nth i cols []) y = sum_sel (length X) (in_leaf lf i) (fun o => nth o y 0)).
    { rewrite dot_sumto by lia. rewrite L1. unfold sum_sel. apply sumto_ext. intros o Ho. rewrite V1 by auto. destruct (in_leaf lf i o); lra. }
    rewrite DV. destruct (Req_EM_T c 0) as [Q|Q]; auto. rewrite (sum_sel_count_zero _ _ (fun o => nth o y 0)) by auto. unfold Rdiv. ring.
Qed.
Lemma p_C57 : forall (t : tree R) eps X y, wf_tree t -> X <> [] -> length y = length X ->
  exists w yl lf, process_tuning_leaf_attributes_tree t eps X y = Ok (w, yl) /\ routed t X lf /\ length w = n_leaves t /\ length yl = n_leaves t /\
  (forall i, (i < n_leaves t)%nat ->
     let n := length (filter (in_leaf lf i) (seq 0 (length X))) in
     (n = 0%nat -> nth i w 0 = eps /\ nth i yl 0 = 0) /\
     (n <> 0%nat -> nth i w 0 = INR n / INR (length X) /\ INR n * nth i yl 0 = sum_sel (length X) (in_leaf lf i) (fun o => nth o y 0))) /\
  sum_sel (n_leaves t) (fun i => negb (Nat.eqb (length (filter (in_leaf lf i) (seq 0 (length X)))) 0)) (fun i => nth i w 0) = 1 /\
  sumto (n_leaves t) (fun i => nth i w 0 * nth i yl 0) = nsum y / INR (length X).
Proof.
  intros t eps X y WF NX L. destruct (attr_total t eps X y NX L) as ([w yl]&E). destruct (routed_ex t X WF) as (lf&RT).
  destruct (attr_spec t eps X y w yl WF E) as (_&_&S0). destruct (S0 lf RT) as (LW&LY&S1). clear S0.
  assert (B : forall o, (o < length X)%nat -> (lf o < n_leaves t)%nat) by (intros o Ho; destruct (RT o Ho) as [[? _] _]; auto).
  assert (CI : forall i, sum_sel (length X) (in_leaf lf i) (fun _ => 1) = INR (length (filter (in_leaf lf i) (seq 0 (length X))))).
  { intros i. rewrite sum_sel_nsum. generalize (filter (in_leaf lf i) (seq 0 (length X))). intros l.
    induction l as [|a l IH]; [reflexivity|]. cbn [map length]. rewrite nsum_cons, IH, S_INR. lra. }
  assert (PX : 0 < INR (length X)) by (apply (lt_INR 0); destruct X; [congruence|cbn; lia]).
  exists w, yl, lf. do 4 (split; auto). split; [|split].
  - intros i Hi n. destruct (S1 i Hi) as [W1 Y1]. rewrite CI in W1, Y1. fold n in W1, Y1. split; intros N.
    + rewrite N in W1, Y1. cbn [INR] in W1, Y1. destruct (Req_EM_T 0 0); [auto|lra].
    + assert (INR n <> 0) by (apply not_0_INR; auto). destruct (Req_EM_T (INR n) 0); [contradiction|]. split; auto. rewrite Y1. field. auto.
  - unfold sum_sel. rewrite (sumto_ext _ _ (fun i => sum_sel (length X) (in_leaf lf i) (fun _ => 1) * / INR (length X))).
    + rewrite sumto_scal_r, sum_over_leaves by auto. rewrite sumto_const. field. lra.
    + intros i Hi. destruct (S1 i Hi) as [W1 _]. rewrite CI in *. destruct (Nat.eqb_spec (length (filter (in_leaf lf i) (seq 0 (length X)))) 0) as [N|N]; cbn [negb].
      * rewrite N. cbn [INR]. lra.
      * rewrite W1. destruct (Req_EM_T _ 0) as [Z|]; [|reflexivity]. apply not_0_INR in N. contradiction.
  - rewrite (sumto_ext _ _ (fun i => sum_sel (length X) (in_leaf lf i) (fun o => nth o y 0) * / INR (length X))).
    + rewrite sumto_scal_r, sum_over_leaves by auto. rewrite nsum_sumto, L. reflexivity.
    + intros i Hi. destruct (S1 i Hi) as [W1 Y1]. cbv zeta in *. rewrite W1, Y1. destruct (Req_EM_T (sum_sel (length X) (in_leaf lf i) (fun _ => 1)) 0) as [Z|Z].
      * rewrite (sum_sel_count_zero _ _ (fun o => nth o y 0)) by auto. lra.
      * field. split; lra.
Qed.

(** stacking over the forest *)
Lemma all_targets_gen : forall (o : all_opts R) oob boot ts s acc W Y, Forall (@wf_tree R) ts ->
  length (fst acc) = length (snd acc) ->
  foldM (fun acc it =>
    do '(X, y) <- all_tuning o oob boot (fst it);
    do '(w, yl) <- process_tuning_leaf_attributes_tree (snd it) (nopp n1) X y;
    Ok (fst acc ++ w, snd acc ++ yl)) (combine (seq s (length ts)) ts) acc = Ok (W, Y) ->
  length W = (length (fst acc) + offset ts (length ts))%nat /\ length Y = length W /\
  (forall r, (r < length (fst acc))%nat -> nth r W 0 = nth r (fst acc) 0 /\ nth r Y 0 = nth r (snd acc) 0) /\
  forall q t, nth_error ts q = Some t -> exists X y w yl,
    all_tuning o oob boot (s + q) = Ok (X, y) /\ process_tuning_leaf_attributes_tree t (-(1)) X y = Ok (w, yl) /\
    forall i, (i < n_leaves t)%nat -> nth (length (fst acc) + (offset ts q + i)) W 0 = nth i w 0 /\
      nth (length (fst acc) + (offset ts q + i)) Y 0 = nth i yl 0.
Proof.
  intros o oob boot ts. induction ts as [|t ts IH]; intros s acc W Y WF LA H.
  - cbn [length seq combine foldM] in H. assert (acc = (W, Y)) by congruence. subst acc. cbn [fst snd] in *.
    split; [cbn; lia|]. split; auto. split; auto. intros q t N. destruct q; discriminate.
  - cbn [length seq combine foldM] in H. apply bind_ok in H. destruct H as (acc1&H1&H2).
    cbn [fst snd] in H1. apply bind_ok in H1. destruct H1 as ([X y]&HX&H1).
    apply bind_ok in H1. destruct H1 as ([w yl]&HY&H1).
    assert (E1 : acc1 = (fst acc ++ w, snd acc ++ yl)) by congruence. clear H1. subst acc1.
    inversion WF as [|? ? WT WTS]; subst. destruct (attr_spec t _ X y w yl WT HY) as (_&_&AS). destruct (routed_ex t X WT) as (lf&RT). destruct (AS lf RT) as (LW&LY&_).
    destruct (IH (S s) (fst acc ++ w, snd acc ++ yl) W Y WTS ltac:(cbn [fst snd]; rewrite !app_length; lia) H2) as (A1&A2&A3&A4).
    clear IH. cbn [fst snd] in *. rewrite app_length, LW in *.
    change (offset (t :: ts) (length (t :: ts))) with (n_leaves t + offset ts (length ts))%nat.
    split; [lia|]. split; auto. split.
    + intros r Hr. destruct (A3 r ltac:(lia)) as [B1 B2]. rewrite B1, B2. rewrite !app_nth1 by lia. auto.
    + intros [|q] t' N; cbn [nth_error] in N.
      * assert (t' = t) by congruence. subst t'. exists X, y, w, yl. rewrite Nat.add_0_r. split; auto. split; auto.
        intros i Hi. change (offset (t :: ts) 0) with 0%nat. cbn [Nat.add].
        destruct (A3 (length (fst acc) + i)%nat ltac:(lia)) as [B1 B2]. rewrite B1, B2.
        rewrite !app_nth2 by lia. rewrite <- LA. replace (length (fst acc) + i - length (fst acc))%nat with i by lia. auto.
      * destruct (A4 q t' N) as (X'&y'&w'&yl'&C1&C2&C3). exists X', y', w', yl'.
        split; [rewrite Nat.add_succ_r; exact C1|]. split; auto. intros i Hi.
        change (offset (t :: ts) (S q)) with (n_leaves t + offset ts q)%nat.
        replace (length (fst acc) + (n_leaves t + offset ts q + i))%nat with (length (fst acc) + n_leaves t + (offset ts q + i))%nat by lia. auto.
Qed.
Lemma all_targets_spec : forall (o : all_opts R) oob boot ts W Y, Forall (@wf_tree R) ts -> all_leaf_targets o oob boot ts = Ok (W, Y) ->
  length W = offset ts (length ts) /\ length Y = length W /\
  forall q t, nth_error ts q = Some t -> exists X y w yl,
    all_tuning o oob boot q = Ok (X, y) /\ process_tuning_leaf_attributes_tree t (-(1)) X y = Ok (w, yl) /\
    forall i, (i < n_leaves t)%nat -> nth (offset ts q + i) W 0 = nth i w 0 /\ nth (offset ts q + i) Y 0 = nth i yl 0.
Proof.
  intros o oob boot ts W Y WF H. destruct (all_targets_gen o oob boot ts 0 ([], []) W Y WF eq_refl H) as (A&B&_&C). auto.
Qed.
