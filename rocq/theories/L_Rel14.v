(** L_Rel14: tuning data that are there several times. *)
From Verif Require Import Base TreeSpec Spec M_Tree M_Gamma M_Levels M_Prox M_Grad M_Sgd M_Smooth SpecSmooth SpecTune SpecRel SpecRel2.
From Verif Require Import L_Base L_Tree L_TreeModel L_Gamma2 L_Grad L_Sgd L_Smooth3 L_Route L_Levels L_Tune L_Rel L_Rel2 L_Rel3.
From Coq Require Import Reals Lra Permutation.
Local Open Scope R_scope.

(** *** the tuning weights times a positive number *)
Definition w_prob (c : R) (P : problem R) : problem R :=
  {| p_y := p_y P; p_w := map (Rmult c) (p_w P); p_Gamma := p_Gamma P; p_eta := p_eta P; p_tidx := p_tidx P |}.
Section Weights.
Variable c : R.
Hypothesis POS : 0 < c.
Lemma restrict_w : forall P q, restrict (w_prob c P) q = w_prob c (restrict P q).
Proof. intros. unfold restrict, w_prob; cbn. rewrite mask_select_map. reflexivity. Qed.
Lemma cost_w : forall P l, l_cost l2_loss (w_prob c P) l = rmap (Rmult c) (l_cost l2_loss P l).
Proof.
  intros. cbn [l_cost l2_loss w_prob p_y p_Gamma p_eta p_w]. unfold calc_cost.
  destruct (fills (p_Gamma P) (p_eta P) l) as [[Gf Ef]|]; cbn [rmap bind]; auto. f_equal.
  set (r := map2 nsub _ _). generalize (p_w P) as w. clear. induction r; destruct w; cbn [map map2]; rewrite ?nsum_nil; try ring.
  rewrite !nsum_cons, IHr. rn. ring.
Qed.
Lemma grad_w : forall P l, l_grad l2_loss (w_prob c P) l = rmap (map (Rmult c)) (l_grad l2_loss P l).
Proof.
  intros. cbn [l_grad l2_loss w_prob p_y p_Gamma p_eta p_w]. unfold take_gradient.
  destruct (fills (p_Gamma P) (p_eta P) l) as [[Gf Ef]|]; cbn [rmap bind]; auto. f_equal.
  rewrite map_map. apply map_ext. intros k. set (u := map2 nsub (map2 _ _ _) _). set (r := map2 nsub _ _).
  assert (B : nsum (map2 nmul (map2 nmul r (map (Rmult c) (p_w P))) u) = c * nsum (map2 nmul (map2 nmul r (p_w P)) u)).
  { clearbody u r. revert u. generalize (p_w P) as w. clear. 
    induction r; destruct w; intros [|u us]; cbn [map map2]; rewrite ?nsum_nil; try ring.
    rewrite !nsum_cons, IHr. rn. ring. }
  rewrite B. rn. ring.
Qed.
Lemma cost_ce_w : forall lg P l, l_cost (ce_loss lg) (w_prob c P) l = rmap (Rmult c) (l_cost (ce_loss lg) P l).
Proof using POS.
  intros. cbn [l_cost ce_loss w_prob p_y p_Gamma p_eta p_w rmap]. f_equal. unfold calc_cost_ce.
  set (ph := map2 ndiv _ _). clearbody ph.
  assert (U : map2 (fun wi pi => negb (neqb wi n0) && negb (neqb pi n0))%bool (map (Rmult c) (p_w P)) (p_y P) = map2 (fun wi pi => negb (neqb wi n0) && negb (neqb pi n0))%bool (p_w P) (p_y P)).
  { rewrite map2_map_l. apply map2_ext_in. intros a b _ _. f_equal. f_equal. rn. destruct (Reqb_spec a 0) as [->|NZ]; [apply Reqb_true; ring|apply Reqb_false].
    intros Q. apply Rmult_integral in Q. destruct Q; [lra|tauto]. }
  rewrite U, mask_select_map. clear U.
  assert (B : forall w y z, nsum (map2 nmul (map2 nmul (map (Rmult c) w) y) z) = c * nsum (map2 nmul (map2 nmul w y) z)).
  { induction w; intros [|y ys] [|z zs]; cbn [map map2]; rewrite ?nsum_nil; try ring. rewrite !nsum_cons, IHw. rn. ring. }
  rewrite B. rn. ring.
Qed.
Lemma grad_ce_w : forall lg P l, l_grad (ce_loss lg) (w_prob c P) l = rmap (map (Rmult c)) (l_grad (ce_loss lg) P l).
Proof.
  intros. cbn [l_grad ce_loss w_prob p_y p_Gamma p_eta p_w]. unfold take_gradient_ce.
  destruct (fills (p_Gamma P) (p_eta P) l) as [[Gf Ef]|]; cbn [rmap bind]; auto. f_equal. rewrite map_map. apply map_ext. intros k.
  set (u := map2 (fun num e => _) _ _). clearbody u.
  assert (E : map2 ndiv (map2 (fun wi pi => nmul (nopp wi) pi) (map (Rmult c) (p_w P)) (p_y P)) (map2 ndiv Gf Ef)
     = map (Rmult c) (map2 ndiv (map2 (fun wi pi => nmul (nopp wi) pi) (p_w P) (p_y P)) (map2 ndiv Gf Ef))).
  { generalize (map2 ndiv Gf Ef) as z, (p_w P) as w, (p_y P) as y. clear. intros z w. revert z. induction w; intros [|z zs] [|y ys]; cbn [map map2]; auto.
    rewrite IHw. f_equal. rn. unfold Rdiv. ring. }
  rewrite E. change (map (Rmult c) ?x) with (map (fun a => c * a) x). apply dot_scal_r.
Qed.
Lemma optimise_w : forall lg kd (o o' : smooth_opts R) rd rd' P l, o_no_constraint o' = o_no_constraint o -> o_sanity o' = o_sanity o -> o_class_eps o' = o_class_eps o ->
  o_class_loss o' = o_class_loss o -> o_t_fix o' = o_t_fix o / c -> o_adam o' = option_map (sc_par c) (o_adam o) -> r_draws rd' = r_draws rd ->
  optimise lg kd o' rd' (w_prob c P) l = rmap (fun r => (fst (fst r), snd (fst r), map (Rmult c) (snd r))) (optimise lg kd o rd P l).
Proof using POS.
  intros lg kd o o' rd rd' P l H1 H2 H3 H4 H5 H6 H7. unfold optimise. rewrite H1, H2, H3, H4, H5, H6, H7. destruct (o_sanity o); [reflexivity|].
  assert (A : stocastic_grad_descent (w_prob c P) l (o_t_fix o / c) (negb (o_no_constraint o)) (option_map (sc_par c) (o_adam o)) (r_draws rd) =
    rmap (fun r => (fst (fst r), snd (fst r), map (Rmult c) (snd r))) (stocastic_grad_descent P l (o_t_fix o) (negb (o_no_constraint o)) (o_adam o) (r_draws rd))).
  { unfold stocastic_grad_descent. change (p_Gamma (w_prob c P)) with (p_Gamma P). destruct (negb _); [reflexivity|]. destruct (_ && _)%bool; [reflexivity|].
    apply sgd_run_sc; auto; [intros; apply cost_w|intros; rewrite restrict_w; apply grad_w]. }
  assert (B : stocastic_grad_descent_ce lg (w_prob c P) l (o_t_fix o / c) (negb (o_no_constraint o)) (o_class_eps o) (option_map (sc_par c) (o_adam o)) (r_draws rd) =
    rmap (fun r => (fst (fst r), snd (fst r), map (Rmult c) (snd r))) (stocastic_grad_descent_ce lg P l (o_t_fix o) (negb (o_no_constraint o)) (o_class_eps o) (o_adam o) (r_draws rd))).
  { unfold stocastic_grad_descent_ce. change (p_Gamma (w_prob c P)) with (p_Gamma P). destruct (negb (_ =? _)%nat); [reflexivity|].
    apply sgd_run_sc; auto; [intros; apply cost_ce_w|intros; rewrite restrict_w; apply grad_ce_w]. }
  rewrite A, B. destruct kd; [reflexivity|]. destruct (o_class_loss o); reflexivity.
Qed.
Lemma flatten_w : forall kd (o : smooth_opts R) G E Ti Y W, flatten kd o G E Ti Y (map (Rmult c) W) = w_prob c (flatten kd o G E Ti Y W).
Proof.
  intros. unfold flatten, w_prob. cbn [p_y p_w p_Gamma p_eta p_tidx]. f_equal. rewrite concat_map, map_repeat'. reflexivity.
Qed.
Lemma smooth_w : forall lg kd ts (o o' : smooth_opts R) rd rd', o_no_constraint o' = o_no_constraint o -> o_sanity o' = o_sanity o -> o_class_eps o' = o_class_eps o ->
  o_class_loss o' = o_class_loss o -> o_t_fix o' = o_t_fix o / c -> o_adam o' = option_map (sc_par c) (o_adam o) -> r_draws rd' = r_draws rd ->
  o_all_trees o' = o_all_trees o -> o_lamb_draws o' = o_lamb_draws o -> o_dist o' = o_dist o -> o_style o' = o_style o ->
  ((oob_logic o' || o_resample o') && (isNone (o_X_trained o') || isNone (o_y_trained o')))%bool = ((oob_logic o || o_resample o) && (isNone (o_X_trained o) || isNone (o_y_trained o)))%bool ->
  all_targets kd o' rd' ts = rmap (fun r => (fst r, map (Rmult c) (snd r))) (all_targets kd o rd ts) ->
  smooth lg (Forest kd ts) o' rd' = rmap (fun out => {| s_forest := s_forest out; s_lamb := s_lamb out; s_forest2 := s_forest2 out; s_lamb2 := s_lamb2 out;
     s_lamb_last := s_lamb_last out; s_costs := map (Rmult c) (s_costs out) |}) (smooth lg (Forest kd ts) o rd).
Proof using POS.
  intros lg kd ts o o' rd rd' H1 H2 H3 H4 H5 H6 H7 H8 H9 H10 H11 HC HT. unfold smooth. rewrite HC, H1. clear HC.
  destruct ((oob_logic o || o_resample o) && (isNone (o_X_trained o) || isNone (o_y_trained o)))%bool; [reflexivity|].
  destruct (match kd with Class _ => o_no_constraint o | Reg => false end); [reflexivity|].
  assert (HF : forest_matrices kd o' ts = forest_matrices kd o ts) by (unfold forest_matrices; rewrite H10, H11; reflexivity).
  rewrite HF, HT. destruct (forest_matrices kd o ts) as [[[G E] Ti]|]; cbn [rmap bind]; [|reflexivity].
  destruct (all_targets kd o rd ts) as [[Y W]|]; cbn [rmap bind fst snd]; [|reflexivity].
  assert (EI : initial_lamb kd o' (ncols E) = initial_lamb kd o (ncols E)) by (unfold initial_lamb; rewrite H9, H3; reflexivity).
  assert (EF : flatten kd o' G E Ti Y (map (Rmult c) W) = w_prob c (flatten kd o G E Ti Y W)).
  { rewrite flatten_w. unfold flatten. rewrite H8. reflexivity. }
  rewrite EI, EF, (optimise_w lg kd o o' rd rd') by auto.
  destruct (optimise lg kd o rd (flatten kd o G E Ti Y W) (initial_lamb kd o (ncols E))) as [[[l ll] cs]|]; cbn [rmap bind fst snd]; [|reflexivity].
  cbn [w_prob p_Gamma p_eta]. destruct (write_forest _ _ ts); cbn [rmap bind]; [|reflexivity]. destruct (write_forest2 _ _ ts); cbn [rmap bind]; reflexivity.
Qed.
End Weights.

(** *** sums over repeated lists *)
Lemma nsum_times : forall {A} (h : A -> R) L m, nsum (map h (concat (repeat L m))) = INR m * nsum (map h L).
Proof.
  intros A h L m. induction m as [|m IH]; [cbn [repeat concat map]; rewrite nsum_nil; cbn; ring|]. cbn [repeat concat]. rewrite map_app, nsum_app, IH, S_INR. ring.
Qed.
Lemma map_times : forall {A B} (f : A -> B) L m, map f (concat (repeat L m)) = concat (repeat (map f L) m).
Proof. intros. rewrite concat_map, map_repeat'. reflexivity. Qed.
Lemma in_times : forall {A} (x : A) L m, (0 < m)%nat -> (In x (concat (repeat L m)) <-> In x L).
Proof.
  intros A x L m Hm. rewrite in_concat. split.
  - intros (l&Hl&Hx). apply repeat_spec in Hl. subst. auto.
  - intros Hx. exists L. split; auto. destruct m; [lia|]. left. reflexivity.
Qed.
Lemma dot_maps : forall {A} (f g : A -> R) L, dot (map f L) (map g L) = nsum (map (fun p => f p * g p) L).
Proof. intros. unfold dot. f_equal. induction L; cbn; auto. f_equal; auto. Qed.
Lemma targets_times : forall nc (t : tree R) (L : list (list R * list R)) m, wf_tree t -> (0 < m)%nat ->
  leaf_targets nc t (map fst (concat (repeat L m))) (map snd (concat (repeat L m))) =
  rmap (fun r => (fst r, map (Rmult (INR m)) (snd r))) (leaf_targets nc t (map fst L) (map snd L)).
Proof.
  intros nc t L m WF Hm. pose proof (lt_0_INR m Hm) as POS.
  destruct (leaf_targets nc t (map fst L) (map snd L)) as [[yl w]|er] eqn:LT.
  - pose proof (targets_spec nc t _ _ yl w WF LT) as (HX&_&HY&SP). destruct (routed_ex t (map fst L) WF) as (lf&RT).
    destruct (SP lf RT) as (LW&LY&SI). clear SP RT.
    unfold leaf_targets, obs_V_leaf in LT |- *. destruct (map fst L) as [|x0 X0] eqn:EX; [contradiction|]. rewrite <- EX in *.
    destruct (map fst (concat (repeat L m))) as [|x1 X1] eqn:EX'.
    { destruct L as [|p L]; [discriminate|]. destruct m; [lia|]. discriminate. }
    rewrite <- EX' in *. cbn [bind rmap fst snd] in LT |- *. rewrite !map_length, !Nat.eqb_refl in LT |- *. cbn [negb] in LT |- *.
    destruct (forallb _ (map snd L)) eqn:FB; [|discriminate]. cbn [negb] in LT.
    replace (forallb _ (map snd (concat (repeat L m)))) with true
      by (symmetry; apply forallb_forall; intros r Hr; rewrite map_times, in_times in Hr by auto; apply Nat.eqb_eq; auto).
    cbn [negb].
    set (cl := fun (L : list (list R * list R)) j => map (fun p => nth j (leaf_select t (path_row t (fst p))) (@n0 R _)) L).
    assert (TR : forall L, transpose n0 (num_leaf t) (map (fun x => leaf_select t (path_row t x)) (map fst L)) = map (cl L) (seq 0 (num_leaf t))).
    { intros. unfold transpose, cl. apply map_ext. intros j. rewrite !map_map. reflexivity. }
    rewrite !TR in *. clear TR.
    assert (CW : map nsum (map (cl (concat (repeat L m))) (seq 0 (num_leaf t))) = map (Rmult (INR m)) (map nsum (map (cl L) (seq 0 (num_leaf t))))).
    { rewrite !map_map. apply map_ext. intros j. unfold cl. rewrite nsum_times. reflexivity. }
    rewrite CW. clear CW.
    assert (EW : w = map nsum (map (cl L) (seq 0 (num_leaf t)))) by congruence. rewrite <- EW in *.
    assert (EY : yl = map2 (fun c0 d => map (fun c => ndiv (dot c0 (col c (map snd L))) d) (seq 0 nc)) (map (cl L) (seq 0 (num_leaf t))) (fill1 w)) by congruence.
    clear LT.
    assert (HL : num_leaf t = n_leaves t) by (rewrite <- LW, EW, !map_length, seq_length; reflexivity).
    f_equal. f_equal. 
    apply nth_ext with (d := []) (d' := []); [rewrite LY, map2_length; unfold fill1; rewrite !map_length, seq_length, HL, LW; lia|].
    intros j Hj. rewrite map2_length in Hj. unfold fill1 in Hj. rewrite !map_length, seq_length, HL, LW, Nat.min_id in Hj.
    destruct (SI j Hj) as (W1&_&W2). unfold fill1 in *.
    assert (ROW : forall L' w', length w' = n_leaves t ->
      nth j (map2 (fun c0 d => map (fun c => ndiv (dot c0 (col c (map snd L'))) d) (seq 0 nc)) (map (cl L') (seq 0 (num_leaf t))) (map (fun x => if neqb x n0 then n1 else x) w')) []
      = map (fun c => ndiv (dot (cl L' j) (col c (map snd L'))) (if neqb (nth j w' 0) n0 then n1 else nth j w' 0)) (seq 0 nc)).
    { intros L' w' LW'. rewrite (nth_map2 _ _ _ _ [] n1) by (rewrite ?map_length, ?seq_length, ?LW', ?HL; auto).
      rewrite nth_map_seq by (rewrite HL; auto). rewrite (nth_map_in _ _ _ 0) by (rewrite LW'; auto). reflexivity. }
    rewrite EY, ROW in W2 by auto. rewrite EY, !ROW by (rewrite ?map_length; auto). rewrite (nth_map_in _ _ _ 0) by (rewrite LW; auto).
    apply map_ext_in. intros c Hc. apply in_seq in Hc. specialize (W2 c). rewrite nth_map_seq in W2 by lia. cbn [Nat.add] in W2.
    assert (DD : dot (cl (concat (repeat L m)) j) (col c (map snd (concat (repeat L m)))) = INR m * dot (cl L j) (col c (map snd L))).
    { unfold cl, col. rewrite !map_map, !dot_maps, nsum_times. reflexivity. }
    rewrite DD. clear DD. specialize (W2 ltac:(lia)). set (d := dot (cl L j) _) in *. set (wj := nth j w 0) in *. clearbody d wj. revert W2.
    change (@neqb R _) with Reqb. change (@ndiv R _) with Rdiv. change (@n0 R _) with 0. change (@n1 R _) with 1. unfold Reqb.
    destruct (Req_EM_T wj 0) as [Z|NZ].
    + rewrite Z, Rmult_0_r. destruct (Req_EM_T 0 0); [|contradiction]. intros W2. rewrite sum_sel_count_zero in W2 by congruence. replace d with 0 by lra. f_equal. ring.
    + intros _. destruct (Req_EM_T (INR m * wj) 0) as [Z|_]; [apply Rmult_integral in Z; destruct Z; [lra|contradiction]|]. field. split; auto. lra.
  - revert LT. unfold leaf_targets, obs_V_leaf. destruct L as [|p L].
    { replace (concat (repeat [] m)) with (@nil (list R * list R)) by (induction m; cbn; auto; destruct m; auto; apply IHm; [lia|apply lt_0_INR; lia]).
      cbn. intros. congruence. }
    set (l := p :: L). assert (NE : exists q l', concat (repeat l m) = q :: l') by (destruct m; [lia|]; cbn; eauto).
    destruct NE as (q&l'&NE). destruct (map fst (concat (repeat l m))) as [|x1 X1] eqn:EX'; [rewrite NE in EX'; discriminate|].
    rewrite <- EX'. destruct (map fst l) as [|x2 X2] eqn:EX; [discriminate|]. rewrite <- EX. cbn [bind rmap].
    rewrite !map_length, !Nat.eqb_refl. cbn [negb].
    replace (forallb (fun r => (length r =? nc)%nat) (map snd (concat (repeat l m)))) with (forallb (fun r => (length r =? nc)%nat) (map snd l)).
    { destruct (forallb _ (map snd l)); cbn [negb]; congruence. }
    apply eq_true_iff_eq. rewrite !forallb_forall. rewrite map_times. split; intros H r Hr; apply H; apply (in_times r (map snd l) m Hm); auto.
Qed.

Definition more (m : nat) (r : mat R * list R) : mat R * list R := (fst r, map (Rmult (INR m)) (snd r)).
Lemma all_targets_more : forall kd (o o' : smooth_opts R) rd rd' m ts,
  (forall q t, nth_error ts q = Some t ->
     (do '(X, y) <- tuning_data kd o' rd' q; leaf_targets (n_gamma kd) t X y) =
     rmap (more m) (do '(X, y) <- tuning_data kd o rd q; leaf_targets (n_gamma kd) t X y)) ->
  all_targets kd o' rd' ts = rmap (more m) (all_targets kd o rd ts).
Proof.
  intros kd o o' rd rd' m ts H. unfold all_targets.
  assert (X : forall l acc, (forall it, In it l -> (do '(X, y) <- tuning_data kd o' rd' (fst it); leaf_targets (n_gamma kd) (snd it) X y) =
     rmap (more m) (do '(X, y) <- tuning_data kd o rd (fst it); leaf_targets (n_gamma kd) (snd it) X y)) ->
     foldM (add_targets kd o' rd') l (more m acc) = rmap (more m) (foldM (add_targets kd o rd) l acc)).
  { induction l as [|it l IH]; intros acc Hl; cbn [foldM]; auto.
    assert (E : add_targets kd o' rd' (more m acc) it = rmap (more m) (add_targets kd o rd acc it)).
    { assert (AS : forall o rd acc, add_targets kd o rd acc it = do r <- (do '(X, y) <- tuning_data kd o rd (fst it); leaf_targets (n_gamma kd) (snd it) X y); Ok (fst acc ++ fst r, snd acc ++ snd r)).
      { intros. unfold add_targets. destruct (tuning_data kd o0 rd0 (fst it)) as [[X y]|]; cbn [bind]; auto. destruct (leaf_targets _ _ X y) as [[]|]; reflexivity. }
      rewrite !AS, (Hl it (or_introl eq_refl)). destruct (do '(X, y) <- tuning_data kd o rd (fst it); _) as [[yl w]|]; cbn [rmap bind]; [|reflexivity].
      unfold more. cbn [fst snd]. rewrite map_app. reflexivity. }
    rewrite E. destruct (add_targets kd o rd acc it); cbn [bind rmap]; auto. apply IH. intros; apply Hl; right; auto. }
  apply (X _ ([], [])). intros [q t] Hin. cbn [fst snd]. apply H. clear -Hin.
  assert (G : forall s (ts : list (tree R)) q, In (q, t) (combine (seq s (length ts)) ts) -> (s <= q)%nat /\ nth_error ts (q - s) = Some t).
  { clear. intros s ts. revert s. induction ts as [|u ts IH]; intros s q Hin; cbn in Hin; [contradiction|].
    destruct Hin as [E|Hin].
    - inversion E; subst. rewrite Nat.sub_diag. auto.
    - apply IH in Hin. destruct Hin as [H1 H2]. split; [lia|]. replace (q - s)%nat with (S (q - S s)) by lia. auto. }
  apply G in Hin. rewrite Nat.sub_0_r in Hin. tauto.
Qed.

Lemma smooth_slower : forall lg kd ts (o o' : smooth_opts R) rd rd' m, (0 < m)%nat ->
  o_no_constraint o' = o_no_constraint o -> o_sanity o' = o_sanity o -> o_class_eps o' = o_class_eps o ->
  o_class_loss o' = o_class_loss o -> o_t_fix o' = o_t_fix o / INR m -> o_adam o' = option_map (sc_par (INR m)) (o_adam o) -> r_draws rd' = r_draws rd ->
  o_all_trees o' = o_all_trees o -> o_lamb_draws o' = o_lamb_draws o -> o_dist o' = o_dist o -> o_style o' = o_style o ->
  ((oob_logic o' || o_resample o') && (isNone (o_X_trained o') || isNone (o_y_trained o')))%bool = ((oob_logic o || o_resample o) && (isNone (o_X_trained o) || isNone (o_y_trained o)))%bool ->
  all_targets kd o' rd' ts = rmap (more m) (all_targets kd o rd ts) ->
  smooth lg (Forest kd ts) o' rd' = rmap (dearer m) (smooth lg (Forest kd ts) o rd).
Proof. intros. unfold dearer. change (nmul (nof m)) with (Rmult (INR m)). apply smooth_w; auto. apply lt_0_INR; auto. Qed.

Lemma p_C113_tune : forall lg kd ts (o : smooth_opts R) rd m X Y X' Y', Forall (@wf_tree R) ts -> (0 < m)%nat -> o_resample o = false ->
  length Y = length X -> length Y' = length X' -> times m (combine X Y) (combine X' Y') ->
  smooth lg (Forest kd ts) (with_tune (slower m o) X' Y') rd = rmap (dearer m) (smooth lg (Forest kd ts) (with_tune o X Y) rd).
Proof.
  intros lg kd ts o rd m X Y X' Y' WF Hm RS L1 L2 PM. apply smooth_slower; auto.
  apply all_targets_more. intros q t N. unfold tuning_data, oob_logic. cbn [with_tune slower o_resample o_X_trained o_y_trained o_X_tune o_y_tune isNone].
  rewrite RS. cbn [orb andb bind].
  pose proof (targets_pairs (n_gamma kd) t _ _ PM) as E. rewrite (combine_fst X' Y'), (combine_snd X' Y') in E by auto. rewrite E.
  rewrite targets_times; auto.
  - rewrite combine_fst, combine_snd by auto. reflexivity.
  - rewrite Forall_forall in WF. apply WF. eapply nth_error_In; eauto.
Qed.

Lemma take_rows_times : forall {A} (l : list A) idx m, (0 < m)%nat -> take_rows l (concat (repeat idx m)) = rmap (fun r => concat (repeat r m)) (take_rows l idx).
Proof.
  intros A l idx m Hm. destruct l as [|d l0].
  - destruct idx as [|i idx].
    + replace (concat (repeat [] m)) with (@nil nat) by (clear; induction m; auto). cbn. f_equal. clear. induction m; auto.
    + destruct m; [lia|]. unfold take_rows. cbn. destruct i; reflexivity.
  - set (l := d :: l0). destruct (take_rows_spec d l idx) as [[F E]|[F E]], (take_rows_spec d l (concat (repeat idx m))) as [[F' E']|[F' E']]; rewrite E, E'; cbn [rmap]; auto.
    + rewrite map_times. reflexivity.
    + exfalso. apply Exists_exists in F'. destruct F' as (i&Hi&B). apply in_times in Hi; auto. rewrite Forall_forall in F. specialize (F i Hi). lia.
    + exfalso. apply Exists_exists in F. destruct F as (i&Hi&B). rewrite Forall_forall in F'. specialize (F' i). rewrite in_times in F' by auto. specialize (F' Hi). lia.
Qed.
Lemma response_times : forall kd (y : list R) m, (0 < m)%nat -> response_rows kd (concat (repeat y m)) = concat (repeat (response_rows kd y) m).
Proof.
  intros kd y m Hm. destruct kd; cbn [response_rows]; [apply map_times|]. unfold get_dummies.
  replace (sorted_set (concat (repeat y m))) with (sorted_set y); [apply map_times|].
  apply sorted_unique; try apply sorted_set_sorted. intros x. rewrite !sorted_set_in. symmetry. apply in_times. auto.
Qed.
Lemma combine_times : forall {A B} (X : list A) (Y : list B) m, length X = length Y ->
  concat (repeat (combine X Y) m) = combine (concat (repeat X m)) (concat (repeat Y m)).
Proof.
  intros A B X Y m L. induction m; cbn; auto. rewrite IHm. clear IHm. generalize (concat (repeat X m)) as XX, (concat (repeat Y m)) as YY. revert Y L.
  induction X; destruct Y; cbn; intros; auto; try discriminate. f_equal. apply IHX. congruence.
Qed.
Lemma p_C113_sample : forall lg kd ts (o : smooth_opts R) rd rd' m, Forall (@wf_tree R) ts -> (0 < m)%nat -> (oob_logic o || o_resample o)%bool = true ->
  (forall q, times m (r_oob rd q) (r_oob rd' q)) -> (forall q, times m (r_boot rd q) (r_boot rd' q)) -> r_draws rd' = r_draws rd ->
  smooth lg (Forest kd ts) (slower m o) rd' = rmap (dearer m) (smooth lg (Forest kd ts) o rd).
Proof.
  intros lg kd ts o rd rd' m WF Hm TR PO PB ED.
  set (rd2 := {| r_oob := fun q => concat (repeat (r_oob rd q) m); r_boot := fun q => concat (repeat (r_boot rd q) m); r_draws := r_draws rd |}).
  transitivity (smooth lg (Forest kd ts) (slower m o) rd2).
  { apply p_C85_sample; auto; intros q; symmetry; [apply PO|apply PB]. }
  apply smooth_slower; auto.
  apply all_targets_more. intros q t N. unfold tuning_data. change (oob_logic (slower m o)) with (oob_logic o).
  change (o_resample (slower m o)) with (o_resample o). rewrite TR. cbn [slower o_X_trained o_y_trained].
  destruct (o_X_trained o) as [X|]; [|reflexivity]. destruct (o_y_trained o) as [y|]; [|reflexivity].
  set (idx := if oob_logic o then r_oob rd q else r_boot rd q).
  replace (if oob_logic o then r_oob rd2 q else r_boot rd2 q) with (concat (repeat idx m)) by (unfold idx; destruct (oob_logic o); reflexivity).
  rewrite !take_rows_times by auto. destruct (take_rows X idx) as [Xt|] eqn:EX; cbn [rmap bind]; [|reflexivity].
  destruct (take_rows y idx) as [yt|] eqn:EY; cbn [rmap bind]; [|reflexivity].
  rewrite response_times by auto.
  assert (LL : length Xt = length (response_rows kd yt)).
  { transitivity (length idx); [destruct (take_rows_spec [] X idx) as [[_ E]|[_ E]]|destruct (take_rows_spec 0 y idx) as [[_ E]|[_ E]]]; rewrite E in *; try discriminate; [inversion EX|inversion EY]; subst.
    - rewrite map_length. reflexivity.
    - destruct kd; cbn [response_rows]; unfold get_dummies; rewrite !map_length; reflexivity. }
  pose proof (targets_times (n_gamma kd) t (combine Xt (response_rows kd yt)) m) as TT.
  rewrite combine_times, !combine_fst, !combine_snd in TT; auto.
  - apply TT; auto. rewrite Forall_forall in WF. apply WF. eapply nth_error_In; eauto.
  - clear -LL. induction m; cbn; auto. rewrite !app_length. congruence.
  - clear -LL. induction m; cbn; auto. rewrite !app_length. congruence.
Qed.
