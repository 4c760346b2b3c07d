(** L_Rel3: order of the tuning data, rescaled features, what smooth may look at. *)
From Verif Require Import Base TreeSpec Spec M_Tree M_Gamma M_Levels M_Prox M_Grad M_Sgd M_Smooth SpecSmooth SpecRel
  L_Base L_Tree L_TreeModel L_TreeModel2 L_Dist L_Gamma L_Gamma2 L_Grad L_Levels L_Sgd L_Rel L_Rel2.
From Coq Require Import Reals Lra Permutation Sorted.
Local Open Scope R_scope.

Lemma fold_left_ext_in : forall {A B} (f g : A -> B -> A) l a, (forall a x, In x l -> f a x = g a x) -> fold_left f l a = fold_left g l a.
Proof.
  induction l; intros a0 H; cbn; auto. rewrite H by (left; auto). apply IHl. intros; apply H; right; auto.
Qed.

(** *** order *)
Lemma sorted_unique : forall l m : list R, StronglySorted Rlt l -> StronglySorted Rlt m ->
  (forall x, In x l <-> In x m) -> l = m.
Proof.
  induction l as [|a l IH]; intros [|b m] Sl Sm H; auto.
  - exfalso. apply (H b). left; auto.
  - exfalso. apply (H a). left; auto.
  - inversion Sl as [|? ? Sl' Fa]; inversion Sm as [|? ? Sm' Fb]; subst. rewrite Forall_forall in Fa, Fb.
    assert (E : a = b).
    { destruct (proj1 (H a) (or_introl eq_refl)) as [->|Ha]; auto.
      destruct (proj2 (H b) (or_introl eq_refl)) as [->|Hb]; auto.
      pose proof (Fb _ Ha). pose proof (Fa _ Hb). lra. }
    subst b. f_equal. apply IH; auto. intros x. split; intros Hx.
    + destruct (proj1 (H x) (or_intror Hx)) as [<-|]; auto. pose proof (Fa _ Hx). lra.
    + destruct (proj2 (H x) (or_intror Hx)) as [<-|]; auto. pose proof (Fb _ Hx). lra.
Qed.
Lemma sorted_set_perm : forall l m : list R, Permutation l m -> sorted_set l = sorted_set m.
Proof.
  intros. apply sorted_unique; try apply sorted_set_sorted. intros x. rewrite !sorted_set_in.
  split; apply Permutation_in; auto. symmetry; auto.
Qed.

Lemma targets_pairs : forall nc t (L L' : list (list R * list R)), Permutation L L' ->
  leaf_targets nc t (map fst L) (map snd L) = leaf_targets nc t (map fst L') (map snd L').
Proof.
  intros nc t L L' PL. unfold leaf_targets, obs_V_leaf.
  destruct L as [|p L].
  { apply Permutation_nil in PL. subst. reflexivity. }
  destruct L' as [|p' L']; [symmetry in PL; apply Permutation_nil in PL; discriminate|].
  set (l := p :: L) in *. set (l' := p' :: L') in *.
  change (match map fst l with [] => Err ValueError | _ => Ok (map (fun x => leaf_select t (path_row t x)) (map fst l)) end)
    with (@Ok (mat R) (map (fun x => leaf_select t (path_row t x)) (map fst l))).
  change (match map fst l' with [] => Err ValueError | _ => Ok (map (fun x => leaf_select t (path_row t x)) (map fst l')) end)
    with (@Ok (mat R) (map (fun x => leaf_select t (path_row t x)) (map fst l'))).
  clearbody l l'. cbn [bind]. rewrite !map_length, !Nat.eqb_refl. cbn [negb].
  assert (EF : forallb (fun r => Nat.eqb (length r) nc) (map snd l) = forallb (fun r => Nat.eqb (length r) nc) (map snd l')).
  { apply Bool.eq_true_iff_eq. rewrite !forallb_forall. split; intros H x Hx; apply H;
      eapply Permutation_in; [apply Permutation_map; symmetry; exact PL|auto|apply Permutation_map; exact PL|auto]. }
  rewrite EF. destruct (negb _); [reflexivity|]. f_equal.
  unfold transpose. rewrite !map_map.
  assert (EW : map (fun j => nsum (map (fun r => nth j r n0) (map (fun x => leaf_select t (path_row t (fst x))) l))) (seq 0 (num_leaf t))
    = map (fun j => nsum (map (fun r => nth j r n0) (map (fun x => leaf_select t (path_row t (fst x))) l'))) (seq 0 (num_leaf t))).
  { apply map_ext. intros j. apply nsum_perm. apply Permutation_map, Permutation_map. auto. }
  rewrite EW. f_equal. set (d := fill1 _). clearbody d. clear EW EF.
  revert d. induction (seq 0 (num_leaf t)) as [|j js IH]; intros [|d0 d]; cbn [map map2]; auto. rewrite IH. f_equal.
  apply map_ext. intros k. rn. f_equal. unfold dot, col. rewrite !map2_map_l, !map2_map_r.
  rewrite !map2_diag. apply nsum_perm, Permutation_map. auto.
Qed.

Lemma combine_fst : forall {A B} (l : list A) (m : list B), length l = length m -> map fst (combine l m) = l.
Proof. induction l; destruct m; cbn; intros; auto; try discriminate. f_equal; auto. Qed.
Lemma combine_snd : forall {A B} (l : list A) (m : list B), length l = length m -> map snd (combine l m) = m.
Proof. induction l; destruct m; cbn; intros; auto; try discriminate. f_equal; auto. Qed.

(** a run depends on the tuning data only through the target rows and weights of the leaves *)
Lemma smooth_targets : forall lg kd ts (o o' : smooth_opts R) rd rd',
  (oob_logic o' || o_resample o')%bool = (oob_logic o || o_resample o)%bool ->
  isNone (o_X_trained o') = isNone (o_X_trained o) -> isNone (o_y_trained o') = isNone (o_y_trained o) ->
  o_no_constraint o' = o_no_constraint o -> o_all_trees o' = o_all_trees o -> o_lamb_draws o' = o_lamb_draws o ->
  o_class_eps o' = o_class_eps o -> o_style o' = o_style o -> o_dist o' = o_dist o -> o_sanity o' = o_sanity o ->
  o_t_fix o' = o_t_fix o -> o_adam o' = o_adam o -> o_class_loss o' = o_class_loss o -> r_draws rd' = r_draws rd ->
  all_targets kd o' rd' ts = all_targets kd o rd ts ->
  smooth lg (Forest kd ts) o' rd' = smooth lg (Forest kd ts) o rd.
Proof.
  intros lg kd ts o o' rd rd' H1 H2 H3 H4 H5 H6 H7 H8 H9 H10 H11 H12 H13 H14 HT.
  unfold smooth. rewrite H1, H2, H3, H4, HT.
  replace (forest_matrices kd o' ts) with (forest_matrices kd o ts) by (unfold forest_matrices; rewrite H8, H9; reflexivity).
  assert (EI : forall K, initial_lamb kd o' K = initial_lamb kd o K) by (intros; unfold initial_lamb; rewrite H6, H7; reflexivity).
  assert (EF : forall G E Ti Y W, flatten kd o' G E Ti Y W = flatten kd o G E Ti Y W) by (intros; unfold flatten; rewrite H5; reflexivity).
  assert (EO : forall P l, optimise lg kd o' rd' P l = optimise lg kd o rd P l)
    by (intros; unfold optimise; rewrite H4, H7, H10, H11, H12, H13, H14; reflexivity).
  destruct (_ && _)%bool; [reflexivity|]. destruct (match kd with Class _ => o_no_constraint o | Reg => false end); [reflexivity|].
  destruct (forest_matrices kd o ts) as [[[G E] Ti]|]; cbn [bind]; [|reflexivity].
  destruct (all_targets kd o rd ts) as [[Y W]|]; cbn [bind]; [|reflexivity]. rewrite EI, EF, EO. reflexivity.
Qed.
Lemma all_targets_ext : forall kd (o o' : smooth_opts R) rd rd' ts,
  (forall q t, nth_error ts q = Some t ->
     (do '(X, y) <- tuning_data kd o' rd' q; leaf_targets (n_gamma kd) t X y) =
     (do '(X, y) <- tuning_data kd o rd q; leaf_targets (n_gamma kd) t X y)) ->
  all_targets kd o' rd' ts = all_targets kd o rd ts.
Proof.
  intros kd o o' rd rd' ts H. unfold all_targets.
  assert (X : forall l acc, (forall it, In it l -> (do '(X, y) <- tuning_data kd o' rd' (fst it); leaf_targets (n_gamma kd) (snd it) X y) =
     (do '(X, y) <- tuning_data kd o rd (fst it); leaf_targets (n_gamma kd) (snd it) X y)) ->
     foldM (add_targets kd o' rd') l acc = foldM (add_targets kd o rd) l acc).
  { induction l as [|it l IH]; intros acc Hl; cbn [foldM]; auto.
    assert (E : add_targets kd o' rd' acc it = add_targets kd o rd acc it).
    { unfold add_targets. specialize (Hl it (or_introl eq_refl)).
      destruct (tuning_data kd o' rd' (fst it)) as [[X' y']|], (tuning_data kd o rd (fst it)) as [[X y]|]; cbn [bind] in *;
        rewrite ?Hl; auto; rewrite <- ?Hl; auto; congruence. }
    rewrite E. destruct (add_targets kd o rd acc it); cbn [bind]; auto. apply IH. intros; apply Hl; right; auto. }
  apply X. intros [q t] Hin. cbn [fst snd]. apply H. clear -Hin.
  assert (G : forall s (ts : list (tree R)) q, In (q, t) (combine (seq s (length ts)) ts) -> (s <= q)%nat /\ nth_error ts (q - s) = Some t).
  { clear. intros s ts. revert s. induction ts as [|u ts IH]; intros s q Hin; cbn in Hin; [contradiction|].
    destruct Hin as [E|Hin].
    - inversion E; subst. rewrite Nat.sub_diag. auto.
    - apply IH in Hin. destruct Hin as [H1 H2]. split; [lia|]. replace (q - s)%nat with (S (q - S s)) by lia. auto. }
  apply G in Hin. rewrite Nat.sub_0_r in Hin. tauto.
Qed.

Lemma p_C85_tune : forall lg rf (o : smooth_opts R) rd X Y X' Y', length Y = length X -> length Y' = length X' ->
  Permutation (combine X Y) (combine X' Y') -> smooth lg rf (with_tune o X' Y') rd = smooth lg rf (with_tune o X Y) rd.
Proof.
  intros lg rf o rd X Y X' Y' L1 L2 PM. destruct rf as [kd ts|]; [|reflexivity].
  apply smooth_targets; try reflexivity. apply all_targets_ext. intros q t N.
  unfold tuning_data. change (oob_logic (with_tune o X' Y')) with (oob_logic (with_tune o X Y)).
  cbn [with_tune o_resample o_X_trained o_y_trained o_X_tune o_y_tune]. destruct (_ || _)%bool; [reflexivity|]. cbn [bind].
  pose proof (targets_pairs (n_gamma kd) t _ _ PM) as E. rewrite !combine_fst, !combine_snd in E by auto. auto.
Qed.

Lemma take_rows_spec : forall {A} (d : A) l idx,
  (Forall (fun i => (i < length l)%nat) idx /\ take_rows l idx = Ok (map (fun i => nth i l d) idx)) \/
  (Exists (fun i => (length l <= i)%nat) idx /\ take_rows l idx = Err IndexError).
Proof.
  intros A d l idx. unfold take_rows. induction idx as [|i r IH]; cbn [mapM]; [left; auto|].
  destruct (Nat.lt_ge_cases i (length l)) as [Hi|Hi].
  - rewrite (nth_error_nth' l d Hi). cbn [bind]. destruct IH as [[F ->]|[F ->]]; [left|right]; cbn; split; auto.
  - right. apply nth_error_None in Hi. rewrite Hi. cbn. split; auto. constructor. apply nth_error_None. auto.
Qed.
Lemma take_rows_perm : forall {A} (d : A) l idx idx', Permutation idx idx' ->
  (exists f : nat -> A, take_rows l idx = Ok (map f idx) /\ take_rows l idx' = Ok (map f idx')) \/
  (take_rows l idx = Err IndexError /\ take_rows l idx' = Err IndexError).
Proof.
  intros A d l idx idx' PM. destruct (take_rows_spec d l idx) as [[F ->]|[F ->]], (take_rows_spec d l idx') as [[F' ->]|[F' ->]]; auto.
  - left. eauto.
  - exfalso. rewrite Forall_forall in F. apply Exists_exists in F'. destruct F' as (i&Hi&H). apply (Permutation_in i (Permutation_sym PM)) in Hi. apply F in Hi. lia.
  - exfalso. rewrite Forall_forall in F'. apply Exists_exists in F. destruct F as (i&Hi&H). apply (Permutation_in i PM) in Hi. apply F' in Hi. lia.
Qed.

Lemma p_C85_sample : forall lg rf (o : smooth_opts R) rd rd', (forall q, Permutation (r_oob rd q) (r_oob rd' q)) ->
  (forall q, Permutation (r_boot rd q) (r_boot rd' q)) -> r_draws rd' = r_draws rd ->
  smooth lg rf o rd' = smooth lg rf o rd.
Proof.
  intros lg rf o rd rd' PO PB ED. destruct rf as [kd ts|]; [|reflexivity].
  apply smooth_targets; auto. apply all_targets_ext. intros q t N.
  unfold tuning_data. destruct (_ || _)%bool; [|reflexivity].
  destruct (o_X_trained o) as [X|]; [|reflexivity]. destruct (o_y_trained o) as [y|]; [|reflexivity].
  assert (PM : Permutation (if oob_logic o then r_oob rd q else r_boot rd q) (if oob_logic o then r_oob rd' q else r_boot rd' q))
    by (destruct (oob_logic o); auto).
  set (idx := if oob_logic o then r_oob rd q else r_boot rd q) in *.
  set (idx' := if oob_logic o then r_oob rd' q else r_boot rd' q) in *. clearbody idx idx'.
  destruct (take_rows_perm [] X idx idx' PM) as [(fx&->&->)|[-> ->]]; [|reflexivity].
  destruct (take_rows_perm 0 y idx idx' PM) as [(fy&->&->)|[-> ->]]; [|reflexivity]. cbn [bind].
  set (L := map (fun i => (fx i, match kd with Reg => [fy i] | Class _ => map (fun cc => if neqb (fy i) cc then n1 else n0) (sorted_set (map fy idx)) end)) idx).
  set (L' := map (fun i => (fx i, match kd with Reg => [fy i] | Class _ => map (fun cc => if neqb (fy i) cc then n1 else n0) (sorted_set (map fy idx)) end)) idx').
  assert (E1 : map fx idx = map fst L) by (unfold L; rewrite map_map; reflexivity).
  assert (E2 : map fx idx' = map fst L') by (unfold L'; rewrite map_map; reflexivity).
  assert (E3 : response_rows kd (map fy idx) = map snd L).
  { unfold response_rows, get_dummies, L. destruct kd; rewrite !map_map; reflexivity. }
  assert (E4 : response_rows kd (map fy idx') = map snd L').
  { unfold response_rows, get_dummies, L'. rewrite (sorted_set_perm (map fy idx') (map fy idx)) by (apply Permutation_map; symmetry; auto).
    destruct kd; rewrite !map_map; reflexivity. }
  rewrite E1, E2, E3, E4. apply targets_pairs. apply Permutation_map. symmetry; auto.
Qed.

(** *** the same results *)
Lemma map_sc1 : forall l : list R, map (Rmult 1) l = l.
Proof. intros. rewrite <- (map_id l) at 2. apply map_ext. intros; ring. Qed.
Lemma map_sc11 : forall l : mat R, map (map (Rmult 1)) l = l.
Proof. intros. rewrite <- (map_id l) at 2. apply map_ext. apply map_sc1. Qed.
Lemma map_sc111 : forall l : list (mat R), map (map (map (Rmult 1))) l = l.
Proof. intros. rewrite <- (map_id l) at 2. apply map_ext. apply map_sc11. Qed.
Lemma sc_prob1 : forall P, sc_prob 1 P = P.
Proof. intros []. unfold sc_prob; cbn. rewrite map_sc1, map_sc11. reflexivity. Qed.

Lemma smooth_same : forall lg kd ts ts' (o o' : smooth_opts R) rd (rho rho' : tree R -> tree R -> Prop),
  (oob_logic o' || o_resample o')%bool = (oob_logic o || o_resample o)%bool ->
  isNone (o_X_trained o') = isNone (o_X_trained o) -> isNone (o_y_trained o') = isNone (o_y_trained o) ->
  o_no_constraint o' = o_no_constraint o -> o_all_trees o' = o_all_trees o -> o_lamb_draws o' = o_lamb_draws o ->
  o_class_eps o' = o_class_eps o -> o_sanity o' = o_sanity o ->
  o_t_fix o' = o_t_fix o -> o_adam o' = o_adam o -> o_class_loss o' = o_class_loss o ->
  forest_matrices kd o' ts' = forest_matrices kd o ts ->
  all_targets kd o' rd ts' = all_targets kd o rd ts ->
  Forall2 rho ts ts' -> (forall t t', rho t t' -> num_leaf t' = num_leaf t) ->
  (forall t t' Y s, rho t t' -> rrel rho' (write_leaves Y s t) (write_leaves Y s t')) ->
  rrel (out_rel 1 rho') (smooth lg (Forest kd ts) o rd) (smooth lg (Forest kd ts') o' rd).
Proof.
  intros lg kd ts ts' o o' rd rho rho' H1 H2 H3 H4 H5 H6 H7 H8 H9 H10 H11 HF HT HR HL HW.
  apply smooth_two with (c := 1) (rho := rho); auto.
  - rewrite HF. destruct (forest_matrices kd o ts) as [[[G E] Ti]|]; cbn; auto. rewrite map_sc111. reflexivity.
  - rewrite HT. destruct (all_targets kd o rd ts) as [[Y W]|]; cbn; auto. rewrite map_sc11. reflexivity.
  - intros P l. rewrite sc_prob1. unfold optimise. rewrite H4, H7, H8, H9, H10, H11.
    match goal with |- ?x = rmap _ ?x => destruct x as [[[a b] d]|]; cbn; auto; rewrite map_sc1; reflexivity end.
  - intros. rewrite map_sc11. auto.
Qed.

(** *** features *)
Section Features.
Variable phi : nat -> R -> R.
Hypothesis MONO : forall f a b, a < b -> phi f a < phi f b.

Lemma phi_leb : forall f a b, nleb (phi f a) (phi f b) = nleb a b.
Proof using MONO.
  intros. unfold nleb. change (@nltb R _ (phi f b) (phi f a)) with (Rltb (phi f b) (phi f a)). change (@nltb R _ b a) with (Rltb b a).
  f_equal. destruct (Rltb_spec b a); [apply Rltb_true; auto|apply Rltb_false].
  destruct H as [H| ->]; [left; auto|lra].
Qed.
Lemma path_rescaled : forall (t : tree R) x n v, wf_tree t -> (v < size t)%nat ->
  (forall v, (v < size t)%nat -> is_leafb t v = false -> (nth v (t_feature t) 0 < length x)%nat) ->
  path_nodes n (rescaled_tree phi t) (rescaled_obs phi x) v = path_nodes n t x v.
Proof using MONO.
  intros t x n v WF Hv HFt. revert v Hv. induction n as [|n IH]; intros v Hv; cbn [path_nodes]; [reflexivity|].
  change (is_leafb (rescaled_tree phi t) v) with (is_leafb t v).
  destruct (is_leafb t v) eqn:EL; auto. f_equal.
  change (t_feature (rescaled_tree phi t)) with (t_feature t). set (f := nth v (t_feature t) 0%nat).
  assert (Hf : (f < length x)%nat) by (apply HFt; auto).
  assert (E1 : nth f (rescaled_obs phi x) n0 = phi f (nth f x 0)).
  { unfold rescaled_obs. rewrite nth_map2 with (da := 0%nat) (db := 0) by (rewrite ?seq_length; auto).
    rewrite seq_nth by auto. reflexivity. }
  assert (E2 : nth v (t_thresh (rescaled_tree phi t)) n0 = phi f (nth v (t_thresh t) 0)).
  { cbn [t_thresh rescaled_tree]. rewrite nth_map2 with (da := 0%nat) (db := 0); auto.
    - rewrite (wf_len_feature t WF); auto.
    - rewrite (wf_len_thresh t WF); auto. }
  rewrite E1, E2, phi_leb. change (@n0 R _) with 0.
  change (lc (rescaled_tree phi t) v) with (lc t v). change (rc (rescaled_tree phi t) v) with (rc t v).
  apply IH. destruct (wf_node t WF v Hv) as [[L1 _]|(l&r&B1&B2&B3&B4&_)].
  - unfold is_leafb in EL. rewrite L1 in EL. discriminate.
  - destruct (nleb _ _); rewrite ?B1, ?B2, Nat2Z.id; lia.
Qed.

Lemma targets_rescaled : forall nc t X (Y : mat R), wf_tree t ->
  (forall x v, In x X -> (v < size t)%nat -> is_leafb t v = false -> (nth v (t_feature t) 0 < length x)%nat) ->
  leaf_targets nc (rescaled_tree phi t) (map (rescaled_obs phi) X) Y = leaf_targets nc t X Y.
Proof using MONO.
  intros nc t X Y WF HFt. unfold leaf_targets.
  assert (EV : obs_V_leaf (rescaled_tree phi t) (map (rescaled_obs phi) X) = obs_V_leaf t X).
  { unfold obs_V_leaf. destruct X as [|x X]; auto. cbn [map]. f_equal. 
    change (map (fun x0 => leaf_select (rescaled_tree phi t) (path_row (rescaled_tree phi t) x0)) (map (rescaled_obs phi) (x :: X))
      = map (fun x0 => leaf_select t (path_row t x0)) (x :: X)). rewrite map_map. apply map_ext_in. intros x0 Hx.
    unfold path_row. change (size (rescaled_tree phi t)) with (size t). 
    rewrite path_rescaled; auto. apply (wf_pos t WF). }
  rewrite EV, map_length. reflexivity.
Qed.
Lemma take_rows_in : forall {A} (l : list A) idx r x, take_rows l idx = Ok r -> In x r -> In x l.
Proof.
  intros A l idx. unfold take_rows. induction idx as [|i is IH]; intros r x E Hx; cbn [mapM] in E.
  - inversion E; subst. contradiction.
  - destruct (nth_error l i) eqn:N; cbn [bind] in E; [|discriminate]. apply bind_ok in E. destruct E as (r0&E0&E). inversion E; subst.
    destruct Hx as [<-|Hx]; [eapply nth_error_In; eauto|eauto].
Qed.

Lemma p_C86 : forall lg kd ts (o : smooth_opts R) rd p, Forall (@wf_tree R) ts -> has_features p o ts ->
  smooth lg (Forest kd (map (rescaled_tree phi) ts)) (rescaled_opts phi o) rd =
  rmap (on_trees (rescaled_tree phi)) (smooth lg (Forest kd ts) o rd).
Proof using MONO.
  intros lg kd ts o rd p WF [HX HV]. apply rrel_map.
  eapply rrel_impl; [|apply smooth_same with (rho := fun a b => b = rescaled_tree phi a) (rho' := fun a b => b = rescaled_tree phi a)]; try reflexivity.
  - intros a b (H1&H2&H3&H4&H5&H6). unfold on_trees. apply Forall2_map_inv in H1. apply Forall2_map_inv in H3.
    rewrite map_sc1 in H6. rewrite <- H1, <- H3, <- H2, <- H4, <- H5, <- H6. destruct b; reflexivity.
  - unfold oob_logic. cbn. destruct (o_X_tune o); reflexivity.
  - cbn. destruct (o_X_trained o); reflexivity.
  - unfold forest_matrices. cbn [rescaled_opts o_dist o_style].
    assert (ST : forall pa K f f', (forall t, f' (rescaled_tree phi t) = f t) -> 
      stack_forest kd pa K f' (map (rescaled_tree phi) ts) = stack_forest kd pa K f ts).
    { intros pa K f f' Hf. symmetry. apply rrel_eq. unfold stack_forest.
      eapply foldM_rrel; [|apply Forall2_combine_seq; apply Forall2_mapr|reflexivity].
      intros [[G E] Ti] a' [i t] [i' t'] <- [Ei Et]. cbn [fst snd] in *. subst i' t'. unfold add_tree. cbn [fst snd].
      rewrite Hf. apply rrel_eq. reflexivity. }
    destruct (o_dist o) as [pa|lv].
    + unfold create_Gamma_eta_forest.
      replace (calc_depth_for_forest (map (rescaled_tree phi) ts)) with (calc_depth_for_forest ts).
      * apply ST. reflexivity.
      * unfold calc_depth_for_forest. rewrite map_map. f_equal. generalize 0%nat as m. clear. induction ts; intros m; cbn; auto.
    + unfold create_Gamma_eta_forest_imp.
      assert (EQ : forall n, quantiles_distance_trees (o_style o) (firstn 5 (map (rescaled_tree phi) ts)) n = quantiles_distance_trees (o_style o) (firstn 5 ts) n).
      { intros n. unfold quantiles_distance_trees. f_equal. rewrite firstn_map. clear. induction (firstn 5 ts); cbn; auto. rewrite IHl. reflexivity. }
      assert (EA : match lv with LInt n => quantiles_distance_trees (o_style o) (firstn 5 (map (rescaled_tree phi) ts)) n | LArr l => Ok l end
        = match lv with LInt n => quantiles_distance_trees (o_style o) (firstn 5 ts) n | LArr l => Ok l end) by (destruct lv; auto).
      rewrite EA. destruct (match lv with LInt n => quantiles_distance_trees (o_style o) (firstn 5 ts) n | LArr l => Ok l end) as [arr|]; cbn [bind]; auto.
      destruct ts as [|t0 r]; [reflexivity|]. cbn [map].
      change (impurity_levels (o_style o) (LArr arr) (rescaled_tree phi t0)) with (impurity_levels (o_style o) (LArr arr) t0).
      destruct (impurity_levels (o_style o) (LArr arr) t0) as [[D e]|]; cbn [bind]; auto.
  - symmetry. apply rrel_eq. unfold all_targets.
    eapply foldM_rrel with (Sl := fun x y => (fst x = fst y /\ snd y = rescaled_tree phi (snd x)) /\ In (snd x) ts); [| |reflexivity].
    + intros [Y W] a' [i t] [i' t'] <- [[Ei Et] Ht]. cbn [fst snd] in *. subst i' t'. unfold add_targets. cbn [fst snd].
      rewrite Forall_forall in WF. apply rrel_eq. unfold tuning_data.
      replace (oob_logic (rescaled_opts phi o)) with (oob_logic o) by (unfold oob_logic; cbn; destruct (o_X_tune o); reflexivity).
      cbn [rescaled_opts o_resample o_X_trained o_y_trained o_X_tune o_y_tune].
      destruct (_ || _)%bool.
      * destruct (o_X_trained o) as [X|] eqn:EX; [|reflexivity]. destruct (o_y_trained o) as [y|]; [|reflexivity]. cbn [option_map].
        rewrite take_rows_map. destruct (take_rows X _) as [Xt|] eqn:ET; cbn [rmap bind]; [|reflexivity].
        destruct (take_rows y _); cbn [bind]; [|reflexivity]. rewrite targets_rescaled; auto.
        intros x v Hx Hv Lv. rewrite (HX X x); eauto using take_rows_in.
      * destruct (o_X_tune o) as [X|] eqn:EX; [|reflexivity]. destruct (o_y_tune o) as [y|]; [|reflexivity]. cbn [option_map bind].
        rewrite targets_rescaled; auto. intros x v Hx Hv Lv. rewrite (HX X x); eauto.
    + rewrite map_length. generalize 0%nat as s.
      assert (G : forall r, incl r ts -> forall s, Forall2 (fun x y => (fst x = fst y /\ snd y = rescaled_tree phi (snd x)) /\ In (snd x) ts)
        (combine (seq s (length r)) r) (combine (seq s (length r)) (map (rescaled_tree phi) r))).
      { induction r as [|t r IH]; intros I s; cbn; constructor; auto.
        - cbn. repeat split; auto. apply I; left; auto.
        - apply IH. intros x Hx. apply I; right; auto. }
      apply G. apply incl_refl.
  - apply Forall2_mapr.
  - intros t t' ->. reflexivity.
  - intros t t' Y s ->. unfold write_leaves. change (num_leaf (rescaled_tree phi t)) with (num_leaf t). cbn [rescaled_tree t_left t_value].
    destruct (Nat.eqb _ _); [reflexivity|]. destruct (firstn _ _) as [|r0 [|]]; reflexivity.
Qed.
End Features.

(** *** what smooth may look at *)
Lemma take_rows_same : forall {A} (l l' : list A) idx, (forall i, In i idx -> nth_error l' i = nth_error l i) ->
  take_rows l' idx = take_rows l idx.
Proof.
  intros A l l' idx H. unfold take_rows. induction idx as [|i r IH]; cbn [mapM]; auto.
  rewrite H by (left; auto). rewrite IH by (intros; apply H; right; auto). reflexivity.
Qed.
Lemma p_C87_rows : forall lg kd ts (o : smooth_opts R) rd X X' y y', same_sample o rd (length ts) X X' y y' ->
  smooth lg (Forest kd ts) (with_trained o X' y') rd = smooth lg (Forest kd ts) (with_trained o X y) rd.
Proof.
  intros lg kd ts o rd X X' y y' H. apply smooth_targets; try reflexivity. apply all_targets_ext. intros q t N.
  assert (Hq : (q < length ts)%nat) by (apply nth_error_Some; congruence).
  unfold tuning_data. change (oob_logic (with_trained o X' y')) with (oob_logic o). change (oob_logic (with_trained o X y)) with (oob_logic o).
  cbn [with_trained o_resample o_X_trained o_y_trained o_X_tune o_y_tune].
  destruct (oob_logic o || o_resample o)%bool eqn:EB; [|reflexivity].
  assert (EI : forall i, In i (if oob_logic o then r_oob rd q else r_boot rd q) -> nth_error X' i = nth_error X i /\ nth_error y' i = nth_error y i).
  { intros i Hi. apply (H q i Hq). unfold oob_logic in Hi, EB. destruct (o_resample o); cbn [negb] in *.
    - rewrite Bool.andb_false_r in Hi. auto.
    - rewrite Bool.orb_false_r in EB. rewrite EB in Hi. auto. }
  rewrite (take_rows_same X X'), (take_rows_same y y'); auto; intros; apply EI; auto.
Qed.

Lemma leaf_mask_nth : forall (t : tree R) v, nth v (map (fun z => Z.eqb z (-1)) (t_left t)) true = is_leafb t v.
Proof. intros. unfold is_leafb, lc. rewrite <- (map_nth (fun z => Z.eqb z (-1))). reflexivity. Qed.
Lemma mask_select_ext : forall {A} (d : A) m l l', length l' = length l -> (forall v, nth v m true = true -> nth v l' d = nth v l d) ->
  mask_select m l' = mask_select m l.
Proof.
  induction m as [|b m IH]; intros [|x l] [|x' l'] LE H; cbn in LE; try discriminate; auto; try (destruct b; reflexivity).
  cbn [mask_select].
  assert (E : mask_select m l' = mask_select m l) by (apply IH; [lia|intros v Hv; apply (H (S v) Hv)]).
  rewrite E. destruct b; auto. pose proof (H 0%nat eq_refl) as Q. cbn in Q. congruence.
Qed.
Section Same.
Variables (imp : bool) (t t' : tree R).
Hypothesis ST : same_tree imp t t'.
Lemma st_num : num_leaf t' = num_leaf t.
Proof using ST. unfold num_leaf. destruct ST as (->&_). reflexivity. Qed.
Lemma st_n : n_leaf_original t' = n_leaf_original t.
Proof using ST.
  destruct ST as (E1&_&_&EW&_&EL&_). unfold n_leaf_original, leaf_select. rewrite E1. apply mask_select_ext with (d := 0); auto.
  intros v Hv. rewrite leaf_mask_nth in Hv. apply EL; auto.
Qed.
Lemma st_ny : forall kd, ny_leaf_original kd t' = ny_leaf_original kd t.
Proof using ST.
  assert (E : forall c, leaf_select t' (value_col c t') = leaf_select t (value_col c t)).
  { destruct ST as (E1&_&EV&_&_&EL&_). intros c. unfold leaf_select, value_col. rewrite E1.
    rewrite !mask_select_map. f_equal. apply mask_select_ext with (d := []); auto.
    intros v Hv. rewrite leaf_mask_nth in Hv. apply EL; auto. }
  intros kd. unfold ny_leaf_original. rewrite st_n. destruct kd; [rewrite E; auto|]. apply map_ext. intros; apply E.
Qed.
Lemma st_lc : forall v, lc t' v = lc t v. Proof using ST. intros. unfold lc. destruct ST as (->&_). reflexivity. Qed.
Lemma st_rc : forall v, rc t' v = rc t v. Proof using ST. intros. unfold rc. destruct ST as (_&->&_). reflexivity. Qed.
Lemma st_size : size t' = size t. Proof using ST. unfold size. destruct ST as (->&_). reflexivity. Qed.
Lemma st_vleaf : v_leaf t' = v_leaf t.
Proof using ST.
  unfold v_leaf, v_all. rewrite st_size. replace (t_right t') with (t_right t) by (symmetry; apply ST). f_equal.
  apply fold_left_ext_in. intros a n _. unfold decision_body. rewrite st_rc, st_lc. reflexivity.
Qed.
Lemma st_depth : depth_per_node t' = depth_per_node t.
Proof using ST.
  unfold depth_per_node. rewrite st_size. apply fold_left_ext_in. intros a n _. unfold depth_body, depth_bump. rewrite st_rc, st_lc. reflexivity.
Qed.
Lemma st_path : forall x n v, path_nodes n t' x v = path_nodes n t x v.
Proof using ST.
  intros x. assert (EL : forall v, is_leafb t' v = is_leafb t v) by (intros; unfold is_leafb; rewrite st_lc; reflexivity).
  induction n; intros v; cbn [path_nodes]; rewrite EL; [reflexivity|]. destruct (is_leafb t v) eqn:E; auto.
  destruct ST as (_&_&_&_&EQ&_). destruct (EQ v E) as [-> Eh]. change (@n0 R _) with 0. rewrite Eh, st_lc, st_rc, IHn. reflexivity.
Qed.
Lemma st_targets : forall nc X (Y : mat R), leaf_targets nc t' X Y = leaf_targets nc t X Y.
Proof using ST.
  intros. unfold leaf_targets. rewrite st_num.
  assert (EV : obs_V_leaf t' X = obs_V_leaf t X); [|rewrite EV; reflexivity].
  unfold obs_V_leaf. destruct X as [|x X]; auto. f_equal. apply map_ext. intros x0. unfold path_row. rewrite st_size, st_path.
  unfold leaf_select. destruct ST as (->&_). reflexivity.
Qed.
Lemma st_write : forall Y s, rrel (same_tree imp) (write_leaves Y s t) (write_leaves Y s t').
Proof using ST.
  intros. unfold write_leaves. rewrite st_num.
  assert (X : forall vals, length vals = num_leaf t -> same_tree imp (set_values t (mask_assign (map (fun z => Z.eqb z (-1)) (t_left t)) (t_value t) vals))
     (set_values t' (mask_assign (map (fun z => Z.eqb z (-1)) (t_left t')) (t_value t') vals))).
  { intros vals LV. destruct ST as (E1&E2&E3&E4&E5&E6&E7). unfold same_tree; cbn [set_values t_left t_right t_value t_weight t_feature t_thresh t_imp].
    repeat (split; [solve [auto]|]). split; [rewrite !mask_assign_length; auto|]. repeat (split; [solve [auto]|]). split; [|auto].
    change (is_leafb (set_values t (mask_assign (map (fun z => Z.eqb z (-1)) (t_left t)) (t_value t) vals))) with (is_leafb t).
    intros v Hv. split; [|apply (E6 v Hv)]. rewrite E1.
    assert (G : forall m (l l' vs : mat R), length l' = length l -> length vs = length (filter (fun b => b) m) ->
      (forall v, nth v m true = true -> nth v l' [] = nth v l []) ->
      forall v, nth v m true = true -> nth v (mask_assign m l' vs) [] = nth v (mask_assign m l vs) []).
    { clear. induction m as [|b m IH]; intros [|x l] [|x' l'] vs LE LV H v Hv; cbn in LE; try discriminate; auto.
      cbn [mask_assign]. destruct b; cbn in LV.
      - destruct vs as [|y vs]; [discriminate|]. destruct v; cbn [nth]; auto. apply IH; auto. intros u Hu. apply (H (S u) Hu).
      - destruct v; [discriminate|]. cbn [nth]. apply IH; auto. intros u Hu. apply (H (S u) Hu). }
    apply G; auto.
    - rewrite LV. unfold num_leaf. clear. induction (t_left t) as [|z l IH]; cbn; auto. destruct (Z.eqb z (-1)); cbn; auto.
    - intros u Hu. apply E6. rewrite <- leaf_mask_nth. auto.
    - rewrite leaf_mask_nth. auto. }
  destruct (Nat.eqb_spec (length (firstn (num_leaf t) (skipn s Y))) (num_leaf t)) as [E|E].
  - apply X. auto.
  - destruct (firstn _ _) as [|r0 [|]]; cbn; auto. apply X. apply repeat_length.
Qed.
Lemma st_imp : imp = true -> standard_impurity t' = standard_impurity t.
Proof using ST.
  intros HI. unfold standard_impurity. rewrite st_vleaf.
  assert (E : change_in_impurity t' = change_in_impurity t); [|rewrite E; reflexivity].
  unfold change_in_impurity. rewrite st_size. apply fold_left_ext_in. intros a n _. unfold impurity_body.
  replace (t_imp t') with (t_imp t) by (symmetry; apply ST; auto). rewrite st_lc, st_rc. reflexivity.
Qed.
End Same.

Lemma p_C87_nodes : forall lg kd ts ts' (o : smooth_opts R) rd imp,
  Forall2 (same_tree imp) ts ts' -> match o_dist o with DDepth _ => True | DImp _ => imp = true end ->
  rrel (same_out imp) (smooth lg (Forest kd ts) o rd) (smooth lg (Forest kd ts') o rd).
Proof.
  intros lg kd ts ts' o rd imp F HI.
  eapply rrel_impl; [|apply smooth_same with (rho := same_tree imp) (rho' := same_tree imp); auto].
  - intros a b (H1&H2&H3&H4&H5&H6). rewrite map_sc1 in H6. unfold same_out. auto 10.
  - assert (SF : forall pa K (f f' : tree R -> result (list (mat R) * mat R)), (forall t t', same_tree imp t t' -> f' t' = f t) -> 
      stack_forest kd pa K f' ts' = stack_forest kd pa K f ts).
    { intros pa K f f' Hf. symmetry. apply rrel_eq. unfold stack_forest.
      eapply foldM_rrel; [|apply Forall2_combine_seq; exact F|reflexivity].
      intros [[G E] Ti] a' [i t] [i' t'] <- [Ei Et]. cbn [fst snd] in *. subst i'. unfold add_tree. cbn [fst snd].
      rewrite (Hf t t' Et). apply rrel_eq. reflexivity. }
    unfold forest_matrices. destruct (o_dist o) as [pa|lv].
    + unfold create_Gamma_eta_forest.
      replace (snd (calc_depth_for_forest ts')) with (snd (calc_depth_for_forest ts)).
      * apply SF. intros t t' St. unfold create_Gamma_eta_tree, depth_dist_leaves, Gamma_eta_of_dist.
        rewrite (st_vleaf imp t t' St), (st_n imp t t' St), (st_ny imp t t' St). reflexivity.
      * unfold calc_depth_for_forest. cbn [snd]. generalize 0%nat as m. clear SF. induction F; intros m; cbn [fold_left]; auto.
        rewrite (st_depth imp _ _ H). apply IHF.
    + assert (EQ : forall n, quantiles_distance_trees (o_style o) (firstn 5 ts') n = quantiles_distance_trees (o_style o) (firstn 5 ts) n).
      { intros n. unfold quantiles_distance_trees. f_equal. generalize 5%nat as k. clear SF. induction F; intros k; destruct k; cbn [firstn flat_map]; auto.
        rewrite IHF. rewrite (st_imp imp _ _ H HI). reflexivity. }
      assert (EL : forall arr t t', same_tree imp t t' -> impurity_levels (o_style o) (LArr arr) t' = impurity_levels (o_style o) (LArr arr) t).
      { intros arr t t' St. unfold impurity_levels. rewrite (st_imp imp t t' St HI). reflexivity. }
      unfold create_Gamma_eta_forest_imp.
      assert (EA : match lv with LInt n => quantiles_distance_trees (o_style o) (firstn 5 ts') n | LArr l => Ok l end
        = match lv with LInt n => quantiles_distance_trees (o_style o) (firstn 5 ts) n | LArr l => Ok l end) by (destruct lv; auto).
      rewrite EA. destruct (match lv with LInt n => quantiles_distance_trees (o_style o) (firstn 5 ts) n | LArr l => Ok l end) as [arr|]; cbn [bind]; auto.
      assert (SF' := fun e => SF false e (create_Gamma_eta_tree_imp kd (o_style o) arr) (create_Gamma_eta_tree_imp kd (o_style o) arr)). clear SF.
      assert (SG : forall e, stack_forest kd false e (create_Gamma_eta_tree_imp kd (o_style o) arr) ts' = stack_forest kd false e (create_Gamma_eta_tree_imp kd (o_style o) arr) ts).
      { intros e. apply SF'. intros t t' St. unfold create_Gamma_eta_tree_imp. rewrite (EL arr t t' St).
        destruct (impurity_levels (o_style o) (LArr arr) t) as [[D e0]|]; cbn [bind]; auto. unfold Gamma_eta_of_dist.
        rewrite (st_n imp t t' St), (st_ny imp t t' St). reflexivity. }
      destruct F as [|t0 t0' r r' H0 F]; [reflexivity|]. rewrite (EL arr _ _ H0).
      destruct (impurity_levels (o_style o) (LArr arr) t0) as [[D e]|]; cbn [bind]; auto.
  - symmetry. apply rrel_eq. unfold all_targets.
    eapply foldM_rrel; [|apply Forall2_combine_seq; exact F|reflexivity].
    intros [Y W] a' [i t] [i' t'] <- [Ei Et]. cbn [fst snd] in *. subst i'. unfold add_targets. cbn [fst snd].
    destruct (tuning_data kd o rd i) as [[X y]|]; cbn [bind]; [|reflexivity]. rewrite (st_targets imp t t' Et). apply rrel_eq. reflexivity.
  - intros t t' St. apply (st_num imp t t' St).
  - intros t t' Y s St. apply (st_write imp t t' St).
Qed.
