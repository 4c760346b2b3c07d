(** L_Rel12: numbering of the features. *)
From Verif Require Import Base TreeSpec Spec M_Tree M_Gamma M_Levels M_Prox M_Grad M_Sgd M_Smooth SpecSmooth SpecTune SpecRel SpecRel2.
From Verif Require Import L_Base L_Tree L_TreeModel L_Smooth3 L_Tune L_Rel L_Rel2 L_Rel3.
From Coq Require Import Reals Lra.
Local Open Scope R_scope.

Section Renamed.
Variables (p : nat) (pi : nat -> nat).
Definition obs_rel (x x' : list R) : Prop := forall f, (f < p)%nat -> nth (pi f) x' 0 = nth f x 0.

Lemma feature_rows_F2 : forall X X', feature_rows p pi X X' -> Forall2 obs_rel X X'.
Proof.
  intros X. induction X as [|x X IH]; intros [|x' X'] (L&V); try discriminate; constructor.
  - intros f Hf. apply (V 0%nat f); [cbn; lia|auto].
  - apply IH. split; [cbn in L; lia|]. intros o f Ho Hf. apply (V (S o) f); [cbn; lia|auto].
Qed.
Lemma take_rows_F2 : forall X X' idx, Forall2 obs_rel X X' -> rrel (Forall2 obs_rel) (take_rows X idx) (take_rows X' idx).
Proof.
  intros X X' idx F. unfold take_rows. apply mapM_rrel with (Rl := eq) (Sl := obs_rel); [|induction idx; constructor; auto].
  intros i i' <-. revert i. induction F as [|x x' X X' Hx F IH]; intros [|i]; cbn; auto.
Qed.
Lemma path_renamed : forall (t : tree R) x x' n v, wf_tree t -> (v < size t)%nat -> obs_rel x x' ->
  (forall v, (v < size t)%nat -> is_leafb t v = false -> (nth v (t_feature t) 0 < p)%nat) ->
  path_nodes n (feature_tree pi t) x' v = path_nodes n t x v.
Proof.
  intros t x x' n v WF Hv OR HFt. revert v Hv. induction n as [|n IH]; intros v Hv; cbn [path_nodes]; [reflexivity|].
  change (is_leafb (feature_tree pi t) v) with (is_leafb t v).
  destruct (is_leafb t v) eqn:EL; auto. f_equal.
  assert (E1 : nth v (t_feature (feature_tree pi t)) 0%nat = pi (nth v (t_feature t) 0%nat)).
  { cbn [feature_tree t_feature]. rewrite (nth_map_in _ _ _ 0%nat 0%nat); auto. rewrite (wf_len_feature t WF); auto. }
  rewrite E1. change (@n0 R _) with 0. rewrite OR by (apply HFt; auto).
  change (t_thresh (feature_tree pi t)) with (t_thresh t). change (lc (feature_tree pi t) v) with (lc t v). change (rc (feature_tree pi t) v) with (rc t v).
  apply IH. destruct (wf_node t WF v Hv) as [[L1 _]|(l&r&B1&B2&B3&B4&_)].
  - unfold is_leafb in EL. rewrite L1 in EL. discriminate.
  - destruct (nleb _ _); rewrite ?B1, ?B2, Nat2Z.id; lia.
Qed.
Lemma targets_renamed : forall nc t X X' (Y : mat R), wf_tree t -> Forall2 obs_rel X X' ->
  (forall v, (v < size t)%nat -> is_leafb t v = false -> (nth v (t_feature t) 0 < p)%nat) ->
  leaf_targets nc (feature_tree pi t) X' Y = leaf_targets nc t X Y.
Proof.
  intros nc t X X' Y WF F HFt. unfold leaf_targets.
  assert (EV : obs_V_leaf (feature_tree pi t) X' = obs_V_leaf t X).
  { assert (EM : map (fun x0 => leaf_select (feature_tree pi t) (path_row (feature_tree pi t) x0)) X' = map (fun x0 => leaf_select t (path_row t x0)) X).
    { induction F as [|x x' X X' Hx F IH]; [reflexivity|]. cbn [map]. rewrite IH. f_equal. unfold path_row. change (size (feature_tree pi t)) with (size t).
      rewrite (path_renamed t x x'); auto. apply (wf_pos t WF). }
    unfold obs_V_leaf. rewrite EM. destruct F; reflexivity. }
  rewrite EV. rewrite (Forall2_len _ _ _ F). reflexivity.
Qed.

Lemma p_features : forall lg kd ts (o : smooth_opts R) rd Xtr Xtu, Forall wf_tree ts ->
  (forall t v, In t ts -> (v < size t)%nat -> is_leafb t v = false -> (nth v (t_feature t) 0 < p)%nat) ->
  both (feature_rows p pi) (o_X_trained o) Xtr -> both (feature_rows p pi) (o_X_tune o) Xtu ->
  smooth lg (Forest kd (map (feature_tree pi) ts)) (with_X o Xtr Xtu) rd = rmap (on_trees (feature_tree pi)) (smooth lg (Forest kd ts) o rd).
Proof.
  intros lg kd ts o rd Xtr Xtu WF HV BR BU. apply rrel_map.
  assert (OL : oob_logic (with_X o Xtr Xtu) = oob_logic o). { unfold oob_logic. cbn. destruct (o_X_tune o), Xtu; cbn in *; auto; contradiction. }
  eapply rrel_impl; [|apply smooth_same with (rho := fun a b => b = feature_tree pi a) (rho' := fun a b => b = feature_tree pi a)]; try reflexivity.
  - intros a b (H1&H2&H3&H4&H5&H6). unfold on_trees. apply Forall2_map_inv in H1. apply Forall2_map_inv in H3.
    rewrite map_sc1 in H6. rewrite <- H1, <- H3, <- H2, <- H4, <- H5, <- H6. destruct b; reflexivity.
  - rewrite OL. reflexivity.
  - cbn. destruct (o_X_trained o), Xtr; cbn in *; auto; contradiction.
  - unfold forest_matrices. cbn [with_X o_dist o_style].
    assert (ST : forall pa K f f', (forall t, f' (feature_tree pi t) = f t) -> 
      stack_forest kd pa K f' (map (feature_tree pi) ts) = stack_forest kd pa K f ts).
    { intros pa K f f' Hf. symmetry. apply rrel_eq. unfold stack_forest.
      eapply foldM_rrel; [|apply Forall2_combine_seq; apply Forall2_mapr|reflexivity].
      intros [[G E] Ti] a' [i t] [i' t'] <- [Ei Et]. cbn [fst snd] in *. subst i' t'. unfold add_tree. cbn [fst snd].
      rewrite Hf. apply rrel_eq. reflexivity. }
    destruct (o_dist o) as [pa|lv].
    + unfold create_Gamma_eta_forest.
      replace (calc_depth_for_forest (map (feature_tree pi) ts)) with (calc_depth_for_forest ts).
      * apply ST. reflexivity.
      * unfold calc_depth_for_forest. rewrite map_map. f_equal. generalize 0%nat as m. clear. induction ts; intros m; cbn; auto.
    + unfold create_Gamma_eta_forest_imp.
      assert (EQ : forall n, quantiles_distance_trees (o_style o) (firstn 5 (map (feature_tree pi) ts)) n = quantiles_distance_trees (o_style o) (firstn 5 ts) n).
      { intros n. unfold quantiles_distance_trees. f_equal. rewrite firstn_map. clear. induction (firstn 5 ts); cbn; auto. rewrite IHl. reflexivity. }
      assert (EA : match lv with LInt n => quantiles_distance_trees (o_style o) (firstn 5 (map (feature_tree pi) ts)) n | LArr l => Ok l end
        = match lv with LInt n => quantiles_distance_trees (o_style o) (firstn 5 ts) n | LArr l => Ok l end) by (destruct lv; auto).
      rewrite EA. destruct (match lv with LInt n => quantiles_distance_trees (o_style o) (firstn 5 ts) n | LArr l => Ok l end) as [arr|]; cbn [bind]; auto.
      destruct ts as [|t0 r]; [reflexivity|]. cbn [map].
      change (impurity_levels (o_style o) (LArr arr) (feature_tree pi t0)) with (impurity_levels (o_style o) (LArr arr) t0).
      destruct (impurity_levels (o_style o) (LArr arr) t0) as [[D e]|]; cbn [bind]; auto.
  - symmetry. apply rrel_eq. unfold all_targets.
    eapply foldM_rrel with (Sl := fun x y => (fst x = fst y /\ snd y = feature_tree pi (snd x)) /\ In (snd x) ts); [| |reflexivity].
    + intros [Y W] a' [i t] [i' t'] <- [[Ei Et] Ht]. cbn [fst snd] in *. subst i' t'. unfold add_targets. cbn [fst snd].
      rewrite Forall_forall in WF. apply rrel_eq. unfold tuning_data. rewrite OL.
      cbn [with_X o_resample o_X_trained o_y_trained o_X_tune o_y_tune].
      destruct (oob_logic o || o_resample o)%bool.
      * destruct (o_X_trained o) as [X|], Xtr as [X'|]; cbn in BR; try contradiction; [|reflexivity]. destruct (o_y_trained o) as [y|]; [|reflexivity].
        pose proof (take_rows_F2 X X' (if oob_logic o then r_oob rd i else r_boot rd i) (feature_rows_F2 _ _ BR)) as TR.
        destruct (take_rows X _) as [Xt|], (take_rows X' _) as [Xt'|]; cbn [rrel] in TR; try contradiction; cbn [bind]; [|congruence].
        destruct (take_rows y _); cbn [bind]; [|reflexivity]. rewrite (targets_renamed _ t Xt Xt'); eauto.
      * destruct (o_X_tune o) as [X|], Xtu as [X'|]; cbn in BU; try contradiction; [|reflexivity]. destruct (o_y_tune o) as [y|]; [|reflexivity]. cbn [bind].
        rewrite (targets_renamed _ t X X'); eauto using feature_rows_F2.
    + rewrite map_length. generalize 0%nat as s.
      assert (G : forall r, incl r ts -> forall s, Forall2 (fun x y => (fst x = fst y /\ snd y = feature_tree pi (snd x)) /\ In (snd x) ts)
        (combine (seq s (length r)) r) (combine (seq s (length r)) (map (feature_tree pi) r))).
      { induction r as [|t r IH]; intros I s; cbn; constructor; auto.
        - cbn. repeat split; auto. apply I; left; auto.
        - apply IH. intros x Hx. apply I; right; auto. }
      apply G. apply incl_refl.
  - apply Forall2_mapr.
  - intros t t' ->. reflexivity.
  - intros t t' Y s ->. unfold write_leaves. change (num_leaf (feature_tree pi t)) with (num_leaf t). cbn [feature_tree t_left t_value].
    destruct (Nat.eqb _ _); [reflexivity|]. destruct (firstn _ _) as [|r0 [|]]; reflexivity.
Qed.
End Renamed.
