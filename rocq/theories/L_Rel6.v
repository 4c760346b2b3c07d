(** L_Rel6: other units of the sample weights, another origin of the response: smooth. *)
From Verif Require Import Base TreeSpec Spec M_Tree M_Gamma M_Levels M_Prox M_Grad M_Sgd M_Smooth SpecSmooth SpecRel.
From Verif Require Import L_Base L_Tree L_TreeModel L_Gamma L_Gamma2 L_Grad L_Sgd L_Sgd2 L_Smooth L_Smooth2 L_Smooth4 L_Rel L_Rel2 L_Rel3 L_Rel4 L_Rel5.
From Coq Require Import Reals Lra.
Local Open Scope R_scope.

(** *** trees that differ in their values and weights only *)
Definition tset (t : tree R) (v : mat R) (w : list R) : tree R :=
  mkTree (t_left t) (t_right t) (t_feature t) (t_thresh t) v w (t_imp t).
Lemma ts_num : forall t v w, num_leaf (tset t v w) = num_leaf t. Proof. reflexivity. Qed.
Lemma ts_vleaf : forall t v w, v_leaf (tset t v w) = v_leaf t. Proof. reflexivity. Qed.
Lemma ts_depth : forall t v w, depth_per_node (tset t v w) = depth_per_node t. Proof. reflexivity. Qed.
Lemma ts_imp : forall t v w, standard_impurity (tset t v w) = standard_impurity t. Proof. reflexivity. Qed.
Lemma ts_path : forall t v w x n a, path_nodes n (tset t v w) x a = path_nodes n t x a.
Proof. induction n; intros a; cbn [path_nodes]; [reflexivity|]. rewrite IHn. reflexivity. Qed.
Lemma ts_obs : forall t v w X, obs_V_leaf (tset t v w) X = obs_V_leaf t X.
Proof.
  intros. unfold obs_V_leaf. destruct X as [|x X]; auto. f_equal. apply map_ext. intros x0. unfold path_row. rewrite ts_path. reflexivity.
Qed.
Lemma ts_targets : forall nc t v w X (Y : mat R), leaf_targets nc (tset t v w) X Y = leaf_targets nc t X Y.
Proof. intros. unfold leaf_targets. rewrite ts_obs. reflexivity. Qed.

Definition aff_tree (kd : kind) (b : R) (t t' : tree R) : Prop :=
  exists s v w, s <> 0 /\ t' = tset t v w /\ length v = length (t_value t) /\
  n_leaf_original t' = map (Rmult s) (n_leaf_original t) /\
  ny_leaf_original kd t' = map (fun ny => aff_row s b ny (n_leaf_original t)) (ny_leaf_original kd t) /\
  (forall ny, In ny (ny_leaf_original kd t) -> length ny = length (n_leaf_original t)).

(** *** matrices *)
Lemma aff_maps : forall {A} s b (f g : A -> R) l, aff_row s b (map f l) (map g l) = map (fun k => s * (f k + b * g k)) l.
Proof. intros. unfold aff_row. induction l; cbn; auto. f_equal; auto. Qed.
Lemma slice_aff : forall pa a c K D s b x n, s <> 0 -> length x = length n ->
  aff_rows b (slice_mat pa a c K D x) (slice_mat pa a c K D n) (slice_mat pa a c K D (aff_row s b x n)) (slice_mat pa a c K D (map (Rmult s) n)).
Proof.
  intros pa a c K D s b x n S0 LE. unfold slice_mat. induction D as [|row D IH]; cbn [map]; [constructor|].
  match goal with |- aff_rows b (?g :: ?G) (?e :: ?E) (?g' :: ?G') (?e' :: ?E') =>
    replace g' with (aff_row s b g e); [replace e' with (map (Rmult s) e); [constructor; auto; rewrite !map_length; auto|]|] end.
  - rewrite map_map. apply map_ext. intros k. rewrite <- nsum_sc, map2_map_r, map_map2'. f_equal. apply map2_ext_in. intros; rn; ring.
  - rewrite aff_maps. apply map_ext. intros k. clear IH. revert x n LE. induction row as [|d row IH]; intros [|y x] [|z n] LE; try discriminate; cbn [map2 aff_row].
    + change (@nsum R _ []) with 0. ring.
    + change (@nsum R _ []) with 0. ring.
    + change (@nsum R _ []) with 0. ring.
    + fold (aff_row s b x n). rewrite !nsum_cons, <- IH by (simpl in LE; lia). rn. ring.
Qed.
Lemma aff_row_app : forall s b g e x y, length g = length e -> aff_row s b (g ++ x) (e ++ y) = aff_row s b g e ++ aff_row s b x y.
Proof. intros s b. induction g; intros [|z e] x y L; try discriminate; cbn; auto. f_equal. apply IHg. simpl in L; lia. Qed.
Lemma aff_row_repeat : forall s b x y n, aff_row s b (repeat x n) (repeat y n) = repeat (s * (x + b * y)) n.
Proof. induction n; cbn; auto. f_equal; auto. Qed.
Lemma aff_row_len : forall s b g e, length g = length e -> length (aff_row s b g e) = length e.
Proof. intros. unfold aff_row. rewrite map2_length. lia. Qed.
Lemma aff_last : forall s b g e, length g = length e -> last (aff_row s b g e) 0 = s * (last g 0 + b * last e 0).
Proof.
  intros s b. induction g as [|x g IH]; intros [|y e] L; try discriminate; [cbn; ring|].
  destruct g as [|x' g], e as [|y' e]; try discriminate; [reflexivity|].
  change (last (x :: x' :: g) 0) with (last (x' :: g) 0). change (last (y :: y' :: e) 0) with (last (y' :: e) 0).
  rewrite <- IH by (simpl in L |- *; lia). reflexivity.
Qed.
Lemma pad_aff : forall pa K b G E G' E', aff_rows b G E G' E' ->
  aff_rows b (map (pad_row pa K) G) (map (pad_row pa K) E) (map (pad_row pa K) G') (map (pad_row pa K) E').
Proof.
  intros pa K b G E G' E' A. induction A as [|s g e G E G' E' S0 LE A IH]; cbn [map]; [constructor|].
  rewrite pad_row_sc.
  replace (pad_row pa K (aff_row s b g e)) with (aff_row s b (pad_row pa K g) (pad_row pa K e)).
  - constructor; auto. unfold pad_row. rewrite !app_length, !repeat_length. lia.
  - unfold pad_row. rewrite aff_row_app, aff_row_len, LE, aff_row_repeat by auto. f_equal. f_equal.
    destruct pa; [change (@n0 R _) with 0; symmetry; apply aff_last; auto|rn; ring].
Qed.

Definition eta_rows (E E' : mat R) : Prop := Forall2 (fun e e' => length e' = length e) E E'.
Lemma slice_eta : forall pa a c K D (x y : list R), eta_rows (slice_mat pa a c K D x) (slice_mat pa a c K D y).
Proof. intros. unfold slice_mat, eta_rows. induction D; cbn; constructor; auto. rewrite !map_length. auto. Qed.
Lemma eta_pad : forall pa K E E', eta_rows E E' -> eta_rows (map (pad_row pa K) E) (map (pad_row pa K) E').
Proof. intros pa K E E' F. induction F; cbn; constructor; auto. unfold pad_row. rewrite !app_length, !repeat_length. lia. Qed.
Lemma eta_ncols : forall E E', eta_rows E E' -> ncols E' = ncols E.
Proof. intros E E' F. destruct F; auto. Qed.

Definition ge_rel (kd : kind) (b : R) (r r' : list (mat R) * mat R) : Prop :=
  length (fst r) = n_gamma kd /\ Forall2 (fun g g' => aff_rows b g (snd r) g' (snd r')) (fst r) (fst r') /\ eta_rows (snd r) (snd r').
Definition mats_rel (kd : kind) (b : R) (r r' : list (mat R) * mat R * list nat) : Prop :=
  snd r' = snd r /\ ge_rel kd b (fst r) (fst r').

Lemma of_dist_aff : forall kd b pa t t' D lv, aff_tree kd b t t' -> rrel (ge_rel kd b) (Gamma_eta_of_dist kd pa t D lv) (Gamma_eta_of_dist kd pa t' D lv).
Proof.
  intros kd b pa t t' D lv (s&v&w&S0&_&_&EN&EY&LY). unfold Gamma_eta_of_dist.
  destruct (zmaximum (concat D)); cbn [bind]; [|reflexivity]. destruct (zminimum (concat D)); cbn [bind]; [|reflexivity].
  rewrite EN, EY. cbn [rrel]. unfold ge_rel; cbn [fst snd]. split; [|split].
  - rewrite map_length. unfold ny_leaf_original. destruct kd; cbn; auto. rewrite map_length, seq_length. auto.
  - clear EY. induction (ny_leaf_original kd t) as [|ny l IH]; cbn [map]; constructor.
    + apply slice_aff; auto. apply LY; left; auto.
    + apply IH. intros; apply LY; right; auto.
  - apply slice_eta.
Qed.
Lemma stack_aff : forall kd b pa K (f f' : tree R -> result (list (mat R) * mat R)) ts ts',
  (forall t t', aff_tree kd b t t' -> rrel (ge_rel kd b) (f t) (f' t')) -> Forall2 (aff_tree kd b) ts ts' ->
  rrel (mats_rel kd b) (stack_forest kd pa K f ts) (stack_forest kd pa K f' ts').
Proof.
  intros kd b pa K f f' ts ts' H F. unfold stack_forest.
  eapply foldM_rrel; [|apply Forall2_combine_seq; exact F|].
  - intros [[G E] Ti] [[G' E'] Ti'] [i t] [i' t'] (E0&LG&FG&FE) [Ei Et]. cbn [fst snd] in *. subst i' Ti'. unfold add_tree. cbn [fst snd].
    eapply rrel_bind; [apply H; exact Et|]. intros [g e] [g' e'] (Lg&Fg&Fe). cbn [fst snd] in *.
    rewrite (eta_ncols _ _ Fe). destruct (Nat.ltb K (ncols e)); [reflexivity|]. cbn [rrel]. unfold mats_rel, ge_rel; cbn [fst snd].
    rewrite <- (Forall2_len _ _ _ Fe). split; [auto|]. split; [rewrite map2_length; lia|]. split.
    + assert (LL : length G = length g) by lia. clear - FG Fg LL. revert g g' Fg LL. induction FG; intros g g' Fg LL; destruct Fg; try discriminate; cbn [map2]; constructor.
      * apply aff_app; auto. apply pad_aff; auto.
      * apply IHFG; auto.
    + unfold eta_rows. apply Forall2_app; auto. apply eta_pad; auto.
  - unfold mats_rel, ge_rel; cbn [fst snd]. split; auto. split; [apply repeat_length|]. split; [|constructor].
    induction (n_gamma kd); cbn; constructor; auto. constructor.
Qed.

Lemma matrices_aff : forall kd b (o o' : smooth_opts R) ts ts', o_dist o' = o_dist o -> o_style o' = o_style o -> Forall2 (aff_tree kd b) ts ts' ->
  rrel (mats_rel kd b) (forest_matrices kd o ts) (forest_matrices kd o' ts').
Proof.
  intros kd b o o' ts ts' ED ES F. unfold forest_matrices. rewrite ED, ES. destruct (o_dist o) as [pa|lv].
  - unfold create_Gamma_eta_forest.
    replace (snd (calc_depth_for_forest ts')) with (snd (calc_depth_for_forest ts)).
    + apply stack_aff; auto. intros t t' A. unfold create_Gamma_eta_tree.
      replace (depth_dist_leaves (o_style o) t') with (depth_dist_leaves (o_style o) t); [apply of_dist_aff; auto|].
      destruct A as (s&v&w&_&->&_). reflexivity.
    + unfold calc_depth_for_forest. cbn [snd]. generalize 0%nat as m. induction F as [|t t' ts ts' A F IH]; intros m; cbn [fold_left]; auto.
      destruct A as (s&v&w&_&->&_). apply IH.
  - assert (EQ : forall n, quantiles_distance_trees (o_style o) (firstn 5 ts') n = quantiles_distance_trees (o_style o) (firstn 5 ts) n).
    { intros n. unfold quantiles_distance_trees. f_equal. generalize 5%nat as k. induction F as [|t t' ts ts' A F IH]; intros k; destruct k; cbn [firstn flat_map]; auto.
      rewrite IH. destruct A as (s&v&w&_&->&_). reflexivity. }
    assert (EL : forall arr t t', aff_tree kd b t t' -> impurity_levels (o_style o) (LArr arr) t' = impurity_levels (o_style o) (LArr arr) t).
    { intros arr t t' (s&v&w&_&->&_). reflexivity. }
    unfold create_Gamma_eta_forest_imp.
    assert (EA : match lv with LInt n => quantiles_distance_trees (o_style o) (firstn 5 ts') n | LArr l => Ok l end
      = match lv with LInt n => quantiles_distance_trees (o_style o) (firstn 5 ts) n | LArr l => Ok l end) by (destruct lv; auto).
    rewrite EA. destruct (match lv with LInt n => quantiles_distance_trees (o_style o) (firstn 5 ts) n | LArr l => Ok l end) as [arr|]; cbn [bind]; [|reflexivity].
    assert (SG : forall e, rrel (mats_rel kd b) (stack_forest kd false e (create_Gamma_eta_tree_imp kd (o_style o) arr) ts) (stack_forest kd false e (create_Gamma_eta_tree_imp kd (o_style o) arr) ts')).
    { intros e. apply stack_aff; auto. intros t t' A. unfold create_Gamma_eta_tree_imp. rewrite (EL arr t t' A).
      destruct (impurity_levels (o_style o) (LArr arr) t) as [[D e0]|]; cbn [bind]; [|reflexivity]. apply of_dist_aff; auto. }
    clear EA EQ. destruct F as [|t0 t0' r r' H0 F]; [reflexivity|]. rewrite (EL arr _ _ H0).
    destruct (impurity_levels (o_style o) (LArr arr) t0) as [[D e]|]; cbn [bind]; [apply SG|reflexivity].
Qed.

(** the transformations over the reals *)
Definition rwR (kd : kind) (s : R) (t : tree R) : tree R :=
  mkTree (t_left t) (t_right t) (t_feature t) (t_thresh t)
         (match kd with Reg => t_value t | Class _ => map (map (Rmult s)) (t_value t) end)
         (map (Rmult s) (t_weight t)) (t_imp t).
Definition shR (b : R) (t : tree R) : tree R :=
  mkTree (t_left t) (t_right t) (t_feature t) (t_thresh t) (map (map (Rplus b)) (t_value t)) (t_weight t) (t_imp t).
Definition shoR (b : R) (o : smooth_opts R) : smooth_opts R :=
  {| o_X_trained := o_X_trained o; o_y_trained := option_map (map (Rplus b)) (o_y_trained o);
     o_X_tune := o_X_tune o; o_y_tune := option_map (map (map (Rplus b))) (o_y_tune o);
     o_no_constraint := o_no_constraint o; o_sanity := o_sanity o; o_resample := o_resample o;
     o_t_fix := o_t_fix o; o_all_trees := o_all_trees o; o_lamb_draws := o_lamb_draws o;
     o_style := o_style o; o_dist := o_dist o; o_class_eps := o_class_eps o; o_class_loss := o_class_loss o;
     o_adam := o_adam o |}.

(** *** targets *)
Definition tg_rel (kd : kind) (b : R) (r r' : mat R * list R) : Prop :=
  snd r' = snd r /\ yw_rel b (concat (transpose 0 (n_gamma kd) (fst r))) (concat (transpose 0 (n_gamma kd) (fst r'))) (concat (repeat (snd r) (n_gamma kd))).
Lemma tg_same : forall kd r, tg_rel kd 0 r r.
Proof. intros. split; auto. apply yw_zero. Qed.
Lemma yw_app : forall b y y' w, yw_rel b y y' w -> length y = length w -> length y' = length w -> forall z z' u, yw_rel b z z' u -> yw_rel b (y ++ z) (y' ++ z') (w ++ u).
Proof.
  intros b y y' w H. induction H; intros L1 L2 z z' u HZ.
  - destruct w; [|discriminate]. auto.
  - destruct y; [|discriminate]. destruct y'; [|discriminate]. auto.
  - cbn. constructor; auto.
Qed.
Definition tg1 (b : R) (r r' : mat R * list R) : Prop :=
  snd r' = snd r /\ length (fst r) = length (snd r) /\ length (fst r') = length (snd r) /\ yw_rel b (col 0 (fst r)) (col 0 (fst r')) (snd r).
Lemma dot_shift : forall b (a : list R) y, length a = length y -> dot a (map (Rplus b) y) = dot a y + b * nsum a.
Proof.
  intros b. induction a as [|x a IH]; intros [|z y] L; try discriminate; [rewrite !dot_nil_l; change (@nsum R _ []) with 0; ring|].
  cbn [map]. rewrite !dot_cons, nsum_cons, IH by (simpl in L; lia). rn. ring.
Qed.
Lemma shift_targets_one : forall b t X (Y : mat R), rrel (tg1 b) (leaf_targets 1 t X Y) (leaf_targets 1 t X (map (map (Rplus b)) Y)).
Proof.
  intros b t X Y. unfold leaf_targets. destruct (obs_V_leaf t X) as [V|] eqn:EV; cbn [bind]; [|reflexivity].
  assert (LV : length V = length X). { unfold obs_V_leaf in EV. destruct X; [discriminate|]. inversion EV. cbn. rewrite map_length. auto. }
  rewrite map_length. destruct (Nat.eqb_spec (length Y) (length X)) as [LY|LY]; cbn [negb]; [|reflexivity].
  assert (EB : forallb (fun r => Nat.eqb (length r) 1) (map (map (Rplus b)) Y) = forallb (fun r => Nat.eqb (length r) 1) Y).
  { clear. induction Y; cbn; auto. rewrite map_length, IHY. reflexivity. }
  rewrite EB. destruct (forallb _ Y) eqn:FB; cbn [negb]; [|reflexivity].
  assert (EC : col 0 (map (map (Rplus b)) Y) = map (Rplus b) (col 0 Y)).
  { unfold col. rewrite !map_map. apply map_ext_in. intros r Hr. rewrite forallb_forall in FB. specialize (FB r Hr). apply Nat.eqb_eq in FB.
    destruct r as [|x r]; [discriminate|]. reflexivity. }
  cbn [rrel seq map]. unfold tg1; cbn [fst snd]. rewrite EC.
  set (cols := transpose n0 (num_leaf t) V).
  assert (HC : forall cl, In cl cols -> length cl = length (col 0 Y)).
  { intros cl Hc. unfold cols, transpose in Hc. apply in_map_iff in Hc. destruct Hc as (j&<-&_). unfold col. rewrite !map_length. lia. }
  clearbody cols. split; [auto|]. unfold fill1. rewrite !map2_length, !map_length. split; [lia|]. split; [lia|].
  induction cols as [|cl cols IH]; cbn [map map2]; [constructor|]. cbn [col map nth].
  constructor; [|apply IH; intros; apply HC; right; auto].
  rewrite dot_shift by (apply HC; left; auto). change (@neqb R _ (nsum cl) n0) with (Reqb (nsum cl) 0).
  destruct (Reqb_spec (nsum cl) 0) as [Z|Z]; [right; auto|left]. rn. field. auto.
Qed.
Lemma tuning_shift : forall b o rd q, tuning_data Reg (shoR b o) rd q = rmap (fun r => (fst r, map (map (Rplus b)) (snd r))) (tuning_data Reg o rd q).
Proof.
  intros. unfold tuning_data.
  assert (EO : oob_logic (shoR b o) = oob_logic o).
  { unfold oob_logic. cbn. destruct (o_y_tune o); reflexivity. }
  rewrite EO. cbn [shoR o_resample o_X_trained o_y_trained o_X_tune o_y_tune].
  destruct (_ || _)%bool.
  - destruct (o_X_trained o) as [X|]; [|reflexivity]. destruct (o_y_trained o) as [y|]; [|reflexivity]. cbn [option_map].
    destruct (take_rows X _); cbn [bind rmap]; [|reflexivity]. rewrite take_rows_map.
    destruct (take_rows y _); cbn [bind rmap fst snd]; [|reflexivity]. unfold response_rows. rewrite !map_map. reflexivity.
  - destruct (o_X_tune o); [|reflexivity]. destruct (o_y_tune o); reflexivity.
Qed.
Lemma shift_targets : forall b (o : smooth_opts R) rd ts ts', Forall2 (aff_tree Reg b) ts ts' ->
  rrel (tg_rel Reg b) (all_targets Reg o rd ts) (all_targets Reg (shoR b o) rd ts').
Proof.
  intros b o rd ts ts' F. eapply rrel_impl with (Rl := tg1 b).
  - intros [Y W] [Y' W'] (E&L1&L2&H). cbn [fst snd] in *. split; auto. cbn [fst snd n_gamma transpose seq map concat repeat].
    rewrite !app_nil_r. exact H.
  - unfold all_targets. eapply foldM_rrel; [|apply Forall2_combine_seq; exact F|].
    + intros [Y W] [Y' W'] [i t] [i' t'] (E&L1&L2&H) [Ei Et]. cbn [fst snd] in *. subst i' W'. unfold add_targets. cbn [fst snd].
      rewrite tuning_shift. destruct (tuning_data Reg o rd i) as [[X y]|]; cbn [bind rmap fst snd]; [|reflexivity].
      destruct Et as (s&v&w&_&->&_). rewrite ts_targets. eapply rrel_bind; [apply shift_targets_one|].
      intros [yl u] [yl' u'] (E1&M1&M2&H1). cbn [fst snd] in *. subst u'. cbn [rrel]. unfold tg1; cbn [fst snd].
      rewrite !app_length. split; auto. split; [lia|]. split; [lia|]. unfold col. rewrite !map_app. apply yw_app; auto; rewrite map_length; lia.
    + unfold tg1; cbn. repeat split. constructor.
Qed.
Lemma same_targets : forall kd (o o' : smooth_opts R) rd ts ts', (forall q, tuning_data kd o' rd q = tuning_data kd o rd q) ->
  Forall2 (aff_tree kd 0) ts ts' -> rrel (tg_rel kd 0) (all_targets kd o rd ts) (all_targets kd o' rd ts').
Proof.
  intros kd o o' rd ts ts' HT F. replace (all_targets kd o' rd ts') with (all_targets kd o rd ts).
  - destruct (all_targets kd o rd ts); cbn; auto. apply tg_same.
  - apply rrel_eq. unfold all_targets. eapply foldM_rrel; [|apply Forall2_combine_seq; exact F|reflexivity].
    intros a a' [i t] [i' t'] <- [Ei Et]. cbn [fst snd] in *. subst i'. apply rrel_eq. unfold add_targets. cbn [fst snd]. rewrite HT.
    destruct (tuning_data kd o rd i) as [[X y]|]; cbn [bind]; [|reflexivity]. destruct Et as (s&v&w&_&->&_). rewrite ts_targets. reflexivity.
Qed.

(** *** writing the leaves *)
Lemma mask_assign_moved : forall (f : R -> R) m (l l' vs : mat R), length l = length m -> length l' = length m ->
  length vs = length (filter (fun b => b) m) -> forall v, (v < length m)%nat -> nth v m true = true ->
  nth v (mask_assign m l' (map (map f) vs)) [] = map f (nth v (mask_assign m l vs) []).
Proof.
  intros f. induction m as [|b m IH]; intros [|x l] [|x' l'] vs L1 L2 LV v Hv Hm; cbn in L1, L2, Hv; try discriminate; try lia.
  cbn [mask_assign]. destruct b; cbn in LV.
  - destruct vs as [|y vs]; [discriminate|]. cbn [map]. destruct v; cbn [nth]; auto. apply IH; auto; lia.
  - destruct v; [discriminate|]. cbn [nth]. apply IH; auto; lia.
Qed.
Lemma write_moved : forall f (t : tree R) v w, wf_tree t -> length v = length (t_value t) -> forall Y s,
  rrel (moved_tree f) (write_leaves Y s t) (write_leaves (map (map f) Y) s (tset t v w)).
Proof.
  intros f t v w WF LV Y s. unfold write_leaves. rewrite ts_num, skipn_map, firstn_map, map_length.
  assert (X : forall vals, length vals = num_leaf t -> moved_tree f (set_values t (mask_assign (map (fun z => Z.eqb z (-1)) (t_left t)) (t_value t) vals))
     (set_values (tset t v w) (mask_assign (map (fun z => Z.eqb z (-1)) (t_left t)) v (map (map f) vals)))).
  { intros vals LL. unfold moved_tree. cbn [set_values tset t_left t_right t_value t_feature t_thresh].
    repeat (split; [reflexivity|]). intros u Hu HL. change (is_leafb (set_values t (mask_assign (map (fun z => Z.eqb z (-1)) (t_left t)) (t_value t) vals))) with (is_leafb t) in HL.
    change (size (set_values t (mask_assign (map (fun z => Z.eqb z (-1)) (t_left t)) (t_value t) vals))) with (size t) in Hu.
    pose proof (wf_len_value t WF) as LT. unfold size in *. apply mask_assign_moved; rewrite ?map_length; auto; try lia.
    - rewrite LL. unfold num_leaf. clear. induction (t_left t) as [|z l IH]; cbn; auto. destruct (Z.eqb z (-1)); cbn; auto.
    - rewrite leaf_mask_nth. auto. }
  set (sl := firstn _ _). cbn [tset t_left t_value].
  destruct (Nat.eqb_spec (length sl) (num_leaf t)) as [E|E].
  - apply X. auto.
  - destruct sl as [|r0 [|]]; cbn [map rrel]; auto. replace (repeat (map f r0) (num_leaf t)) with (map (map f) (repeat r0 (num_leaf t))) by apply map_repeat'.
    apply X. apply repeat_length.
Qed.
Section Write.
Variables (f : R -> R) (ts ts' : list (tree R)).
Hypothesis W : Forall (@wf_tree R) ts.
Hypothesis F : Forall2 (fun t t' => exists v w, t' = tset t v w /\ length v = length (t_value t)) ts ts'.
Lemma wf_moved : forall Y s, rrel (Forall2 (moved_tree f)) (write_forest Y s ts) (write_forest (map (map f) Y) s ts').
Proof using W F.
  intros Y. revert W. induction F as [|t t' r r' Ht Hr IH]; intros W s; cbn [write_forest]; [constructor|]. inversion W; subst.
  destruct Ht as (v&w&->&LV). eapply rrel_bind; [apply write_moved; auto|]. intros a b Hab. rewrite ts_num.
  eapply rrel_bind; [apply IH; auto|]. intros; cbn; auto.
Qed.
Lemma wf2_moved : forall Y s, rrel (Forall2 (moved_tree f)) (write_forest2 Y s ts) (write_forest2 (map (map f) Y) s ts').
Proof using W F.
  intros Y. revert W. induction F as [|t t' r r' Ht Hr IH]; intros W s; cbn [write_forest2]; [constructor|]. inversion W; subst.
  destruct Ht as (v&w&->&LV). eapply rrel_bind; [apply write_moved; auto|]. intros a b Hab.
  eapply rrel_bind; [apply IH; auto|]. intros; cbn; auto.
Qed.
End Write.
Lemma unflatten_moved : forall (f : R -> R) nc rows (l : list R), length l = (nc * rows)%nat ->
  unflatten nc rows (map f l) = map (map f) (unflatten nc rows l).
Proof.
  intros f nc rows l L. unfold unflatten. rewrite map_map. apply map_ext_in. intros r Hr. rewrite map_map. apply map_ext_in. intros c Hc.
  apply in_seq in Hr. apply in_seq in Hc. apply nth_map_in. nia.
Qed.

(** *** smooth *)
Lemma targets_draws : forall kd (o : smooth_opts R) rd n ts, all_targets kd o (first_draws n rd) ts = all_targets kd o rd ts.
Proof. intros. apply all_targets_ext. intros. reflexivity. Qed.

Lemma massy_rows : forall kd ts K sel G E Ti (l : list R) o, mats kd ts K sel G E Ti ->
  length l = K ->
  (forall q t i, nth_error ts q = Some t -> (i < n_leaves t)%nat -> smooth_kernel o ts t l i (kap_sel sel l q i)) ->
  (forall q t i kap, nth_error ts q = Some t -> (i < n_leaves t)%nat -> smooth_kernel o ts t l i kap -> kmass t kap <> 0) -> massy E l.
Proof.
  intros kd ts K sel G E Ti l o M LL HK H e He. apply In_nth with (d := []) in He. destruct He as (r&Hr&<-).
  destruct (mats_rows _ _ _ _ _ _ _ M r Hr) as (q&t&i&N&Hi&->).
  rewrite (mats_eta _ _ _ _ _ _ _ M q t i l N Hi LL). apply (H q t i); auto.
Qed.

Lemma smooth_aff : forall lg kd ts ts' (o o' : smooth_opts R) rd b,
  (oob_logic o' || o_resample o')%bool = (oob_logic o || o_resample o)%bool ->
  isNone (o_X_trained o') = isNone (o_X_trained o) -> isNone (o_y_trained o') = isNone (o_y_trained o) ->
  o_no_constraint o' = o_no_constraint o -> o_all_trees o' = o_all_trees o -> o_lamb_draws o' = o_lamb_draws o ->
  o_class_eps o' = o_class_eps o -> o_sanity o' = o_sanity o ->
  o_t_fix o' = o_t_fix o -> o_adam o' = o_adam o -> o_class_loss o' = o_class_loss o ->
  o_dist o' = o_dist o -> o_style o' = o_style o ->
  kd = Reg \/ o_class_loss o = L2 \/ (b = 0 /\ all_targets kd o' rd ts' = all_targets kd o rd ts) ->
  Forall (@wf_tree R) ts -> ts <> [] -> Forall2 (aff_tree kd b) ts ts' ->
  rrel (tg_rel kd b) (all_targets kd o rd ts) (all_targets kd o' rd ts') ->
  keeps_mass lg kd ts o rd ->
  rrel (moved_out (Rplus b)) (smooth lg (Forest kd ts) o rd) (smooth lg (Forest kd ts') o' rd).
Proof.
  intros lg kd ts ts' o o' rd b H1 H2 H3 H4 H5 H6 H7 H8 H9 H10 H11 H12 H13 LO W NE F HT KM.
  assert (SM : forall n out, smooth lg (Forest kd ts) o (first_draws n rd) = Ok out ->
     forall q t i kap, nth_error ts q = Some t -> (i < n_leaves t)%nat -> smooth_kernel o ts t (s_lamb_last out) i kap -> kmass t kap <> 0) by exact KM.
  pose proof (matrices_aff kd b o o' ts ts' H12 H13 F) as MR.
  unfold smooth in *. rewrite H1, H2, H3, H4. destruct (_ && _)%bool; [reflexivity|].
  assert (CC : (match kd with Class _ => o_no_constraint o | Reg => false end) = false -> match kd with Class _ => o_no_constraint o = false | Reg => True end).
  { destruct kd; auto. }
  destruct (match kd with Class _ => o_no_constraint o | Reg => false end) eqn:CN; [reflexivity|]. specialize (CC eq_refl).
  destruct (forest_matrices kd o ts) as [[[G E] Ti]|] eqn:FM; destruct (forest_matrices kd o' ts') as [[[G' E'] Ti']|] eqn:FM'; cbn [rrel] in MR; try contradiction; [|exact MR].
  destruct MR as (ET&LG&FG&FE). cbn [fst snd] in *. subst Ti'. cbn [bind] in *.
  destruct (forest_matrices_mats kd o ts G E Ti W NE FM) as (K&sel&KP&M&HK).
  destruct (ncols_mats _ _ _ _ _ _ _ W NE M) as (NC&_&_).
  destruct (all_targets kd o rd ts) as [[Y W0]|] eqn:AT; destruct (all_targets kd o' rd ts') as [[Y' W0']|] eqn:AT'; cbn [rrel] in HT; try contradiction; [|exact HT].
  destruct HT as (EW&YW). cbn [fst snd] in *. subst W0'. cbn [bind] in *.
  rewrite (eta_ncols _ _ FE), <- (Forall2_len _ _ _ FE).
  replace (initial_lamb kd o' (ncols E)) with (initial_lamb kd o (ncols E)) by (unfold initial_lamb; rewrite H6, H7; reflexivity).
  set (P := flatten kd o G E Ti Y W0) in *. set (P' := flatten kd o' G' E' Ti Y' W0).
  set (l0 := initial_lamb kd o (ncols E)) in *.
  assert (AR : aff_rows b (concat G) (concat (repeat E (n_gamma kd))) (concat G') (concat (repeat E' (n_gamma kd)))).
  { rewrite <- LG. apply aff_concat. exact FG. }
  assert (AP : aff_prob b P P').
  { constructor; cbn [P P' flatten p_Gamma p_eta p_y p_w p_tidx]; auto. rewrite H5. reflexivity. }
  assert (MM : forall n best lst cs, optimise lg kd o (first_draws n rd) P l0 = Ok (best, lst, cs) -> massy (p_eta P) lst).
  { intros n best lst cs OP.
    assert (LL : length lst = K).
    { destruct (optimise_good _ _ _ _ _ _ _ _ _ CC OP) as (_&L2&_). rewrite L2. unfold l0. rewrite initial_lamb_length. exact NC. }
    assert (ME : massy E lst).
    { assert (TL : forall l, length (table kd G E l) = length E) by (intros; unfold table; apply unflatten_length).
      pose proof M as M'. destruct M' as (_&LE&_).
      destruct (write_forest_ok (table kd G E best) ts 0 W) as (f1&E1&_); [rewrite TL; lia|].
      destruct (write_forest2_ok (table kd G E lst) ts W) as (f2&E2&_).
      { intros t Ht. rewrite TL, LE. apply In_nth_error in Ht. destruct Ht as (q&Hq).
        pose proof (offset_le ts q t Hq). lia. }
      eapply massy_rows; [exact M|exact LL|intros q t i N Hi; apply HK; auto|].
      apply (SM n {| s_forest := f1; s_lamb := best; s_forest2 := f2; s_lamb2 := lst; s_lamb_last := lst; s_costs := cs |}).
      rewrite targets_draws, AT. cbn [bind]. fold P. fold l0. rewrite OP. cbn [bind p_Gamma p_eta P flatten].
      fold (table kd G E best). fold (table kd G E lst). rewrite E1. cbn [bind]. rewrite E2. reflexivity. }
    intros e He. cbn [P flatten p_eta] in He. apply in_concat in He. destruct He as (E1&HE&He). apply repeat_spec in HE. subst E1. apply ME; auto. }
  assert (OP : optimise lg kd o' rd P' l0 = optimise lg kd o rd P l0 /\
    forall best lst cs, optimise lg kd o rd P l0 = Ok (best, lst, cs) -> massy (p_eta P) best /\ massy (p_eta P) lst).
  { unfold optimise in *. rewrite H4, H7, H8, H9, H10, H11. destruct (o_sanity o) eqn:SA.
    - split; auto. intros best lst cs Q. inversion Q; subst. split; eapply (MM 0%nat); reflexivity.
    - assert (NG : ncols (p_Gamma P') = ncols (p_Gamma P)).
      { destruct AP as [A _ _ _]. destruct A; auto. unfold ncols. cbn [hd]. unfold aff_row. rewrite map2_length. lia. }
      assert (C1 : forall s best lst cs, match kd, o_class_loss o with
         | Class _, CE => stocastic_grad_descent_ce lg P l0 (o_t_fix o) (negb (o_no_constraint o)) (o_class_eps o) (o_adam o) (firstn s (r_draws rd))
         | _, _ => stocastic_grad_descent P l0 (o_t_fix o) (negb (o_no_constraint o)) (o_adam o) (firstn s (r_draws rd)) end = Ok (best, lst, cs) -> massy (p_eta P) lst).
      { intros s best lst cs Q. apply (MM s best lst cs). cbn [first_draws r_draws]. destruct kd; exact Q. }
      destruct kd as [|nc]; [apply (aff_sgd b); auto|]. destruct (o_class_loss o); [|apply (aff_sgd b); auto].
      destruct LO as [LO|[LO|[Z LO]]]; try discriminate. rewrite Z in AP. apply aff_sgd_ce; auto.
      inversion LO. subst Y'. reflexivity. }
  destruct OP as [OP OM]. rewrite OP. destruct (optimise lg kd o rd P l0) as [[[l ll] cs]|] eqn:EO; cbn [bind]; [|reflexivity].
  destruct (OM _ _ _ eq_refl) as [M1 M2].
  assert (LV : forall l, length (new_values (p_Gamma P) (p_eta P) l) = (n_gamma kd * length E)%nat).
  { intros. unfold new_values. cbn [P flatten p_Gamma p_eta]. rewrite map2_length, !mv_length, length_concat_repeat, (concat_G_len _ _ _ _ _ _ _ M). lia. }
  destruct AP as [AP _ _ _].
  rewrite !(aff_values b _ _ _ _ _ AP) by auto.
  rewrite !unflatten_moved by apply LV.
  assert (F' : Forall2 (fun t t' => exists v w, t' = tset t v w /\ length v = length (t_value t)) ts ts').
  { clear - F. induction F; constructor; auto. destruct H as (s&v&w&_&E&L&_). eauto. }
  eapply rrel_bind; [apply wf_moved; auto|]. intros f1 f1' Q1.
  eapply rrel_bind; [apply wf2_moved; auto|]. intros f2 f2' Q2. cbn. unfold moved_out; cbn. auto 10.
Qed.

(** *** the two transformations *)
Lemma leaf_select_len2 : forall (t : tree R) (l m : list R), length l = length m -> length (leaf_select t l) = length (leaf_select t m).
Proof.
  intros t l m. unfold leaf_select. generalize (map (fun c => Z.eqb c (-1)) (t_left t)) as k. intros k. revert l m.
  induction k as [|b k IH]; intros [|x l] [|y m] L; try discriminate; cbn; auto. simpl in L. destruct b; cbn; rewrite (IH l m) by lia; auto.
Qed.
Lemma n_len : forall t : tree R, wf_tree t -> forall c, length (leaf_select t (value_col c t)) = length (n_leaf_original t).
Proof.
  intros t WF c. unfold n_leaf_original. apply leaf_select_len2. unfold value_col. rewrite map_length.
  rewrite (wf_len_value t WF), (wf_len_weight t WF). reflexivity.
Qed.
Lemma ny_len : forall kd (t : tree R), wf_tree t -> forall ny, In ny (ny_leaf_original kd t) -> length ny = length (n_leaf_original t).
Proof.
  intros kd t WF ny H. unfold ny_leaf_original in H. destruct kd.
  - destruct H as [<-|[]]. rewrite map2_length, n_len by auto. lia.
  - apply in_map_iff in H. destruct H as (c&<-&_). apply n_len; auto.
Qed.
Lemma aff_row0 : forall s g e, length g = length e -> aff_row s 0 g e = map (Rmult s) g.
Proof. intros s. induction g; intros [|y e] L; try discriminate; cbn; auto. f_equal; [ring|]. apply IHg. simpl in L; lia. Qed.
Lemma aff_reweighted : forall kd s (t : tree R), s <> 0 -> wf_tree t -> aff_tree kd 0 t (rwR kd s t).
Proof.
  intros kd s t S0 WF. exists s. eexists. eexists. split; auto. split; [reflexivity|].
  split; [destruct kd; [auto|rewrite map_length; auto]|].
  assert (EN : n_leaf_original (rwR kd s t) = map (Rmult s) (n_leaf_original t)) by (unfold n_leaf_original, leaf_select; cbn; apply mask_select_map).
  split; auto. split; [|apply ny_len; auto].
  rewrite (map_ext_in _ (map (Rmult s))) by (intros ny H; apply aff_row0, (ny_len kd); auto).
  unfold ny_leaf_original. destruct kd as [|nc].
  - cbn [map]. rewrite EN. f_equal. change (leaf_select (rwR Reg s t) (value_col 0 (rwR Reg s t))) with (leaf_select t (value_col 0 t)).
    rewrite map2_map_l, map_map2'. apply map2_ext_in. intros; rn; ring.
  - rewrite map_map. apply map_ext. intros c. unfold leaf_select, value_col. cbn [rwR t_left t_value].
    rewrite <- mask_select_map. f_equal. rewrite !map_map. apply map_ext. intros r. apply nth_sc.
Qed.
Lemma aff_shifted : forall b (t : tree R), wf_tree t -> wf_values Reg t -> aff_tree Reg b t (shR b t).
Proof.
  intros b t WF WV. exists 1. eexists. eexists. split; [lra|]. split; [reflexivity|]. split; [apply map_length|].
  change (n_leaf_original (shR b t)) with (n_leaf_original t).
  split; [rewrite map_sc1; reflexivity|]. split; [|apply ny_len; auto].
  unfold ny_leaf_original. cbn [map]. f_equal. change (n_leaf_original (shR b t)) with (n_leaf_original t).
  assert (EV : leaf_select (shR b t) (value_col 0 (shR b t)) = map (Rplus b) (leaf_select t (value_col 0 t))).
  { unfold leaf_select, value_col. cbn [shR t_left t_value]. rewrite <- mask_select_map. f_equal. rewrite !map_map. apply map_ext_in.
    intros r Hr. apply In_nth with (d := []) in Hr. destruct Hr as (v&Hv&<-). rewrite (wf_len_value t WF) in Hv. specialize (WV v Hv).
    destruct (nth v (t_value t) []); [discriminate|reflexivity]. }
  rewrite EV. pose proof (n_len t WF 0) as L. revert L. generalize (leaf_select t (value_col 0 t)) as vv. generalize (n_leaf_original t) as nn.
  induction nn as [|x nn IH]; intros [|y vv] L; try discriminate; cbn; auto. unfold aff_row in IH. rewrite IH by (simpl in L; lia). f_equal. ring.
Qed.

Lemma moved_id : forall x y, moved_out (Rplus 0) x y -> moved_out (fun v => v) x y.
Proof.
  assert (X : forall t t', moved_tree (Rplus 0) t t' -> moved_tree (fun v => v) t t').
  { intros t t' (A&B&C&D&V). repeat (split; [assumption|]). intros v Hv L. rewrite (V v Hv L), map_plus0, map_id. reflexivity. }
  assert (Y : forall l l', Forall2 (moved_tree (Rplus 0)) l l' -> Forall2 (moved_tree (fun v => v)) l l').
  { intros l l' F. induction F; auto. }
  intros x y (A&B&C&D&E&F). unfold moved_out. auto 10.
Qed.
Lemma p_C88 : forall lg kd ts ts' (o : smooth_opts R) rd, Forall2 (fun t t' => exists s, s <> 0 /\ t' = reweighted kd s t) ts ts' ->
  Forall (@wf_tree R) ts -> ts <> [] -> keeps_mass lg kd ts o rd ->
  rrel (moved_out (fun v => v)) (smooth lg (Forest kd ts) o rd) (smooth lg (Forest kd ts') o rd).
Proof.
  intros lg kd ts ts' o rd F W NE KM. change (@reweighted R _) with rwR in F. eapply rrel_impl; [exact moved_id|].
  assert (FA : Forall2 (aff_tree kd 0) ts ts').
  { clear KM NE. revert W. induction F; intros W; constructor; inversion W; subst; auto. destruct H as (s&S0&->). apply aff_reweighted; auto. }
  assert (ET : all_targets kd o rd ts' = all_targets kd o rd ts).
  { symmetry. apply rrel_eq. unfold all_targets. eapply foldM_rrel; [|apply Forall2_combine_seq; exact FA|reflexivity].
    intros a a' [i t] [i' t'] <- [Ei Et]. cbn [fst snd] in *. subst i'. apply rrel_eq. unfold add_targets. cbn [fst snd].
    destruct (tuning_data kd o rd i) as [[X y]|]; cbn [bind]; [|reflexivity]. destruct Et as (s&v&w&_&->&_). rewrite ts_targets. reflexivity. }
  apply smooth_aff; auto. rewrite ET. destruct (all_targets kd o rd ts); cbn; auto. apply tg_same.
Qed.
Lemma p_C89 : forall lg b ts (o : smooth_opts R) rd, Forall (@wf_tree R) ts -> Forall (wf_values Reg) ts -> ts <> [] -> keeps_mass lg Reg ts o rd ->
  rrel (moved_out (Rplus b)) (smooth lg (Forest Reg ts) o rd) (smooth lg (Forest Reg (map (shifted b) ts)) (shifted_opts b o) rd).
Proof.
  intros lg b ts o rd W WV NE KM. change (@shifted R _ b) with (shR b). change (@shifted_opts R _ b o) with (shoR b o).
  assert (FA : Forall2 (aff_tree Reg b) ts (map (shR b) ts)).
  { clear KM NE. revert WV. induction W; intros WV; constructor; inversion WV; subst; auto. apply aff_shifted; auto. }
  apply smooth_aff; auto; try reflexivity.
  - unfold oob_logic. cbn. destruct (o_y_tune o); reflexivity.
  - cbn. destruct (o_y_trained o); reflexivity.
  - apply shift_targets; auto.
Qed.
Lemma keeps_plain : forall lg kd ts (o : smooth_opts R) rd, Forall (@wf_tree R) ts -> Forall pos_leaves ts -> ts <> [] -> plain_l2 kd o ->
  o_no_constraint o = false -> draws_nonneg o -> (kd = Reg \/ 0 <= o_class_eps o) -> o_dist o = DDepth true -> keeps_mass lg kd ts o rd.
Proof.
  intros lg kd ts o rd W PL NE PP NC DN CE OD n out H q t i kap N Hi HK Z.
  destruct (p_C84_weights _ _ _ _ _ _ H W PL NE PP NC) as [_ S1].
  destruct (smooth_lamb_nonneg _ _ _ _ _ _ H W NE NC DN CE) as [_ NN].
  rewrite Forall_forall in W, PL. pose proof (nth_error_In _ _ N) as IN.
  pose proof (kmass_zero t kap (PL t IN) (kernel_nonneg _ _ _ _ _ _ NN HK) Z i Hi) as K0.
  unfold smooth_kernel in HK. rewrite OD in HK. rewrite (own_weight t _ _ i kap (W t IN) Hi HK) in K0. lra.
Qed.
