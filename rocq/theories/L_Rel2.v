(** L_Rel2: two runs of smooth; change of units of the response. *)
From Verif Require Import Base TreeSpec Spec M_Tree M_Gamma M_Levels M_Prox M_Grad M_Sgd M_Smooth SpecSmooth SpecRel
  L_Base L_Tree L_TreeModel L_TreeModel2 L_Dist L_Gamma L_Gamma2 L_Grad L_Sgd L_Rel.
From Coq Require Import Reals Lra.
Local Open Scope R_scope.

Lemma nth_sc : forall c (l : list R) i, nth i (map (Rmult c) l) 0 = c * nth i l 0.
Proof. intros. rewrite <- (Rmult_0_r c) at 1. apply map_nth. Qed.
Lemma nth_sc_row : forall c (M : mat R) i, nth i (map (map (Rmult c)) M) [] = map (Rmult c) (nth i M []).
Proof. intros. change (@nil R) with (map (Rmult c) []) at 1. apply map_nth. Qed.

Lemma new_values_sc : forall c (G E : mat R) l, new_values (map (map (Rmult c)) G) E l = map (Rmult c) (new_values G E l).
Proof.
  intros. unfold new_values. rewrite mv_sc, map2_map_l, map_map2'. apply map2_ext_in. intros a b _ _. rn.
  destruct (Reqb b 0); unfold Rdiv; ring.
Qed.
Lemma unflatten_sc : forall c nc rows (l : list R), unflatten nc rows (map (Rmult c) l) = map (map (Rmult c)) (unflatten nc rows l).
Proof.
  intros. unfold unflatten. rewrite map_map. apply map_ext. intros r. rewrite map_map. apply map_ext. intros k.
  apply nth_sc.
Qed.
Lemma transpose_sc : forall c nc (M : mat R), transpose 0 nc (map (map (Rmult c)) M) = map (map (Rmult c)) (transpose 0 nc M).
Proof.
  intros. unfold transpose. rewrite map_map. apply map_ext. intros j. rewrite !map_map. apply map_ext. intros r. apply nth_sc.
Qed.
Lemma flatten_sc : forall kd o c G E Ti Y W,
  flatten kd o (map (map (map (Rmult c))) G) E Ti (map (map (Rmult c)) Y) W = sc_prob c (flatten kd o G E Ti Y W).
Proof.
  intros. unfold flatten, sc_prob. cbn [p_y p_w p_Gamma p_eta p_tidx]. rewrite !concat_map.
  change (@n0 R _) with 0. rewrite transpose_sc. reflexivity.
Qed.

Section Two.
Variables (lg : R -> R) (kd : kind) (ts ts' : list (tree R)) (o o' : smooth_opts R) (rd rd' : randomness) (c kp : R).
Variables (rho rho' : tree R -> tree R -> Prop).
Hypothesis HB : (oob_logic o' || o_resample o')%bool = (oob_logic o || o_resample o)%bool.
Hypothesis HX : isNone (o_X_trained o') = isNone (o_X_trained o).
Hypothesis Hy : isNone (o_y_trained o') = isNone (o_y_trained o).
Hypothesis HN : o_no_constraint o' = o_no_constraint o.
Hypothesis HA : o_all_trees o' = o_all_trees o.
Hypothesis HD : o_lamb_draws o' = o_lamb_draws o.
Hypothesis HE : o_class_eps o' = o_class_eps o.
Hypothesis HF : forest_matrices kd o' ts' = rmap (fun r => (map (map (map (Rmult c))) (fst (fst r)), snd (fst r), snd r)) (forest_matrices kd o ts).
Hypothesis HT : all_targets kd o' rd' ts' = rmap (fun r => (map (map (Rmult c)) (fst r), snd r)) (all_targets kd o rd ts).
Hypothesis HO : forall P l, optimise lg kd o' rd' (sc_prob c P) l =
  rmap (fun r => (fst (fst r), snd (fst r), map (Rmult kp) (snd r))) (optimise lg kd o rd P l).
Hypothesis HR : Forall2 rho ts ts'.
Hypothesis HL : forall t t', rho t t' -> num_leaf t' = num_leaf t.
Hypothesis HW : forall t t' Y s, rho t t' -> rrel rho' (write_leaves Y s t) (write_leaves (map (map (Rmult c)) Y) s t').

Definition out_rel (a b : smooth_out R) : Prop :=
  Forall2 rho' (s_forest a) (s_forest b) /\ s_lamb b = s_lamb a /\
  Forall2 rho' (s_forest2 a) (s_forest2 b) /\ s_lamb2 b = s_lamb2 a /\ s_lamb_last b = s_lamb_last a /\
  s_costs b = map (Rmult kp) (s_costs a).

Lemma write_forest_rel : forall Y s, rrel (Forall2 rho') (write_forest Y s ts) (write_forest (map (map (Rmult c)) Y) s ts').
Proof using HR HL HW.
  intros Y. clear HF HT. induction HR as [|t t' r r' Ht Hr IH]; intros s; cbn; auto.
  eapply rrel_bind; [apply HW; auto|]. intros a b Hab. rewrite (HL t t' Ht).
  eapply rrel_bind; [apply IH; auto|]. intros; cbn; auto.
Qed.
Lemma write_forest2_rel : forall Y s, rrel (Forall2 rho') (write_forest2 Y s ts) (write_forest2 (map (map (Rmult c)) Y) s ts').
Proof using HR HW.
  intros Y. clear HF HT. induction HR as [|t t' r r' Ht Hr IH]; intros s; cbn; auto.
  eapply rrel_bind; [apply HW; auto|]. intros a b Hab.
  eapply rrel_bind; [apply IH; auto|]. intros; cbn; auto.
Qed.

Lemma smooth_two : rrel out_rel (smooth lg (Forest kd ts) o rd) (smooth lg (Forest kd ts') o' rd').
Proof using All.
  unfold smooth. rewrite HB, HX, Hy, HN. destruct (_ && _)%bool; [reflexivity|].
  destruct (match kd with Class _ => o_no_constraint o | Reg => false end); [reflexivity|].
  rewrite HF, HT. destruct (forest_matrices kd o ts) as [[[G E] Ti]|]; cbn [rmap bind fst snd]; [|reflexivity].
  destruct (all_targets kd o rd ts) as [[Y W]|]; cbn [rmap bind fst snd]; [|reflexivity].
  assert (EI : initial_lamb kd o' (ncols E) = initial_lamb kd o (ncols E)) by (unfold initial_lamb; rewrite HD, HE; reflexivity).
  assert (EF : flatten kd o' (map (map (map (Rmult c))) G) E Ti (map (map (Rmult c)) Y) W = sc_prob c (flatten kd o G E Ti Y W)).
  { rewrite flatten_sc. unfold flatten. rewrite HA. reflexivity. }
  rewrite EI, EF, HO.
  destruct (optimise lg kd o rd (flatten kd o G E Ti Y W) (initial_lamb kd o (ncols E))) as [[[l ll] cs]|]; cbn [rmap bind fst snd]; [|reflexivity].
  cbn [sc_prob p_Gamma p_eta]. rewrite !new_values_sc, !unflatten_sc.
  eapply rrel_bind; [apply write_forest_rel|]. intros f1 f1' H1.
  eapply rrel_bind; [apply write_forest2_rel|]. intros f2 f2' H2. cbn. repeat split; auto.
Qed.
End Two.

(** *** units *)
Definition sct (c : R) (t : tree R) : tree R :=
  mkTree (t_left t) (t_right t) (t_feature t) (t_thresh t) (map (map (Rmult c)) (t_value t)) (t_weight t) (map (Rmult (c * c)) (t_imp t)).
Definition sco (c : R) (o : smooth_opts R) : smooth_opts R :=
  {| o_X_trained := o_X_trained o; o_y_trained := option_map (map (Rmult c)) (o_y_trained o);
     o_X_tune := o_X_tune o; o_y_tune := option_map (map (map (Rmult c))) (o_y_tune o);
     o_no_constraint := o_no_constraint o; o_sanity := o_sanity o; o_resample := o_resample o;
     o_t_fix := o_t_fix o / (c * c); o_all_trees := o_all_trees o; o_lamb_draws := o_lamb_draws o;
     o_style := o_style o; o_dist := o_dist o; o_class_eps := o_class_eps o; o_class_loss := o_class_loss o;
     o_adam := option_map (sc_par (c * c)) (o_adam o) |}.
Section Units.
Variable c : R.
Hypothesis NZ : c <> 0.

Lemma mask_assign_map : forall {A B} (f : A -> B) m l v, mask_assign m (map f l) (map f v) = map f (mask_assign m l v).
Proof.
  induction m as [|[] m IH]; intros [|x l] v; cbn; auto; [destruct v; cbn|]; f_equal; auto. apply (IH l []).
Qed.
Lemma write_leaves_sc : forall Y s t, write_leaves (map (map (Rmult c)) Y) s (sct c t) = rmap (sct c) (write_leaves Y s t).
Proof.
  intros. unfold write_leaves. change (num_leaf (sct c t)) with (num_leaf t).
  rewrite skipn_map, firstn_map, map_length. set (sl := firstn _ _). cbn [t_left t_value sct].
  assert (X : forall v, set_values (sct c t) (mask_assign (map (fun z => Z.eqb z (-1)) (t_left t)) (map (map (Rmult c)) (t_value t)) (map (map (Rmult c)) v))
     = sct c (set_values t (mask_assign (map (fun z => Z.eqb z (-1)) (t_left t)) (t_value t) v))).
  { intros. rewrite mask_assign_map. reflexivity. }
  destruct (Nat.eqb _ _); cbn [rmap]; [rewrite X; reflexivity|].
  destruct sl as [|r [|]]; cbn [map rmap]; auto. rewrite <- X, map_repeat'. reflexivity.
Qed.

Lemma slice_mat_sc : forall pa a b K D (x : list R), slice_mat pa a b K D (map (Rmult c) x) = map (map (Rmult c)) (slice_mat pa a b K D x).
Proof.
  intros. unfold slice_mat. rewrite map_map. apply map_ext. intros row. rewrite map_map. apply map_ext. intros k.
  rewrite <- nsum_sc, map2_map_r, map_map2'. f_equal. apply map2_ext_in. intros; rn; ring.
Qed.
Lemma ny_sc : forall t, ny_leaf_original Reg (sct c t) = map (map (Rmult c)) (ny_leaf_original Reg t).
Proof.
  intros. unfold ny_leaf_original. cbn [map]. f_equal.
  change (n_leaf_original (sct c t)) with (n_leaf_original t).
  assert (E : leaf_select (sct c t) (value_col 0 (sct c t)) = map (Rmult c) (leaf_select t (value_col 0 t))).
  { unfold leaf_select, value_col. cbn [t_left t_value sct]. rewrite <- mask_select_map. f_equal. rewrite !map_map. apply map_ext. intros; apply nth_sc. }
  rewrite E, map2_map_r, map_map2'. apply map2_ext_in. intros; rn; ring.
Qed.
Lemma of_dist_sc : forall pa t D lv, Gamma_eta_of_dist Reg pa (sct c t) D lv =
  rmap (fun r => (map (map (map (Rmult c))) (fst r), snd r)) (Gamma_eta_of_dist Reg pa t D lv).
Proof.
  intros. unfold Gamma_eta_of_dist. destruct (zmaximum (concat D)); cbn [bind rmap]; auto.
  destruct (zminimum (concat D)); cbn [bind rmap fst snd]; auto. f_equal. f_equal.
  rewrite ny_sc, !map_map. apply map_ext. intros; apply slice_mat_sc.
Qed.
Lemma pad_row_sc : forall pa K (row : list R), pad_row pa K (map (Rmult c) row) = map (Rmult c) (pad_row pa K row).
Proof.
  intros. unfold pad_row. rewrite map_app, map_length, map_repeat'. f_equal. f_equal. destruct pa; [|rn; ring].
  change (@n0 R _) with 0. induction row as [|x [|y r] IH]; cbn in *; auto; ring.
Qed.
Lemma stack_sc : forall pa K f f' ts,
  (forall t, f' (sct c t) = rmap (fun r => (map (map (map (Rmult c))) (fst r), snd r)) (f t)) ->
  stack_forest Reg pa K f' (map (sct c) ts) =
  rmap (fun r => (map (map (map (Rmult c))) (fst (fst r)), snd (fst r), snd r)) (stack_forest Reg pa K f ts).
Proof.
  intros pa K f f' ts H. apply rrel_map. unfold stack_forest.
  eapply foldM_rrel; [|apply Forall2_combine_seq; apply Forall2_mapr|reflexivity].
  intros [[G E] Ti] a' [i t] [i' t'] -> [Ei Et]. cbn [fst snd] in *. subst i' t'. unfold add_tree. cbn [fst snd].
  rewrite H. destruct (f t) as [[g e]|]; cbn [rmap bind fst snd]; [|reflexivity].
  destruct (Nat.ltb K (ncols e)); [reflexivity|]. cbn. f_equal. f_equal.
  rewrite map2_map_l, map2_map_r, map_map2'. apply map2_ext_in. intros a b _ _. rewrite map_app. f_equal.
  rewrite !map_map. apply map_ext. intros. apply pad_row_sc.
Qed.
Lemma depth_forest_sc : forall ts, calc_depth_for_forest (map (sct c) ts) = calc_depth_for_forest ts.
Proof.
  intros. unfold calc_depth_for_forest. f_equal.
  - rewrite map_map. reflexivity.
  - generalize 0%nat as m. induction ts; intros m; cbn; auto. 
Qed.

Lemma targets_one_sc : forall nc t X (Y : mat R),
  leaf_targets nc (sct c t) X (map (map (Rmult c)) Y) = rmap (fun r => (map (map (Rmult c)) (fst r), snd r)) (leaf_targets nc t X Y).
Proof.
  intros. unfold leaf_targets.
  assert (EV : obs_V_leaf (sct c t) X = obs_V_leaf t X).
  { unfold obs_V_leaf. destruct X; auto. f_equal. apply map_ext. intros x0. unfold path_row.
    assert (EP : forall n v, path_nodes n (sct c t) x0 v = path_nodes n t x0 v).
    { induction n; intros; cbn [path_nodes]; [reflexivity|]. rewrite IHn. reflexivity. }
    change (size (sct c t)) with (size t). rewrite EP. reflexivity. }
  rewrite EV. destruct (obs_V_leaf t X) as [V|]; cbn [bind rmap]; [|reflexivity]. rewrite map_length.
  destruct (negb _); [reflexivity|].
  assert (EB : forallb (fun r => Nat.eqb (length r) nc) (map (map (Rmult c)) Y) = forallb (fun r => Nat.eqb (length r) nc) Y).
  { clear. induction Y; cbn; auto. rewrite map_length, IHY. reflexivity. }
  rewrite EB. destruct (negb _); [reflexivity|]. cbn [rmap fst snd]. f_equal. f_equal.
  change (num_leaf (sct c t)) with (num_leaf t). rewrite map_map2'. apply map2_ext_in. intros a b _ _. rewrite map_map.
  apply map_ext. intros k.
  assert (EC : col k (map (map (Rmult c)) Y) = map (fun x => c * x) (col k Y)).
  { unfold col. rewrite !map_map. apply map_ext. intros; apply nth_sc. }
  rewrite EC, dot_scal_r. rn. unfold Rdiv; ring.
Qed.
Lemma take_rows_map : forall {A B} (f : A -> B) l idx, take_rows (map f l) idx = rmap (map f) (take_rows l idx).
Proof.
  intros. unfold take_rows. induction idx as [|i r IH]; cbn [mapM]; [reflexivity|]. rewrite IH, nth_error_map.
  destruct (nth_error l i); cbn [option_map bind rmap]; [|reflexivity].
  match goal with |- context [rmap (map f) ?M] => destruct M end; reflexivity.
Qed.
Lemma tuning_sc : forall o rd q, tuning_data Reg (sco c o) rd q = rmap (fun r => (fst r, map (map (Rmult c)) (snd r))) (tuning_data Reg o rd q).
Proof.
  intros. unfold tuning_data.
  assert (EO : oob_logic (sco c o) = oob_logic o).
  { unfold oob_logic. cbn. destruct (o_y_tune o); reflexivity. }
  rewrite EO. cbn [sco o_resample o_X_trained o_y_trained o_X_tune o_y_tune].
  destruct (_ || _)%bool.
  - destruct (o_X_trained o) as [X|]; [|reflexivity]. destruct (o_y_trained o) as [y|]; [|reflexivity]. cbn [option_map].
    destruct (take_rows X _); cbn [bind rmap]; [|reflexivity]. rewrite take_rows_map.
    destruct (take_rows y _); cbn [bind rmap fst snd]; [|reflexivity]. unfold response_rows. rewrite !map_map. reflexivity.
  - destruct (o_X_tune o); [|reflexivity]. destruct (o_y_tune o); reflexivity.
Qed.
Lemma targets_sc : forall o rd ts, all_targets Reg (sco c o) rd (map (sct c) ts) =
  rmap (fun r => (map (map (Rmult c)) (fst r), snd r)) (all_targets Reg o rd ts).
Proof.
  intros. apply rrel_map. unfold all_targets.
  eapply foldM_rrel; [|apply Forall2_combine_seq; apply Forall2_mapr|reflexivity].
  intros [Y W] a' [i t] [i' t'] -> [Ei Et]. cbn [fst snd] in *. subst i' t'. unfold add_targets. cbn [fst snd].
  rewrite tuning_sc. destruct (tuning_data Reg o rd i) as [[X y]|]; cbn [bind rmap fst snd]; [|reflexivity].
  rewrite targets_one_sc. destruct (leaf_targets (n_gamma Reg) t X y) as [[yl w]|]; cbn [bind rmap fst snd]; [|reflexivity].
  cbn. rewrite map_app. reflexivity.
Qed.

Lemma p_C83 : forall lg ts o rd pa, o_dist o = DDepth pa ->
  smooth lg (Forest Reg (map (scale_tree c) ts)) (scale_opts c o) rd = rmap (scale_out c) (smooth lg (Forest Reg ts) o rd).
Proof using NZ.
  intros lg ts o rd pa ED. change (@scale_tree R _) with sct. change (@scale_opts R _ c o) with (sco c o).
  apply rrel_map.
  eapply rrel_impl; [|apply smooth_two with (c := c) (kp := c * c) (rho := fun a b => b = sct c a) (rho' := fun a b => b = sct c a)]; try reflexivity.
  - intros a b (H1&H2&H3&H4&H5&H6). unfold scale_out. change (@scale_tree R _ c) with (sct c). change (@nmul R _ (nmul c c)) with (Rmult (c * c)). apply Forall2_map_inv in H1. apply Forall2_map_inv in H3.
    rewrite <- H1, <- H3, <- H2, <- H4, <- H5, <- H6. destruct b; reflexivity.
  - unfold oob_logic. cbn. destruct (o_y_tune o); reflexivity.
  - cbn. destruct (o_y_trained o); reflexivity.
  - unfold forest_matrices. cbn [sco o_dist o_style]. rewrite ED. unfold create_Gamma_eta_forest.
    rewrite depth_forest_sc. apply stack_sc. intros t. apply of_dist_sc.
  - apply targets_sc.
  - intros P l. unfold optimise. cbn [sco o_sanity o_t_fix o_no_constraint o_adam o_class_loss].
    destruct (o_sanity o); [reflexivity|]. apply (sgd_sc c NZ P l (o_t_fix o)).
  - apply Forall2_mapr.
  - intros t t' ->. reflexivity.
  - intros t t' Y s ->. rewrite write_leaves_sc. destruct (write_leaves Y s t); cbn; auto.
Qed.
End Units.
