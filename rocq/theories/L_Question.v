(** L_Question: nothing but the leaf an observation falls into reaches the smoothing functions. *)
From Verif Require Import Base TreeSpec Spec M_Tree M_Gamma M_Levels M_Prox M_Grad M_Sgd M_Smooth M_More M_Clean M_Level M_Null M_Torch M_Pytorch SpecSmooth SpecRel SpecRel2 SpecQuestion
  L_Base L_Tree L_TreeModel L_TreeModel2 L_Dist L_Gamma L_Gamma2 L_Grad L_Levels L_Sgd L_Rel L_Rel2 L_Rel3 L_Rel12 L_Route L_Tune L_Clean.
From Coq Require Import Reals Lra Permutation.
Local Open Scope R_scope.

Definition quest (f : list nat) (th : list R) (t : tree R) : tree R :=
  mkTree (t_left t) (t_right t) f th (t_value t) (t_weight t) (t_imp t).
Lemma sbq_quest : forall t t', same_but_questions t t' -> t' = quest (t_feature t') (t_thresh t') t.
Proof. intros t t' (A&B&C&D&E). unfold quest. rewrite <- A, <- B, <- C, <- D, <- E. destruct t'; reflexivity. Qed.
Lemma quest_sbq : forall f th t, same_but_questions t (quest f th t).
Proof. intros. repeat split. Qed.

Definition asks (t t' : tree R) : Prop := exists f th, t' = quest f th t.
Lemma asks_sbq : forall t t', asks t t' <-> same_but_questions t t'.
Proof. split. - intros (f&th&->). apply quest_sbq. - intros H. eexists _, _. apply sbq_quest; eauto. Qed.
Lemma asks_F2 : forall ts ts', Forall2 same_but_questions ts ts' -> Forall2 asks ts ts'.
Proof. induction 1; constructor; auto. apply asks_sbq; auto. Qed.

(** *** routing *)
Definition drops (t t' : tree R) (x x' : list R) : Prop := leaf_select t' (path_row t' x') = leaf_select t (path_row t x) /\ leaf_number t' x' = leaf_number t x.
Lemma leaf_id_quest : forall f th t i, leaf_id (quest f th t) i = leaf_id t i.
Proof. reflexivity. Qed.
Lemma drops_leaf : forall t t' x x', wf_tree t -> wf_tree t' -> asks t t' -> (forall i, leaf_of t x i -> leaf_of t' x' i) -> drops t t' x x'.
Proof.
  intros t t' x x' WF WF' (f&th&->) H. destruct (one_leaf t WF x) as (u&Hu&Ru&Uu). destruct (one_leaf _ WF' x') as (u'&Hu'&Ru'&Uu').
  destruct (H u (conj Hu Ru)) as [Hi Ri].
  split.
  - assert (L1 : length (path_row t x) = size t) by apply path_row_length.
    assert (L2 : length (path_row (quest f th t) x') = size (quest f th t)) by apply path_row_length.
    apply (nth_ext _ _ 0 0).
    + rewrite !leaf_select_len; auto.
    + intros j Hj. rewrite leaf_select_len in Hj by auto. change (n_leaves (quest f th t)) with (n_leaves t) in *.
      rewrite !leaf_select_nth by auto. 
      assert (Lt : (leaf_id t j < size t)%nat) by (apply leaf_id_lt; auto). rewrite leaf_id_quest.
      destruct (path_row_nth t x (leaf_id t j) WF Lt) as [P1 P0]. destruct (path_row_nth (quest f th t) x' (leaf_id t j) WF' Lt) as [Q1 Q0].
      destruct (Nat.eq_dec j u) as [->|N].
      * rewrite P1 by auto. apply Q1. auto.
      * rewrite P0 by (intros C; apply N; apply Uu; auto).
        apply Q0. intros C. apply N. rewrite (Uu' j Hj C). symmetry. apply Uu'; auto.
  - rewrite (leaf_number_val _ x' u WF' (conj Hi Ri)). symmetry. apply leaf_number_val; auto. split; auto.
Qed.
(** all trees of a forest *)
Definition routed (X X' : mat R) (t t' : tree R) : Prop := asks t t' /\ Forall2 (drops t t') X X'.
Lemma routed_F2 : forall ts ts' X X', Forall wf_tree ts -> Forall wf_tree ts' -> Forall2 same_but_questions ts ts' -> same_leaves ts ts' X X' ->
  Forall2 (routed X X') ts ts'.
Proof.
  intros ts ts' X X' W W' F [LX SL]. 
  assert (G : forall q t t', nth_error ts q = Some t -> nth_error ts' q = Some t' -> wf_tree t -> wf_tree t' -> asks t t' -> Forall2 (drops t t') X X').
  { intros q t t' Q Q' WF WF' A.
    assert (H : forall o, (o < length X)%nat -> drops t t' (nth o X []) (nth o X' [])).
    { intros o Ho. apply drops_leaf; auto. intros i. apply (SL q t t' o i Q Q' Ho). }
    clear SL. revert X' LX H. clear Q Q'. induction X as [|x X IH]; intros [|x' X'] LX H; try discriminate; constructor.
    - apply (H 0%nat). cbn; lia.
    - apply IH; [cbn in LX; lia|]. intros o Ho. apply (H (S o)). cbn; lia. }
  clear SL LX. revert ts' W' F G. induction ts as [|t ts IH]; intros ts' W' F G; inversion F; subst; constructor.
  - inversion W; inversion W'; subst. split; [apply asks_sbq; auto|]. apply (G 0%nat); auto. apply asks_sbq; auto.
  - inversion W; inversion W'; subst. apply IH; auto. intros q. apply (G (S q)).
Qed.
Lemma routed_asks : forall X X' ts ts', Forall2 (routed X X') ts ts' -> Forall2 asks ts ts'.
Proof. induction 1; constructor; auto. apply H. Qed.

Lemma drops_rows : forall t t' X X' idx, Forall2 (drops t t') X X' -> rrel (Forall2 (drops t t')) (take_rows X idx) (take_rows X' idx).
Proof.
  intros t t' X X' idx F. unfold take_rows. induction idx as [|i is IH]; cbn [mapM]; [constructor|].
  eapply rrel_bind with (Rl := drops t t').
  - clear IH. revert i. induction F; intros [|i]; cbn; auto.
  - intros a b Hab. eapply rrel_bind; [exact IH|]. intros; cbn; auto.
Qed.
Lemma obs_V_routed : forall t t' X X', Forall2 (drops t t') X X' -> obs_V_leaf t' X' = obs_V_leaf t X.
Proof.
  intros t t' X X' F. assert (E : map (fun x => leaf_select t' (path_row t' x)) X' = map (fun x => leaf_select t (path_row t x)) X).
  { clear -F. induction F as [|x x' X X' [Hx _] F IH]; cbn [map]; congruence. }
  unfold obs_V_leaf. destruct F; [reflexivity|]. rewrite E. reflexivity.
Qed.
Lemma leaf_targets_routed : forall nc t t' X X' (Y : mat R), asks t t' -> Forall2 (drops t t') X X' -> leaf_targets nc t' X' Y = leaf_targets nc t X Y.
Proof.
  intros nc t t' X X' Y A F. unfold leaf_targets. rewrite (obs_V_routed t t' X X' F). rewrite (Forall2_len _ _ _ F). destruct A as (f&th&->). reflexivity.
Qed.

(** *** the matrices *)
Lemma stack_asks : forall kd pa K f f' ts ts', Forall2 asks ts ts' -> (forall t t', asks t t' -> f' t' = f t) ->
  stack_forest kd pa K f' ts' = stack_forest kd pa K f ts.
Proof.
  intros kd pa K f f' ts ts' F Hf. symmetry. apply rrel_eq. unfold stack_forest.
  eapply foldM_rrel; [|apply Forall2_combine_seq; exact F|reflexivity].
  intros [[G E] Ti] a' [i t] [i' t'] <- [Ei Et]. cbn [fst snd] in *. subst i'. unfold add_tree. cbn [fst snd].
  rewrite (Hf t t' Et). apply rrel_eq. reflexivity.
Qed.
Lemma depth_asks : forall ts ts', Forall2 asks ts ts' -> calc_depth_for_forest ts' = calc_depth_for_forest ts.
Proof.
  intros ts ts' F. unfold calc_depth_for_forest. 
  f_equal.
  - induction F as [|t t' ts ts' (f&th&->) F IH]; cbn [map]; [reflexivity|]. f_equal; auto.
  - generalize 0%nat as m. induction F as [|t t' ts ts' (f&th&->) F IH]; intros m; cbn; auto.
Qed.
Lemma quantiles_asks : forall s n ts ts', Forall2 asks ts ts' -> quantiles_distance_trees s ts' n = quantiles_distance_trees s ts n.
Proof.
  intros s n ts ts' F. unfold quantiles_distance_trees. f_equal. induction F as [|t t' ts ts' (f&th&->) F IH]; cbn; auto. rewrite IH. reflexivity.
Qed.
Lemma firstn_F2 : forall {A B} (Rl : A -> B -> Prop) l l' n, Forall2 Rl l l' -> Forall2 Rl (firstn n l) (firstn n l').
Proof. intros A B Rl l l' n F. revert n. induction F; intros [|n]; cbn; constructor; auto. Qed.
Lemma forest_asks : forall kd pa s ts ts', Forall2 asks ts ts' -> create_Gamma_eta_forest kd pa s ts' = create_Gamma_eta_forest kd pa s ts.
Proof.
  intros kd pa s ts ts' F. unfold create_Gamma_eta_forest. rewrite (depth_asks ts ts' F). apply stack_asks; auto.
  intros t t' (f&th&->). reflexivity.
Qed.
Lemma forest_imp_asks : forall kd s lv ts ts', Forall2 asks ts ts' -> create_Gamma_eta_forest_imp kd s lv ts' = create_Gamma_eta_forest_imp kd s lv ts.
Proof.
  intros kd s lv ts ts' F. unfold create_Gamma_eta_forest_imp.
  assert (EA : match lv with LInt n => quantiles_distance_trees s (firstn 5 ts') n | LArr l => Ok l end
    = match lv with LInt n => quantiles_distance_trees s (firstn 5 ts) n | LArr l => Ok l end).
  { destruct lv; auto. apply quantiles_asks. apply firstn_F2; auto. }
  rewrite EA. destruct (match lv with LInt n => quantiles_distance_trees s (firstn 5 ts) n | LArr l => Ok l end) as [arr|]; cbn [bind]; auto.
  destruct F as [|t t' ts ts' (f&th&->) F]; [reflexivity|].
  change (impurity_levels s (LArr arr) (quest f th t)) with (impurity_levels s (LArr arr) t).
  destruct (impurity_levels s (LArr arr) t) as [[D e]|]; cbn [bind]; auto.
  apply stack_asks. { constructor; auto. eexists _, _; reflexivity. }
  intros t0 t1 (f0&th0&->). reflexivity.
Qed.
Lemma forest_more_asks : forall kd pa s ts ts', Forall2 asks ts ts' -> create_Gamma_eta_forest_more kd pa s ts' = create_Gamma_eta_forest_more kd pa s ts.
Proof.
  intros kd pa s ts ts' F. symmetry. apply rrel_eq. unfold create_Gamma_eta_forest_more. rewrite (depth_asks ts ts' F). 
  eapply foldM_rrel; [|apply Forall2_combine_seq; exact F|reflexivity].
  intros [a Ti] a' [i t] [i' t'] <- [Ei (f&th&Et)]. cbn [fst snd] in *. subst i' t'. apply rrel_eq. reflexivity.
Qed.

(** *** writing *)
Lemma write_leaves_asks : forall t t' Y s, asks t t' -> rrel asks (write_leaves Y s t) (write_leaves Y s t').
Proof.
  intros t t' Y s (f&th&->). unfold write_leaves. change (num_leaf (quest f th t)) with (num_leaf t). cbn [quest t_left t_value].
  destruct (Nat.eqb _ _). { cbn. exists f, th. reflexivity. }
  destruct (firstn _ _) as [|r [|r2 l]]; cbn; auto. exists f, th. reflexivity.
Qed.
Lemma write_forest_asks : forall ts ts' Y s, Forall2 asks ts ts' -> rrel (Forall2 asks) (write_forest Y s ts) (write_forest Y s ts').
Proof.
  intros ts ts' Y s F. revert s. induction F as [|t t' ts ts' A F IH]; intros s; cbn [write_forest]; [constructor|].
  eapply rrel_bind; [apply write_leaves_asks; exact A|]. intros a b Hab. destruct A as (f&th&->). change (num_leaf (quest f th t)) with (num_leaf t).
  eapply rrel_bind; [apply IH|]. intros; cbn; auto.
Qed.
Lemma F2_asks_sbq : forall ts ts', Forall2 asks ts ts' -> Forall2 same_but_questions ts ts'.
Proof. induction 1; constructor; auto. apply asks_sbq; auto. Qed.

(** *** smooth_clean *)
Lemma oob_info_routed : forall ts ts' oob X X', length X' = length X -> Forall2 (routed X X') ts ts' -> generate_oob_info ts' oob X' = generate_oob_info ts oob X.
Proof.
  intros ts ts' oob X X' LX F. unfold generate_oob_info. rewrite <- (Forall2_len _ _ _ F), LX.
  destruct (existsb _ _); auto. destruct (_ && _)%bool; auto.
  assert (EL : map num_leaf ts' = map num_leaf ts). { clear -F. induction F as [|t t' ts ts' [(f&th&->) _] F IH]; cbn [map]; [reflexivity|]. rewrite IH. reflexivity. }
  rewrite EL. f_equal. f_equal.
  assert (G : forall o, (o < length X)%nat -> map (fun t => leaf_number t (nth o X' [])) ts' = map (fun t => leaf_number t (nth o X [])) ts).
  { intros o Ho. clear EL. induction F as [|t t' ts ts' [A D] F IH]; cbn [map]; [reflexivity|]. rewrite IH. f_equal.
    clear -D Ho. revert o Ho. induction D as [|x x' X X' [_ E] D IH]; intros [|o] Ho; cbn in Ho |- *; auto; try lia. apply IH. lia. }
  clear -G LX. revert X' LX G. induction X as [|x X IH]; intros [|x' X'] LX G; try discriminate; auto. cbn [map]. f_equal.
  - f_equal. apply (G 0%nat). cbn; lia.
  - apply IH; [cbn in LX; lia|]. intros o Ho. apply (G (S o)). cbn; lia.
Qed.
Lemma p_route_clean : forall ts ts' (o : clean_opts R) X' oob draws, Forall wf_tree ts -> Forall wf_tree ts' -> Forall2 same_but_questions ts ts' ->
  same_leaves ts ts' (k_X o) X' ->
  rrel same_clean (smooth_clean (Forest Reg ts) o oob draws) (smooth_clean (Forest Reg ts') (clean_with_X o X') oob draws).
Proof.
  intros ts ts' o X' oob draws W W' F SL. pose proof (routed_F2 ts ts' (k_X o) X' W W' F SL) as RF. destruct SL as [LX _].
  unfold smooth_clean. replace (clean_matrices (clean_with_X o X') ts') with (clean_matrices o ts).
  2: { unfold clean_matrices. cbn [clean_with_X k_dist k_style]. destruct (k_dist o); symmetry; [apply forest_asks|apply forest_imp_asks]; eapply routed_asks; eauto. }
  destruct (clean_matrices o ts) as [[[G E] Ti]|]; cbn [bind]; [|reflexivity].
  change (k_X (clean_with_X o X')) with X'. rewrite (oob_info_routed ts ts' oob (k_X o) X' LX RF). rewrite LX.
  destruct (generate_oob_info ts oob (k_X o)) as [[idx w]|]; cbn [bind]; [|reflexivity].
  cbn zeta. unfold clean_start. cbn [clean_with_X k_y k_no_constraint k_sanity k_t_fix k_all_obs k_use_full k_n_obs k_lamb_draws k_adam].
  match goal with |- context [bind (if k_sanity o then ?A else ?B) _] => destruct (if k_sanity o then A else B) as [[lamb c]|]; cbn [bind]; [|reflexivity] end.
  eapply rrel_bind; [apply write_forest_asks; eapply routed_asks; eauto|].
  intros a b Hab. cbn. split; [apply F2_asks_sbq; auto|]. auto.
Qed.

(** *** smooth_all *)
Lemma process_routed : forall t t' eps X X' y, asks t t' -> Forall2 (drops t t') X X' ->
  process_tuning_leaf_attributes_tree t' eps X' y = process_tuning_leaf_attributes_tree t eps X y.
Proof.
  intros t t' eps X X' y A F. unfold process_tuning_leaf_attributes_tree. rewrite (obs_V_routed t t' X X' F), (Forall2_len _ _ _ F).
  destruct A as (f&th&->). reflexivity.
Qed.
Definition both_leaves ts ts' : option (mat R) -> option (mat R) -> Prop := both (same_leaves ts ts').
Lemma F2_and : forall {A B} (P Q : A -> B -> Prop) l l', Forall2 P l l' -> Forall2 Q l l' -> Forall2 (fun x y => P x y /\ Q x y) l l'.
Proof. intros A B P Q l l' F. induction F; intros G; inversion G; subst; constructor; auto. Qed.
Lemma p_route_all : forall fuel feps solve check ts ts' (o : all_opts R) X' Xt' oob boot, Forall wf_tree ts -> Forall wf_tree ts' ->
  Forall2 same_but_questions ts ts' -> same_leaves ts ts' (a_X o) X' -> both_leaves ts ts' (a_X_tune o) Xt' ->
  rrel same_all (smooth_all_with fuel feps solve check o oob boot ts) (smooth_all_with fuel feps solve check (all_with_X o X' Xt') oob boot ts').
Proof.
  intros fuel feps solve check ts ts' o X' Xt' oob boot W W' F SL BL.
  pose proof (routed_F2 ts ts' (a_X o) X' W W' F SL) as RF. destruct SL as [LX _].
  assert (BF : Forall2 (fun t t' => match a_X_tune o, Xt' with Some X, Some X' => Forall2 (drops t t') X X' | None, None => True | _, _ => False end) ts ts').
  { destruct (a_X_tune o) as [X|], Xt' as [X1|]; cbn in BL; try contradiction.
    - pose proof (routed_F2 ts ts' X X1 W W' F BL) as G. clear -G. induction G; constructor; auto. apply H.
    - clear -F. induction F; constructor; auto. }
  unfold smooth_all_with. cbn [all_with_X a_X a_y]. rewrite LX. destruct (negb _); [reflexivity|].
  replace (all_leaf_targets (all_with_X o X' Xt') oob boot ts') with (all_leaf_targets o oob boot ts).
  2: { apply rrel_eq. unfold all_leaf_targets. eapply foldM_rrel; [|apply Forall2_combine_seq; exact (F2_and _ _ _ _ RF BF)|reflexivity].
    intros acc acc' [i t] [i' t'] <- [Ei [[A D] B]]. cbn [fst snd] in *. subst i'.
    eapply rrel_bind with (Rl := fun p p' => Forall2 (drops t t') (fst p) (fst p') /\ snd p' = snd p).
    - unfold all_tuning. cbn [all_with_X a_resample a_X a_y a_X_tune a_y_tune]. 
      assert (TK : forall idx, rrel (fun p p' : mat R * list R => Forall2 (drops t t') (fst p) (fst p') /\ snd p' = snd p)
        (do Xt <- take_rows (a_X o) idx; do yt <- take_rows (a_y o) idx; Ok (Xt, yt)) (do Xt <- take_rows X' idx; do yt <- take_rows (a_y o) idx; Ok (Xt, yt))).
      { intros idx. eapply rrel_bind; [apply drops_rows; exact D|]. intros a b Hab. destruct (take_rows (a_y o) idx); cbn; auto. }
      destruct (a_resample o); [apply TK|].
      destruct (a_X_tune o) as [X|], Xt' as [X1|]; try contradiction; [destruct (a_y_tune o)|]; cbn; auto.
    - intros [a ya] [b yb] [Hab Hy]. cbn [fst snd] in *. subst yb. rewrite (process_routed t t' (- n1) a b ya A Hab). apply rrel_eq. reflexivity. }
  destruct (all_leaf_targets o oob boot ts) as [[w yl]|]; cbn [bind]; [|reflexivity].
  cbn [all_with_X a_parents_all]. rewrite (forest_asks Reg (a_parents_all o) Standard ts ts' (routed_asks _ _ _ _ RF)).
  destruct (create_Gamma_eta_forest Reg (a_parents_all o) Standard ts) as [[[G3 Et] Ti]|]; cbn [bind]; [|reflexivity].
  cbn zeta. destruct (negb (ratio_ok _ _)); [reflexivity|].
  rewrite (depth_asks ts ts' (routed_asks _ _ _ _ RF)). cbn [all_with_X a_no_constraint a_inner_assess a_sanity].
  match goal with |- context [bind (update_til_psd ?a ?b ?c) _] => destruct (update_til_psd a b c) as [G1|]; cbn [bind]; [|reflexivity] end.
  match goal with |- context [bind (retry ?a ?b ?c ?d ?e) _] => destruct (retry a b c d e) as [[G2 lamb]|]; cbn [bind]; [|reflexivity] end.
  match goal with |- context [bind (if ?a then ?b else ?c) _] => destruct (if a then b else c) as [skip|]; cbn [bind]; [|reflexivity] end.
  destruct (_ && _)%bool; [reflexivity|].
  eapply rrel_bind; [apply write_forest_asks; eapply routed_asks; eauto|].
  intros a b Hab. cbn. split; [apply F2_asks_sbq; auto|]. auto.
Qed.

(** *** smooth_pytorch *)
Lemma prep_routed : forall kd ts ts' X X' y s pa rd, length X' = length X -> Forall2 (routed X X') ts ts' ->
  pytorch_numpy_prep (Forest kd ts') (train_opts (Some X') (Some y) s pa) rd = pytorch_numpy_prep (Forest kd ts) (train_opts (Some X) (Some y) s pa) rd.
Proof.
  intros kd ts ts' X X' y s pa rd LX RF. unfold pytorch_numpy_prep.
  cbn [train_opts po_X_trained po_y_trained po_parents_all po_style isNone]. 
  change (prep_oob (train_opts (Some X') (Some y) s pa)) with (prep_oob (train_opts (Some X) (Some y) s pa)).
  cbn [po_resample po_train_only]. destruct (_ && _)%bool; [reflexivity|].
  rewrite (forest_more_asks kd pa s ts ts' (routed_asks _ _ _ _ RF)).
  destruct (create_Gamma_eta_forest_more kd pa s ts) as [[m ti]|]; cbn [bind]; [|reflexivity].
  replace (prep_targets kd (train_opts (Some X') (Some y) s pa) rd ts') with (prep_targets kd (train_opts (Some X) (Some y) s pa) rd ts); [reflexivity|].
  apply rrel_eq. unfold prep_targets. eapply foldM_rrel; [|apply Forall2_combine_seq; exact RF|reflexivity].
  intros acc acc' [i t] [i' t'] <- [Ei [A D]]. cbn [fst snd] in *. subst i'.
  eapply rrel_bind with (Rl := fun p p' => Forall2 (drops t t') (fst p) (fst p') /\ snd p' = snd p).
  - unfold prep_data. cbn [train_opts po_X_trained po_y_trained po_train_only po_resample orb]. rewrite !Bool.orb_true_r.
    eapply rrel_bind; [apply drops_rows; exact D|]. intros a b Hab. destruct (take_rows y (tr_train rd i)); cbn; auto.
  - intros [a ya] [b yb] [Hab Hy]. cbn [fst snd] in *. subst yb. rewrite (leaf_targets_routed _ t t' a b ya A Hab). apply rrel_eq. reflexivity.
Qed.
Lemma write_tree_asks : forall nc t t' flat, asks t t' -> rrel asks (write_tree nc t flat) (write_tree nc t' flat).
Proof.
  intros nc t t' flat A. unfold write_tree. assert (E : num_leaf t' = num_leaf t) by (destruct A as (f&th&->); reflexivity). rewrite E.
  destruct (negb _); [reflexivity|]. destruct (_ || _)%bool; [|reflexivity]. apply write_leaves_asks; auto.
Qed.
Lemma F2_upd : forall {A} (Rl : A -> A -> Prop) l l' i x y, Forall2 Rl l l' -> Rl x y -> Forall2 Rl (upd l i x) (upd l' i y).
Proof. intros A Rl l l' i x y F H. revert i. induction F; intros [|i]; cbn; constructor; auto. Qed.
Lemma F2_nth : forall {A} (Rl : A -> A -> Prop) l l' i, Forall2 Rl l l' -> match nth_error l i, nth_error l' i with Some a, Some b => Rl a b | None, None => True | _, _ => False end.
Proof. intros A Rl l l' i F. revert i. induction F; intros [|i]; cbn; auto. apply IHF. Qed.
Lemma update_routed : forall ex kd ts ts' m X X' y pa s rd, length X' = length X -> Forall2 (routed X X') ts ts' ->
  rrel (Forall2 asks) (update_rf ex (Forest kd ts) m (Some X) (Some y) pa s rd) (update_rf ex (Forest kd ts') m (Some X') (Some y) pa s rd).
Proof.
  intros ex kd ts ts' m X X' y pa s rd LX RF. unfold update_rf. rewrite (prep_routed kd ts ts' X X' y s pa rd LX RF).
  destruct (pytorch_numpy_prep _ _ _) as [p|]; cbn [bind]; [|reflexivity].
  destruct (forest_dataset _ _ _ _ _ _ _ _) as [d|]; cbn [bind]; [|reflexivity].
  eapply foldM_rrel with (Rl := Forall2 asks) (Sl := eq); [| |eapply routed_asks; eauto].
  - intros a b i i' Hab <-. destruct (forward ex m (getitem d i)) as [[[yt u] v]|]; cbn [bind]; [|reflexivity].
    pose proof (F2_nth asks a b i Hab) as N. destruct (nth_error a i) as [t|], (nth_error b i) as [t'|]; try contradiction; [|reflexivity].
    eapply rrel_bind; [apply write_tree_asks; exact N|]. intros t1 t2 H12. cbn. apply F2_upd; auto.
  - generalize (seq 0 (ds_num d)) as l. induction l; constructor; auto.
Qed.
Lemma p_route_torch : forall {St} ex (opt : St -> _ -> _ -> _) opt0 kd ts ts' (o : torch_opts (T := R)) X' rd draw, Forall wf_tree ts -> Forall wf_tree ts' ->
  Forall2 same_but_questions ts ts' -> same_leaves ts ts' (to_X_trained o) X' -> to_x_one o = false -> to_x_two o = false ->
  rrel same_torch (smooth_pytorch ex opt opt0 (Forest kd ts) o rd draw) (smooth_pytorch ex opt opt0 (Forest kd ts') (torch_with_X o X') rd draw).
Proof.
  intros St ex opt opt0 kd ts ts' o X' rd draw W W' F SL X1 X2. pose proof (routed_F2 ts ts' (to_X_trained o) X' W W' F SL) as RF. destruct SL as [LX _].
  unfold smooth_pytorch. cbn [torch_with_X to_X_trained to_y_trained to_style to_parents_all to_all_trees to_init to_sgd_max_num].
  rewrite (prep_routed kd ts ts' (to_X_trained o) X' _ _ _ _ LX RF).
  destruct (pytorch_numpy_prep _ _ _) as [p|]; cbn [bind]; [|reflexivity].
  unfold used_dicts. cbn [torch_with_X to_which_one to_which_two to_x_one to_x_two]. rewrite X1, X2. cbn [orb bind].
  destruct (forest_dataset (pr_y p) (pr_Gamma p) (pr_eta p) (pr_w p) (pr_t p) _ _ _) as [d|]; cbn [bind]; [|reflexivity].
  rewrite <- (Forall2_len _ _ _ RF).
  destruct (forest_dataset (pr_y p) (pr_Gamma p) (pr_eta p) (pr_w p) (map _ (pr_t p)) _ _ _) as [dall|]; cbn [bind]; [|reflexivity].
  destruct (softmax_tree_fit _ _ _) as [m0|]; cbn [bind]; [|reflexivity]. cbn zeta.
  match goal with |- context [bind (foldM ?f ?l ?s) _] => destruct (foldM f l s) as [st|]; cbn [bind]; [|reflexivity] end.
  destruct (ts_best st) as [b|]; [|reflexivity]. destruct (ts_min st) as [lm|]; [|reflexivity].
  eapply rrel_bind; [apply update_routed; eauto|]. intros a c Hac. cbn. repeat split; auto. apply F2_asks_sbq; auto.
Qed.

(** *** smooth *)
Lemma p_route_smooth : forall lg kd ts ts' (o : smooth_opts R) rd Xtr Xtu, Forall wf_tree ts -> Forall wf_tree ts' ->
  Forall2 same_but_questions ts ts' -> both_leaves ts ts' (o_X_trained o) Xtr -> both_leaves ts ts' (o_X_tune o) Xtu ->
  rrel same_smooth (smooth lg (Forest kd ts) o rd) (smooth lg (Forest kd ts') (with_X o Xtr Xtu) rd).
Proof.
  intros lg kd ts ts' o rd Xtr Xtu W W' F BR BT.
  assert (BF : forall a b, both_leaves ts ts' a b -> Forall2 (fun t t' => asks t t' /\ match a, b with Some X, Some X' => Forall2 (drops t t') X X' | None, None => True | _, _ => False end) ts ts').
  { intros a b BL. destruct a as [X|], b as [X1|]; cbn in BL; try contradiction.
    - exact (routed_F2 ts ts' X X1 W W' F BL).
    - clear -F. induction F; constructor; auto. split; auto. apply asks_sbq; auto. }
  eapply rrel_impl; [|apply smooth_same with (rho := asks) (rho' := asks)]; try reflexivity.
  - intros a b (H1&H2&H3&H4&H5&H6). rewrite map_sc1 in H6. repeat split; auto; apply F2_asks_sbq; auto.
  - unfold oob_logic. cbn [with_X o_X_tune o_y_tune o_resample]. destruct (o_X_tune o), Xtu; cbn in BT; try contradiction; reflexivity.
  - cbn [with_X o_X_trained]. destruct (o_X_trained o), Xtr; cbn in BR; try contradiction; reflexivity.
  - unfold forest_matrices. cbn [with_X o_dist o_style]. destruct (o_dist o); [apply forest_asks|apply forest_imp_asks]; apply asks_F2; auto.
  - symmetry. apply rrel_eq. unfold all_targets. eapply foldM_rrel; [|apply Forall2_combine_seq; exact (F2_and _ _ _ _ (BF _ _ BR) (BF _ _ BT))|reflexivity].
    intros [Y Wt] a' [i t] [i' t'] <- [Ei [[A D1] [_ D2]]]. cbn [fst snd] in *. subst i'. unfold add_targets. cbn [fst snd].
    eapply rrel_bind with (Rl := fun p p' => Forall2 (drops t t') (fst p) (fst p') /\ snd p' = snd p).
    + unfold tuning_data. replace (oob_logic (with_X o Xtr Xtu)) with (oob_logic o) by (unfold oob_logic; cbn [with_X o_X_tune o_y_tune o_resample]; destruct (o_X_tune o), Xtu; cbn in BT; try contradiction; reflexivity).
      cbn [with_X o_resample o_X_trained o_y_trained o_X_tune o_y_tune]. destruct (_ || _)%bool.
      * destruct (o_X_trained o) as [X|], Xtr as [X1|]; try contradiction; [|reflexivity]. destruct (o_y_trained o) as [y|]; [|reflexivity].
        eapply rrel_bind; [apply drops_rows; exact D1|]. intros a b Hab. destruct (take_rows y _); cbn; auto.
      * destruct (o_X_tune o) as [X|], Xtu as [X1|]; try contradiction; [|reflexivity]. destruct (o_y_tune o); cbn; auto.
    + intros [a ya] [b yb] [Hab Hy]. cbn [fst snd] in *. subst yb. rewrite (leaf_targets_routed _ t t' a b ya A Hab). apply rrel_eq. reflexivity.
  - apply asks_F2; auto.
  - intros t t' (f&th&->). reflexivity.
  - intros t t' Y s A. apply write_leaves_asks; auto.
Qed.

(** *** two changes of the questions *)
Lemma path_leaf_of : forall t t' x x', wf_tree t -> wf_tree t' -> asks t t' -> path_nodes (size t) t' x' 0 = path_nodes (size t) t x 0 -> forall i, leaf_of t x i -> leaf_of t' x' i.
Proof.
  intros t t' x x' W W' (f&th&->) E i [Hi Ri]. split; [exact Hi|]. rewrite leaf_id_quest.
  apply (path_reaches _ W' x' (leaf_id t i)). change (size (quest f th t)) with (size t). rewrite E. apply path_reaches; auto.
Qed.
Lemma wf_quest : forall t, wf_tree t -> forall f th, length f = size t -> length th = size t -> wf_tree (quest f th t).
Proof.
  intros t WF f th Lf Lt. pose proof (wf_len_feature t WF) as F0. pose proof (wf_len_thresh t WF) as T0. unfold wf_tree, wf_treeb in *.
  change (size (quest f th t)) with (size t). cbn [quest t_right t_feature t_thresh t_value t_weight t_imp].
  rewrite Lf, Lt. rewrite F0, T0 in WF. exact WF.
Qed.
Lemma p_rescaled_leaves : forall phi (ts : list (tree R)) X, (forall f a b, a < b -> phi f a < phi f b) -> Forall wf_tree ts ->
  (forall t x v, In t ts -> In x X -> (v < size t)%nat -> is_leafb t v = false -> (nth v (t_feature t) 0 < length x)%nat) ->
  Forall wf_tree (map (rescaled_tree phi) ts) /\ Forall2 same_but_questions ts (map (rescaled_tree phi) ts) /\
  same_leaves ts (map (rescaled_tree phi) ts) X (map (rescaled_obs phi) X).
Proof.
  intros phi ts X MONO W HF.
  assert (WR : forall t, wf_tree t -> wf_tree (rescaled_tree phi t)).
  { intros t WF. apply (wf_quest t WF (t_feature t) (map2 phi (t_feature t) (t_thresh t))); [apply wf_len_feature; auto|].
    rewrite map2_length, wf_len_feature, wf_len_thresh by auto. apply Nat.min_id. }
  split; [|split].
  - apply Forall_forall. intros t' H. apply in_map_iff in H. destruct H as (t&<-&Ht). apply WR. rewrite Forall_forall in W. auto.
  - clear. induction ts; constructor; auto. repeat split.
  - split; [apply map_length|]. intros q t t' o i Q Q' Ho. rewrite nth_error_map, Q in Q'. cbn in Q'. inversion Q'; subst t'.
    assert (Ht : In t ts) by (eapply nth_error_In; eauto). rewrite Forall_forall in W.
    rewrite nth_map_in with (d := []) by auto. apply path_leaf_of; auto.
    + eexists _, _. reflexivity.
    + apply path_rescaled; auto. { apply (wf_pos t (W t Ht)). } intros v Hv Lv. apply (HF t); auto. apply nth_In; auto.
Qed.
Lemma p_renamed_leaves : forall p pi (ts : list (tree R)) X X', Forall wf_tree ts ->
  (forall t v, In t ts -> (v < size t)%nat -> is_leafb t v = false -> (nth v (t_feature t) 0 < p)%nat) -> feature_rows p pi X X' ->
  Forall wf_tree (map (feature_tree pi) ts) /\ Forall2 same_but_questions ts (map (feature_tree pi) ts) /\
  same_leaves ts (map (feature_tree pi) ts) X X'.
Proof.
  intros p pi ts X X' W HF [LX FR].
  assert (WR : forall t : tree R, wf_tree t -> wf_tree (feature_tree pi t)).
  { intros t WF. apply (wf_quest t WF (map pi (t_feature t)) (t_thresh t)); [rewrite map_length; apply wf_len_feature; auto|apply wf_len_thresh; auto]. }
  split; [|split].
  - apply Forall_forall. intros t' H. apply in_map_iff in H. destruct H as (t&<-&Ht). apply WR. rewrite Forall_forall in W. auto.
  - clear. induction ts; constructor; auto. repeat split.
  - split; auto. intros q t t' o i Q Q' Ho. rewrite nth_error_map, Q in Q'. cbn in Q'. inversion Q'; subst t'.
    assert (Ht : In t ts) by (eapply nth_error_In; eauto). rewrite Forall_forall in W. apply path_leaf_of; auto.
    + eexists _, _. reflexivity.
    + apply path_renamed with (p := p); auto. { apply (wf_pos t (W t Ht)). } intros f Hf. apply FR; auto.
Qed.
Lemma p_route_all_call : forall fuel feps solve ns mr ts ts' (o : all_opts R) X' Xt' sa oob boot, Forall wf_tree ts -> Forall wf_tree ts' ->
  Forall2 same_but_questions ts ts' -> same_leaves ts ts' (a_X o) X' -> both (same_leaves ts ts') (a_X_tune o) Xt' ->
  rrel same_all (smooth_all_call fuel feps solve ns mr o sa oob boot ts) (smooth_all_call fuel feps solve ns mr (all_with_X o X' Xt') sa oob boot ts').
Proof.
  intros fuel feps solve ns mr ts ts' o X' Xt' sa oob boot W W' F SL BL. unfold smooth_all_call. cbn [all_with_X a_y a_X]. rewrite (proj1 SL).
  destruct (negb _); [reflexivity|]. destruct (read_sanity sa) as [[b tol]|]; cbn [bind]; [|reflexivity].
  apply (p_route_all fuel feps solve _ ts ts' (with_sanity b o) X' Xt' oob boot W W' F SL BL).
Qed.
