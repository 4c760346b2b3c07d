(** L_DRel: two runs of depth_tune. *)
From Verif Require Import Base TreeSpec Spec M_Tree M_Gamma M_Levels M_Smooth M_Depth SpecSmooth SpecDepth SpecRel SpecRel2 SpecDRel.
From Verif Require Import L_Base L_Tree L_TreeModel L_TreeModel2 L_Gamma L_Gamma2 L_Dist L_Prune4 L_Depth L_Depth2 L_Rel3 L_Rel7 L_Rel14.
From Coq Require Import Reals Lra Permutation.
Local Open Scope R_scope.

Definition items {A} (l : list A) := combine (seq 0 (length l)) l.
Definition cutb (best : nat) (t : tree R) : tree R := cutk t (Nat.min best (max_depth_of t - 1)).
(** tunable, in terms of the model *)
Definition tun (kd : kind) (ts : list (tree R)) (o : depth_opts R) (rd : randomness) : Prop :=
  ts <> [] /\ Forall wf_tree ts /\
  (forall t, In t ts -> (1 < size t)%nat /\ forall v, (v < size t)%nat -> nth v (t_value t) [] <> []) /\
  forall q, (q < length ts)%nat -> exists X y, depth_data o rd q = Ok (X, y) /\ X <> [] /\ length y = length X.
Lemma tun_iff : forall kd ts o rd, tunable kd ts o rd <-> tun kd ts o rd.
Proof.
  intros. unfold tunable, tun. split; intros (A&B&C&D); do 3 (split; [assumption|]); intros q Hq; destruct (D q Hq) as (X&y&E&F); exists X, y; split; auto; apply rows_data; auto.
Qed.
Lemma tun_check : forall kd ts o rd, tun kd ts o rd -> ((d_oob o || d_resample o) && (isNone (d_X_trained o) || isNone (d_y_trained o)))%bool = false.
Proof.
  intros kd ts o rd (NE&_&_&DR). destruct (DR 0%nat) as (X&y&D&_); [destruct ts; [congruence|cbn; lia]|].
  apply rows_data in D. eapply rows_checks; eauto.
Qed.
Lemma items_in : forall {A} (l : list A) q t, In (q, t) (items l) -> nth_error l q = Some t.
Proof.
  intros A l q t H. unfold items in H. destruct (In_nth _ _ (O, t) H) as (j&Hj&Ej). rewrite combine_length, seq_length, Nat.min_id in Hj.
  rewrite combine_nth in Ej by apply seq_length. rewrite seq_nth in Ej by auto. inversion Ej; subst. cbn [Nat.add].
  rewrite H2. rewrite (nth_error_nth' l t Hj). congruence.
Qed.
Lemma depth_formula : forall kd ts o rd, tun kd ts o rd ->
  exists fl best, depth_tune (Forest kd ts) o rd = Ok (map (cutb best) ts, fl) /\ argmin fl = Ok best /\ length fl = snd (calc_depth_for_forest ts) /\
    forall k, (k < snd (calc_depth_for_forest ts))%nat -> nth k fl 0 = nsum (map (one_loss kd o rd k) (items ts)).
Proof.
  intros kd ts o rd TU. pose proof (tun_check kd ts o rd TU) as CH. destruct TU as (NE&W&ST&DR). set (M := snd (calc_depth_for_forest ts)).
  assert (FW : forall t, In t ts -> wf_tree t) by (rewrite Forall_forall in W; auto).
  assert (MD : forall t, In t ts -> (max_depth_of t <= M)%nat).
  { intros t I. destruct (proj2 (tree_depth_iff t (FW t I) _) eq_refl) as [_ (t'&v&[<-|[]]&D)].
    apply (calc_depth_upper ts W t v _ I D). }
  destruct (trees_ok kd o rd M (items ts) (repeat 0 M) None) as (fl&i&E&L&V).
  { intros q t I. apply items_in in I. pose proof (nth_error_In _ _ I) as IT. split; [auto|]. split; [apply ST; auto|].
    split; [apply ST; auto|]. split; [auto|]. apply DR. apply nth_error_Some; congruence. }
  { apply repeat_length. }
  assert (MP : (0 < M)%nat).
  { clearbody M. destruct ts as [|t0 r]; [congruence|]. eapply Nat.lt_le_trans; [|apply (MD t0 (or_introl eq_refl))].
    apply depth_pos; [apply FW|apply ST]; left; auto. }
  destruct (argmin_spec fl) as (best&B1&_); [intros ->; cbn [length] in L; lia|].
  assert (T1 : mapM (truncate_tree best) ts = Ok (map (cutb best) ts)).
  { clear -ST FW. induction ts as [|t ts IH]; cbn [mapM map]; auto. 
    assert (ET : truncate_tree best t = Ok (cutb best t)).
    { unfold truncate_tree, cutb, cutk. pose proof (lpv_length t) as LP. pose proof (depth_pos t (FW t (or_introl eq_refl)) (proj1 (ST t (or_introl eq_refl)))).
      destruct (leaf_predicted_values t) eqn:EL; [cbn in LP; lia|]. rewrite <- EL in *. rewrite LP, Nat.min_comm. reflexivity. }
    rewrite ET. cbn [bind]. rewrite IH; auto; [intros; apply ST; right; auto|intros; apply FW; right; auto]. }
  exists fl, best. split; [|split; [|split]]; auto.
  - unfold depth_tune. rewrite CH. fold M. fold (items ts). change (@n0 R _) with 0. rewrite E. cbn [bind]. rewrite B1. cbn [bind]. rewrite T1. reflexivity.
  - intros k Hk. rewrite (V k Hk), nth_repeat_lt by auto. lra.
Qed.
Lemma argmin_sc : forall a (l : list R), 0 < a -> argmin (map (Rmult a) l) = argmin l.
Proof.
  intros a [|x r] Ha; [reflexivity|]. cbn [map argmin]. f_equal. rewrite map_length.
  assert (G : forall r s m b, fold_left (fun '(m, b) '(y, k) => if nltb y m then (y, k) else (m, b)) (combine (map (Rmult a) r) (seq s (length r))) (a * m, b)
    = let '(m', b') := fold_left (fun '(m, b) '(y, k) => if nltb y m then (y, k) else (m, b)) (combine r (seq s (length r))) (m, b) in (a * m', b') :> R * nat).
  { clear -Ha. induction r as [|y r IH]; intros s m b; [reflexivity|]. cbn [map length seq combine fold_left].
    change (@nltb R _ (a * y) (a * m)) with (Rltb (a * y) (a * m)). change (@nltb R _ y m) with (Rltb y m).
    replace (Rltb (a * y) (a * m)) with (Rltb y m).
    - destruct (Rltb y m); apply IH.
    - destruct (Rltb_spec y m) as [H|H]; symmetry; [apply Rltb_true|apply Rltb_false]; nra. }
  rewrite G. destruct (fold_left _ (combine r (seq 1 (length r))) (x, 0%nat)). reflexivity.
Qed.
Lemma depth_move : forall kd ts ts' o o' rd rd' a, 0 < a -> tun kd ts o rd -> tun kd ts' o' rd' ->
  snd (calc_depth_for_forest ts') = snd (calc_depth_for_forest ts) ->
  (forall k, nsum (map (one_loss kd o' rd' k) (items ts')) = a * nsum (map (one_loss kd o rd k) (items ts))) ->
  exists fl best, depth_tune (Forest kd ts) o rd = Ok (map (cutb best) ts, fl) /\ depth_tune (Forest kd ts') o' rd' = Ok (map (cutb best) ts', map (Rmult a) fl).
Proof.
  intros kd ts ts' o o' rd rd' a Ha TU TU' EM EL. destruct (depth_formula kd ts o rd TU) as (fl&best&E1&E2&E3&E4).
  destruct (depth_formula kd ts' o' rd' TU') as (fl'&best'&F1&F2&F3&F4). exists fl, best. split; auto.
  assert (EF : fl' = map (Rmult a) fl).
  { apply nth_ext with (d := 0) (d' := 0); [rewrite map_length; congruence|]. intros k Hk. rewrite nth_map_in with (d := 0) by congruence.
    rewrite F4, E4 by congruence. apply EL. }
  subst fl'. rewrite argmin_sc in F2 by auto. assert (best' = best) by congruence. subst. exact F1.
Qed.
Lemma items_map : forall {A B} (f : A -> B) (l : list A), items (map f l) = map (fun it => (fst it, f (snd it))) (items l).
Proof.
  intros. unfold items. rewrite map_length. generalize 0%nat as s. induction l; intros s; cbn; auto. f_equal. auto.
Qed.
Lemma nsum_scal : forall {A} (f f' : A -> R) a l, (forall x, In x l -> f' x = a * f x) -> nsum (map f' l) = a * nsum (map f l).
Proof.
  intros A f f' a l H. induction l as [|x l IH]; cbn [map]; [rewrite nsum_nil; rn; ring|]. rewrite !nsum_cons, IH, H by (cbn; auto; intros; apply H; right; auto). rn. ring.
Qed.

(** *** trees mapped one by one *)
Section Mapped.
Variables (kd : kind) (phi : tree R -> tree R) (a : R) (o o' : depth_opts R) (rd rd' : randomness) (ts : list (tree R)).
Hypothesis POS : 0 < a.
Hypothesis TU : tun kd ts o rd.
Hypothesis SH : forall t, In t ts -> t_left (phi t) = t_left t /\ t_right (phi t) = t_right t.
Hypothesis WP : forall t, In t ts -> wf_tree (phi t) /\ forall v, (v < size t)%nat -> nth v (t_value (phi t)) [] <> [].
Hypothesis CU : forall t k, In t ts -> (k < max_depth_of t)%nat -> cutk (phi t) k = phi (cutk t k).
Hypothesis DA : forall q X y, (q < length ts)%nat -> depth_data o rd q = Ok (X, y) -> exists X' y', depth_data o' rd' q = Ok (X', y') /\ X' <> [] /\ length y' = length X' /\
  forall t k, In t ts -> (k < max_depth_of t)%nat -> data_loss kd (phi (cutk t k)) X' y' = rmap (Rmult a) (data_loss kd (cutk t k) X y).
Lemma depth_map : forall t, In t ts -> max_depth_of (phi t) = max_depth_of t.
Proof using SH.
  intros t Ht. destruct (SH t Ht) as [S1 S2]. unfold max_depth_of, depth_per_node, depth_body, size, lc, rc. rewrite S1, S2. reflexivity.
Qed.
Lemma depth_mapped : depth_tune (Forest kd (map phi ts)) o' rd' = rmap (d_map phi (Rmult a)) (depth_tune (Forest kd ts) o rd).
Proof using All.
  pose proof TU as TU0. destruct TU0 as (NE&W&ST&DR). rewrite Forall_forall in W.
  assert (DP : forall t, In t ts -> (0 < max_depth_of t)%nat) by (intros t Ht; apply depth_pos; [apply W|apply ST]; auto).
  assert (TU' : tun kd (map phi ts) o' rd').
  { split; [destruct ts; [congruence|discriminate]|]. split; [rewrite Forall_map, Forall_forall; intros; apply WP; auto|]. split.
    - intros t Ht. apply in_map_iff in Ht. destruct Ht as (u&<-&Hu). destruct (SH u Hu) as [S1 _]. unfold size in *. rewrite S1. split; [apply ST; auto|apply WP; auto].
    - intros q Hq. rewrite map_length in Hq. destruct (DR q Hq) as (X&y&D&_). destruct (DA q X y Hq D) as (X'&y'&D'&N1&N2&_). exists X', y'. auto. }
  destruct (depth_move kd ts (map phi ts) o o' rd rd' a POS TU TU') as (fl&best&E1&E2).
  - unfold calc_depth_for_forest. cbn [snd]. generalize 0%nat as m. clear -SH. revert SH. induction ts as [|t l IH]; intros SH m; cbn; auto.
    rewrite <- IH by (intros; apply SH; right; auto). f_equal. f_equal. 
    destruct (SH t (or_introl eq_refl)) as [S1 S2]. unfold depth_per_node, depth_body, size, lc, rc. rewrite S1, S2. reflexivity.
  - intros k. rewrite items_map, map_map. apply nsum_scal. intros [q t] Hit. apply items_in in Hit. cbn [fst snd].
    assert (Hq : (q < length ts)%nat) by (apply nth_error_Some; congruence). pose proof (nth_error_In _ _ Hit) as Ht.
    unfold one_loss. cbn [fst snd]. destruct (DR q Hq) as (X&y&D&N1&N2). destruct (DA q X y Hq D) as (X'&y'&D'&N1'&N2'&HL).
    rewrite D, D', depth_map by auto. unfold lossk. pose proof (DP t Ht). rewrite CU, HL by (auto; lia). rewrite data_loss_eq by auto. reflexivity.
  - rewrite E1, E2. cbn [rmap]. unfold d_map. cbn [fst snd]. f_equal. f_equal. rewrite !map_map. apply map_ext_in. intros t Ht. unfold cutb.
    rewrite depth_map by auto. apply CU; auto. pose proof (DP t Ht). lia.
Qed.
End Mapped.

(** *** repeated and reordered tuning data *)
Lemma data_loss_pairs : forall kd (t : tree R) X y, X <> [] -> length y = length X ->
  data_loss kd t X y = Ok (nsum (map (fun p => ob_loss kd (snd p) (predict kd t (fst p))) (combine X y))).
Proof.
  intros kd t X y NE L. unfold data_loss. destruct X as [|x0 X0] eqn:EX; [congruence|]. rewrite <- EX in *. rewrite L, Nat.eqb_refl. cbn [negb]. f_equal. f_equal.
  clear NE EX. revert y L. induction X as [|x X IH]; intros [|y ys] L; try discriminate; cbn [map2 combine map]; auto. rewrite IH by (cbn in L; lia). destruct kd; reflexivity.
Qed.
Lemma data_loss_times : forall kd (t : tree R) m X y X' y', (0 < m)%nat -> X <> [] -> length y = length X -> length y' = length X' -> times m (combine X y) (combine X' y') ->
  X' <> [] /\ data_loss kd t X' y' = rmap (Rmult (INR m)) (data_loss kd t X y).
Proof.
  intros kd t m X y X' y' Hm NE L L' PM. unfold times in PM.
  assert (NE' : X' <> []).
  { intros ->. destruct X as [|x X]; [congruence|]. destruct y as [|y0 y]; [discriminate|]. destruct m; [lia|]. cbn in PM. apply Permutation_nil in PM. discriminate. }
  split; auto. rewrite !data_loss_pairs by auto. cbn [rmap]. f_equal.
  rewrite (nsum_perm _ _ (Permutation_map _ PM)). apply nsum_times.
Qed.
Lemma map_id_d : forall (g : R -> R) r, d_map (fun t => t) g r = (fst r, map g (snd r)).
Proof. intros. unfold d_map. rewrite map_id. reflexivity. Qed.
Lemma p_C114_tune : forall kd ts (o : depth_opts R) rd m X y X' y', (0 < m)%nat -> d_resample o = false -> tunable kd ts (d_with o X y) rd ->
  length y' = length X' -> times m (combine X y) (combine X' y') ->
  depth_tune (Forest kd ts) (d_with o X' y') rd = rmap (d_map (fun t => t) (Rmult (INR m))) (depth_tune (Forest kd ts) (d_with o X y) rd).
Proof.
  intros kd ts o rd m X y X' y' Hm RS TU L' PM. apply tun_iff in TU. pose proof TU as TU0. destruct TU0 as (NE&W&ST&DR). rewrite Forall_forall in W.
  assert (NX : X <> [] /\ length y = length X).
  { destruct (DR 0%nat) as (X0&y0&D&N1&N2); [destruct ts; [congruence|cbn; lia]|]. unfold depth_data, d_oob in D. cbn in D. rewrite RS in D. cbn in D. inversion D; subst. auto. }
  destruct NX as [NX LY].
  rewrite <- (map_id ts) at 1. apply depth_mapped; auto.
  - apply lt_0_INR; auto.
  - intros t Ht. split; [auto|apply ST; auto].
  - intros q X0 y0 Hq D. unfold depth_data, d_oob in D |- *. cbn in D |- *. rewrite RS in *. cbn in D |- *. inversion D; subst X0 y0.
    exists X', y'. split; auto. split; [apply (data_loss_times kd (mkTree [] [] [] [] [] [] []) m X y X' y'); auto|]. split; auto. intros. apply data_loss_times; auto.
Qed.
Lemma p_C114_sample : forall kd ts (o : depth_opts R) rd rd' m, (0 < m)%nat -> (d_oob o || d_resample o)%bool = true -> tunable kd ts o rd ->
  (forall q, times m (r_oob rd q) (r_oob rd' q)) -> (forall q, times m (r_boot rd q) (r_boot rd' q)) ->
  depth_tune (Forest kd ts) o rd' = rmap (d_map (fun t => t) (Rmult (INR m))) (depth_tune (Forest kd ts) o rd).
Proof.
  intros kd ts o rd rd' m Hm TR TU PO PB. apply tun_iff in TU. pose proof TU as TU0. destruct TU0 as (NE&W&ST&DR). rewrite Forall_forall in W.
  rewrite <- (map_id ts) at 1. apply depth_mapped; auto.
  - apply lt_0_INR; auto.
  - intros t Ht. split; [auto|apply ST; auto].
  - intros q X0 y0 Hq D. destruct (DR q Hq) as (X1&y1&D1&N1&N2). rewrite D in D1. inversion D1; subst X1 y1. clear D1.
    unfold depth_data in D |- *. rewrite TR in *. destruct (d_X_trained o) as [X|]; [|discriminate]. destruct (d_y_trained o) as [y|]; [|discriminate].
    assert (PM : times m (if d_oob o then r_oob rd q else r_boot rd q) (if d_oob o then r_oob rd' q else r_boot rd' q)) by (destruct (d_oob o); auto).
    set (idx := if d_oob o then r_oob rd q else r_boot rd q) in *. set (idx' := if d_oob o then r_oob rd' q else r_boot rd' q) in *. clearbody idx idx'.
    assert (TK : forall {A} (d : A) l r, take_rows l idx = Ok r -> r = map (fun i => nth i l d) idx /\ take_rows l idx' = Ok (map (fun i => nth i l d) idx')).
    { intros A d l r E. destruct (take_rows_spec d l idx) as [[F F1]|[_ F1]]; [|congruence]. split; [congruence|].
      destruct (take_rows_spec d l idx') as [[_ F2]|[F2 _]]; auto. exfalso. apply Exists_exists in F2. destruct F2 as (i&Hi&B).
      apply (Permutation_in _ PM) in Hi. apply in_times in Hi; auto. rewrite Forall_forall in F. specialize (F i Hi). lia. }
    destruct (take_rows X idx) as [Xt|] eqn:EX; [|discriminate]. cbn [bind] in D. destruct (take_rows y idx) as [yt|] eqn:EY; [|discriminate]. cbn [bind] in D. inversion D; subst X0 y0. clear D.
    apply (TK _ []) in EX. apply (TK _ 0) in EY. destruct EX as [EX1 EX2], EY as [EY1 EY2]. rewrite EX2, EY2. cbn [bind]. eexists. eexists. split; [reflexivity|].
    assert (PP : times m (combine Xt yt) (combine (map (fun i => nth i X []) idx') (map (fun i => nth i y 0) idx'))).
    { assert (CM : forall l : list nat, combine (map (fun i => nth i X []) l) (map (fun i => nth i y 0) l) = map (fun i => (nth i X [], nth i y 0)) l)
        by (induction l; cbn; auto; f_equal; auto).
      subst Xt yt. rewrite !CM. unfold times. rewrite <- map_times. apply Permutation_map. exact PM. }
    assert (LL : length (map (fun i => nth i y 0) idx') = length (map (fun i => nth i X []) idx')) by (rewrite !map_length; auto).
    destruct (data_loss_times kd (mkTree [] [] [] [] [] [] []) m Xt yt _ _ Hm N1 N2 LL PP) as [NE' _].
    split; [exact NE'|]. split; auto. intros. apply data_loss_times; auto.
Qed.

(** *** units and origin of the response *)
Lemma depth_data_responses : forall f (o : depth_opts R) rd q X y, depth_data o rd q = Ok (X, y) -> depth_data (d_responses f o) rd q = Ok (X, map f y).
Proof.
  intros f o rd q X y H. unfold depth_data in *. 
  replace (d_oob (d_responses f o)) with (d_oob o) by (unfold d_oob; cbn; destruct (d_y_tune o); reflexivity).
  cbn [d_responses d_resample d_X_trained d_y_trained d_X_tune d_y_tune].
  destruct (_ || _)%bool.
  - destruct (d_X_trained o) as [X0|]; [|discriminate]. destruct (d_y_trained o) as [y0|]; [|discriminate]. cbn [option_map].
    set (idx := if d_oob o then r_oob rd q else r_boot rd q) in *. destruct (take_rows X0 idx) as [Xt|]; [|discriminate]. cbn [bind] in *.
    destruct (take_rows y0 idx) as [yt|] eqn:E; [|discriminate]. cbn [bind] in H. inversion H; subst.
    assert (E2 : take_rows (map f y0) idx = Ok (map f y)).
    { clear -E. unfold take_rows in *. revert y E. induction idx as [|i idx IH]; intros y E; cbn [mapM] in *; [inversion E; reflexivity|].
      rewrite nth_error_map. destruct (nth_error y0 i); [|discriminate]. cbn [option_map bind] in *. destruct (mapM _ idx) as [rr|]; [|discriminate]. rewrite (IH rr) by auto. inversion E. reflexivity. }
    rewrite E2. reflexivity.
  - destruct (d_X_tune o), (d_y_tune o); try discriminate. inversion H; subst. reflexivity.
Qed.
Definition mapv (f : R -> R) (im : list R -> list R) (t : tree R) : tree R :=
  mkTree (t_left t) (t_right t) (t_feature t) (t_thresh t) (map (map f) (t_value t)) (t_weight t) (im (t_imp t)).
Lemma mask_assign_map : forall {A B} (f : A -> B) m l p, map f (mask_assign m l p) = mask_assign m (map f l) (map f p).
Proof.
  induction m as [|b m IH]; intros [|x l] p; try (destruct b; reflexivity); try reflexivity. destruct b; [destruct p|]; cbn; rewrite ?IH; auto.
Qed.
Lemma lpv_mapv : forall f im t, leaf_predicted_values (mapv f im t) = map (map (map f)) (leaf_predicted_values t).
Proof.
  intros. unfold leaf_predicted_values. rewrite map_map. apply map_ext. intros k. rewrite map_map. apply map_ext. intros row.
  change (t_value (mapv f im t)) with (map (map f) (t_value t)). change (depth_per_node (mapv f im t)) with (depth_per_node t).
  set (j := lowest_viable _ _ _). change (@nil R) with (map f []) at 1. apply map_nth.
Qed.
Lemma cutk_mapv : forall f im t k, cutk (mapv f im t) k = mapv f im (cutk t k).
Proof.
  intros. unfold cutk. rewrite lpv_mapv. change (@nil (list R)) with (map (map f) []) at 1. rewrite map_nth.
  unfold set_leaves, set_values, mapv. cbn [t_left t_right t_feature t_thresh t_value t_weight t_imp]. rewrite mask_assign_map. reflexivity.
Qed.
Lemma wf_mapv : forall f im (t : tree R), length (im (t_imp t)) = length (t_imp t) -> wf_tree t -> wf_tree (mapv f im t).
Proof.
  intros f im t LI. unfold wf_tree, wf_treeb. change (size (mapv f im t)) with (size t). cbn [mapv t_left t_right t_feature t_thresh t_value t_weight t_imp].
  rewrite map_length, LI. auto.
Qed.
Lemma depth_values : forall f im a ts (o : depth_opts R) rd, (forall l, length (im l) = length l) -> 0 < a -> (forall y p, ob_loss Reg (f y) (f p) = a * ob_loss Reg y p) -> tunable Reg ts o rd ->
  depth_tune (Forest Reg (map (mapv f im) ts)) (d_responses f o) rd = rmap (d_map (mapv f im) (Rmult a)) (depth_tune (Forest Reg ts) o rd).
Proof.
  intros f im a ts o rd HI Ha HO TU. apply tun_iff in TU. pose proof TU as TU0. destruct TU0 as (NE&W&ST&DR). rewrite Forall_forall in W.
  apply depth_mapped; auto.
  - intros t Ht. split; [apply wf_mapv; auto|]. intros v Hv E. cbn [mapv t_value] in E. rewrite nth_map_in with (d := []) in E.
    + apply (proj2 (ST t Ht) v Hv). destruct (nth v (t_value t) []); [auto|discriminate].
    + rewrite (wf_len_value t (W t Ht)). auto.
  - intros. apply cutk_mapv.
  - intros q X y Hq D. destruct (DR q Hq) as (X1&y1&D1&N1&N2). rewrite D in D1. inversion D1; subst X1 y1. clear D1.
    exists X, (map f y). split; [apply depth_data_responses; auto|]. split; auto. split; [rewrite map_length; auto|].
    intros t k Ht Hk. rewrite !data_loss_pairs by (rewrite ?map_length; auto). cbn [rmap]. f_equal.
    assert (CB : combine X (map f y) = map (fun p => (fst p, f (snd p))) (combine X y)).
    { clear. revert y. induction X; destruct y; cbn; auto. f_equal. auto. }
    rewrite CB, map_map. apply nsum_scal. intros [x yi] Hx. cbn [fst snd]. rewrite <- HO. f_equal.
    unfold predict. rewrite (end_struct (cutk t k) (mapv f im (cutk t k))) by reflexivity. rewrite (end_struct t (cutk t k)) by reflexivity.
    destruct (end_node_spec t (W t Ht) x) as (A&B&C). destruct (cut_ex t (W t Ht) k _ C) as [b Cb]. destruct (cutk_cut t (W t Ht) k Hk) as [SB V].
    pose proof (V _ b C A Cb) as EV. cbn [mapv t_value]. 
    assert (LV : length (t_value (cutk t k)) = size t) by (rewrite <- (wf_len_value t (W t Ht)); apply SB).
    rewrite nth_map_in with (d := []) by (rewrite LV; auto). rewrite EV.
    assert (NB : nth b (t_value t) [] <> []) by (apply (proj2 (ST t Ht)); eapply cut_lt; eauto).
    destruct (nth b (t_value t) []); [congruence|reflexivity].
Qed.
Lemma p_C114_units : forall c ts (o : depth_opts R) rd, c <> 0 -> tunable Reg ts o rd ->
  depth_tune (Forest Reg (map (scale_tree c) ts)) (d_responses (Rmult c) o) rd = rmap (d_map (scale_tree c) (Rmult (c * c))) (depth_tune (Forest Reg ts) o rd).
Proof.
  intros c ts o rd Hc TU. apply (depth_values (Rmult c) (map (Rmult (c * c)))); auto.
  - intros. apply map_length.
  - apply Rsqr_pos_lt. auto.
  - intros. unfold ob_loss. ring.
Qed.
Lemma p_C114_origin : forall b ts (o : depth_opts R) rd, tunable Reg ts o rd ->
  depth_tune (Forest Reg (map (shifted b) ts)) (d_responses (Rplus b) o) rd = rmap (d_map (shifted b) (fun l => l)) (depth_tune (Forest Reg ts) o rd).
Proof.
  intros b ts o rd TU. transitivity (rmap (d_map (mapv (Rplus b) (fun l => l)) (Rmult 1)) (depth_tune (Forest Reg ts) o rd)).
  - apply (depth_values (Rplus b) (fun l => l)); auto; [lra|]. intros. unfold ob_loss. ring.
  - destruct (depth_tune (Forest Reg ts) o rd) as [[f l]|]; cbn [rmap]; auto. unfold d_map. cbn [fst snd]. f_equal. f_equal. apply map_ext. intros; ring.
Qed.

(** *** features on other scales *)
Section Features.
Variable phi : nat -> R -> R.
Hypothesis MONO : forall f a b, a < b -> phi f a < phi f b.
Lemma p_C114_features : forall kd ts (o : depth_opts R) rd p, d_features p o ts -> tunable kd ts o rd ->
  depth_tune (Forest kd (map (rescaled_tree phi) ts)) (d_rescaled phi o) rd = rmap (d_map (rescaled_tree phi) (fun l => l)) (depth_tune (Forest kd ts) o rd).
Proof using MONO.
  intros kd ts o rd p [HX HV] TU. apply tun_iff in TU. pose proof TU as TU0. destruct TU0 as (NE&W&ST&DR). rewrite Forall_forall in W.
  transitivity (rmap (d_map (rescaled_tree phi) (Rmult 1)) (depth_tune (Forest kd ts) o rd)).
  - apply depth_mapped; auto; [lra| |].
    + intros t Ht. split; [|exact (proj2 (ST t Ht))]. pose proof (W t Ht) as WF. pose proof (wf_len_feature t WF) as L1. pose proof (wf_len_thresh t WF) as L2.
      revert WF. unfold wf_tree, wf_treeb. change (size (rescaled_tree phi t)) with (size t). cbn [rescaled_tree t_left t_right t_feature t_thresh t_value t_weight t_imp].
      rewrite map2_length, L1, L2, Nat.min_id. auto.
    + intros q X y Hq D. destruct (DR q Hq) as (X1&y1&D1&N1&N2). rewrite D in D1. inversion D1; subst X1 y1. clear D1.
      assert (HD : depth_data (d_rescaled phi o) rd q = Ok (map (rescaled_obs phi) X, y) /\ forall x, In x X -> length x = p).
      { unfold depth_data in *. replace (d_oob (d_rescaled phi o)) with (d_oob o) by (unfold d_oob; cbn; destruct (d_X_tune o); reflexivity).
        cbn [d_rescaled d_resample d_X_trained d_y_trained d_X_tune d_y_tune]. destruct (_ || _)%bool.
        - destruct (d_X_trained o) as [X0|] eqn:EX0; [|discriminate]. destruct (d_y_trained o) as [y0|]; [|discriminate]. cbn [option_map].
          set (idx := if d_oob o then r_oob rd q else r_boot rd q) in *. destruct (take_rows X0 idx) as [Xt|] eqn:E; [|discriminate]. cbn [bind] in D.
          destruct (take_rows y0 idx) as [yt|]; [|discriminate]. cbn [bind] in D. inversion D; subst Xt yt. split.
          + assert (E2 : take_rows (map (rescaled_obs phi) X0) idx = Ok (map (rescaled_obs phi) X)).
            { clear -E. unfold take_rows in *. revert X E. induction idx as [|i idx IH]; intros X E; cbn [mapM] in *; [inversion E; reflexivity|].
              rewrite nth_error_map. destruct (nth_error X0 i); [|discriminate]. cbn [option_map bind] in *. destruct (mapM _ idx) as [rr|]; [|discriminate]. rewrite (IH rr) by auto. inversion E. reflexivity. }
            rewrite E2. reflexivity.
          + intros x Hx. apply (HX X0); auto. destruct (take_rows_spec [] X0 idx) as [[F F1]|[_ F1]]; [|congruence]. rewrite E in F1. inversion F1; subst X.
            apply in_map_iff in Hx. destruct Hx as (i&<-&Hi). rewrite Forall_forall in F. apply nth_In. auto.
        - destruct (d_X_tune o) as [X0|] eqn:EX0; [|discriminate]. destruct (d_y_tune o); [|discriminate]. inversion D; subst. split; [reflexivity|]. intros x Hx. apply (HX X); auto. }
      destruct HD as [HD HL]. eexists. eexists. split; [exact HD|]. split; [destruct X; [congruence|discriminate]|]. split; [rewrite map_length; auto|].
      intros t k Ht Hk. rewrite !data_loss_pairs by (try (destruct X; [congruence|discriminate]); rewrite ?map_length; auto). cbn [rmap]. f_equal. 
      assert (CB : combine (map (rescaled_obs phi) X) y = map (fun q => (rescaled_obs phi (fst q), snd q)) (combine X y)).
      { clear. revert y. induction X; destruct y; cbn; auto. f_equal. auto. }
      rewrite CB, map_map. apply nsum_scal. intros [x yi] Hx. cbn [fst snd]. apply in_combine_l in Hx. rewrite Rmult_1_l. f_equal.
      assert (EN : end_node (rescaled_tree phi (cutk t k)) (rescaled_obs phi x) = end_node (cutk t k) x).
      { rewrite (end_struct (rescaled_tree phi t) (rescaled_tree phi (cutk t k))), (end_struct t (cutk t k)) by reflexivity.
        unfold end_node. change (size (rescaled_tree phi t)) with (size t). rewrite (path_rescaled phi MONO t x (size t) 0 (W t Ht)).
        - reflexivity.
        - apply (wf_pos t (W t Ht)).
        - intros v Hv Lv. rewrite (HL x Hx). apply HV; auto. }
      unfold predict. rewrite EN. reflexivity.
  - destruct (depth_tune (Forest kd ts) o rd) as [[f l]|]; cbn [rmap]; auto. unfold d_map. cbn [fst snd]. f_equal. f_equal. apply map_ext. intros; ring.
Qed.
End Features.

(** *** trees in another order, or several times *)
Lemma p_C115 : forall kd ts ts' (o : depth_opts R) rd rd' m ix, tunable kd ts o rd -> regrouped m ix ts ts' rd rd' ->
  forall us fl, depth_tune (Forest kd ts) o rd = Ok (us, fl) ->
  exists us', depth_tune (Forest kd ts') o rd' = Ok (us', map (Rmult (INR m)) fl) /\ length us' = length ts' /\
    forall q, (q < length ts')%nat -> nth_error us' q = nth_error us (ix q).
Proof.
  intros kd ts ts' o rd rd' m ix TU (Hm&PM&HQ) us fl E. apply tun_iff in TU. pose proof TU as TU0. destruct TU0 as (NE&W&ST&DR). rewrite Forall_forall in W.
  assert (IX : forall q, (q < length ts')%nat -> (ix q < length ts)%nat).
  { intros q Hq. assert (I1 : In (ix q) (concat (repeat (seq 0 (length ts)) m))).
    { apply (Permutation_in _ PM). apply in_map. apply in_seq. lia. }
    apply in_times in I1; auto. apply in_seq in I1. lia. }
  assert (XI : forall i, (i < length ts)%nat -> exists q, (q < length ts')%nat /\ ix q = i).
  { intros i Hi. assert (I1 : In i (map ix (seq 0 (length ts')))).
    { apply (Permutation_in _ (Permutation_sym PM)). apply in_times; auto. apply in_seq. lia. }
    apply in_map_iff in I1. destruct I1 as (q&Eq&Hq). apply in_seq in Hq. exists q. split; [lia|auto]. }
  assert (IN : forall t, In t ts' <-> In t ts).
  { intros t. split; intros Ht.
    - apply In_nth_error in Ht. destruct Ht as (q&Eq). assert (Hq : (q < length ts')%nat) by (apply nth_error_Some; congruence).
      destruct (HQ q Hq) as (H1&_). rewrite Eq in H1. symmetry in H1. eapply nth_error_In; eauto.
    - apply In_nth_error in Ht. destruct Ht as (i&Ei). destruct (XI i) as (q&Hq&<-); [apply nth_error_Some; congruence|].
      destruct (HQ q Hq) as (H1&_). rewrite <- H1 in Ei. eapply nth_error_In; eauto. }
  assert (DD : forall q, (q < length ts')%nat -> depth_data o rd' q = depth_data o rd (ix q)).
  { intros q Hq. destruct (HQ q Hq) as (_&H2&H3). unfold depth_data. rewrite H2, H3. reflexivity. }
  assert (TU' : tun kd ts' o rd').
  { split; [intros ->; destruct ts as [|t ts]; [congruence|]; destruct (proj2 (IN t) (or_introl eq_refl))|]. split; [rewrite Forall_forall; intros t Ht; apply W, IN; auto|].
    split; [intros t Ht; apply ST, IN; auto|]. intros q Hq. rewrite DD by auto. apply DR. auto. }
  destruct (depth_move kd ts ts' o o rd rd' (INR m)) as (fl0&best&E1&E2); auto; [apply lt_0_INR; auto| | |].
  - unfold calc_depth_for_forest. cbn [snd].
    assert (FM : forall l a, fold_left (fun m (t : tree R) => Nat.max m (list_maxn (depth_per_node t))) l a = Nat.max a (list_maxn (map (fun t => list_maxn (depth_per_node t)) l))).
    { clear. induction l as [|t l IH]; intros a; cbn [fold_left map list_maxn fold_right]; [lia|]. rewrite IH. fold (list_maxn (map (fun t => list_maxn (depth_per_node t)) l)). lia. }
    rewrite !FM. f_equal.
    assert (LE : forall l l' : list (tree R), (forall t, In t l -> In t l') -> (list_maxn (map (fun t => list_maxn (depth_per_node t)) l) <= list_maxn (map (fun t => list_maxn (depth_per_node t)) l'))%nat).
    { clear. intros l l' H. induction l as [|t l IH]; [cbn; lia|]. cbn [map list_maxn fold_right]. fold (list_maxn (map (fun t => list_maxn (depth_per_node t)) l)).
      apply Nat.max_lub; [|apply IH; intros; apply H; right; auto]. specialize (H t (or_introl eq_refl)). clear -H. induction l' as [|u l' IH]; [contradiction|].
      cbn [map list_maxn fold_right]. destruct H as [->|H]; [lia|]. fold (list_maxn (map (fun t => list_maxn (depth_per_node t)) l')). specialize (IH H). lia. }
    apply Nat.le_antisymm; apply LE; intros t; apply IN.
  - intros k. pose (d := mkTree [] [] [] [] [] [] [] : tree R).
    unfold items. rewrite (combine_seq_map d ts), (combine_seq_map d ts'), !map_map.
    transitivity (nsum (map (fun q => one_loss kd o rd k (q, nth q ts d)) (map ix (seq 0 (length ts'))))).
    + rewrite map_map. f_equal. apply map_ext_in. intros q Hq. apply in_seq in Hq. unfold one_loss. cbn [fst snd]. rewrite DD by lia.
      replace (nth (ix q) ts d) with (nth q ts' d); auto. destruct (HQ q ltac:(lia)) as (H1&_).
      rewrite (nth_error_nth' ts' d) in H1 by lia. symmetry. apply nth_error_nth. auto.
    + rewrite (nsum_perm _ _ (Permutation_map _ PM)). apply nsum_times.
  - rewrite E in E1. inversion E1; subst us fl0. eexists. split; [exact E2|]. split; [apply map_length|].
    intros q Hq. rewrite !nth_error_map. destruct (HQ q Hq) as (->&_). reflexivity.
Qed.
