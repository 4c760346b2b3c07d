(** L_Rel11: order of the classes. *)
From Verif Require Import Base TreeSpec Spec M_Tree M_Gamma M_Levels M_Prox M_Grad M_Sgd M_Smooth SpecSmooth SpecTune SpecRel SpecRel2.
From Verif Require Import L_Base L_Tree L_TreeModel L_Dist L_Gamma L_Gamma2 L_Levels L_Grad L_Sgd L_Sgd2 L_Smooth L_Smooth2 L_Smooth3 L_Smooth4 L_Route L_Tune L_Rel L_Rel2 L_Rel3 L_Rel7 L_Rel9.
From Coq Require Import Reals Lra Permutation Sorted.
Local Open Scope R_scope.

Section Classes.
Variables (nc : nat) (tau : nat -> nat).
Hypothesis TAU : Permutation (map tau (seq 0 nc)) (seq 0 nc).
Definition slabs (G : list (mat R)) : list (mat R) := map (fun c => nth (tau c) G []) (seq 0 nc).
Definition on_slabs {A} (r : list (mat R) * A) : list (mat R) * A := (slabs (fst r), snd r).

Lemma class_row_nth : forall (r : list R) c, (c < nc)%nat -> nth c (class_row nc tau r) 0 = nth (tau c) r 0.
Proof using. intros r c Hc. unfold class_row. rewrite nth_map_seq by auto. reflexivity. Qed.
Lemma class_row_length : forall r : list R, length (class_row nc tau r) = nc.
Proof using. intros. unfold class_row. rewrite map_length, seq_length. reflexivity. Qed.
Lemma class_value_col : forall (t : tree R) c, (c < nc)%nat -> value_col c (class_tree nc tau t) = value_col (tau c) t.
Proof using. intros t c Hc. unfold value_col. cbn [class_tree t_value]. rewrite map_map. apply map_ext. intros r. apply class_row_nth; auto. Qed.
Lemma class_ny : forall t : tree R, ny_leaf_original (Class nc) (class_tree nc tau t) = map (fun c => leaf_select t (value_col (tau c) t)) (seq 0 nc).
Proof using.
  intros t. unfold ny_leaf_original. apply map_ext_in. intros c Hc. apply in_seq in Hc. rewrite class_value_col by lia. reflexivity.
Qed.
Lemma class_of_dist : forall pa (t : tree R) D lv, Gamma_eta_of_dist (Class nc) pa (class_tree nc tau t) D lv = rmap on_slabs (Gamma_eta_of_dist (Class nc) pa t D lv).
Proof using TAU.
  intros. unfold Gamma_eta_of_dist. destruct (zmaximum (concat D)); cbn [bind rmap]; auto. destruct (zminimum (concat D)); cbn [bind rmap]; auto.
  unfold on_slabs. cbn [fst snd]. f_equal. f_equal. rewrite class_ny, map_map. unfold slabs. apply map_ext_in. intros c Hc. apply in_seq in Hc.
  unfold ny_leaf_original. rewrite map_map, nth_map_seq by (apply (perm_bound _ _ TAU); lia). reflexivity.
Qed.
Lemma of_dist_slabs : forall pa (t : tree R) D lv g e, Gamma_eta_of_dist (Class nc) pa t D lv = Ok (g, e) -> length g = nc.
Proof using.
  intros pa t D lv g e H. unfold Gamma_eta_of_dist in H. apply bind_ok in H. destruct H as (x&_&H). apply bind_ok in H. destruct H as (y&_&H). inversion H; subst.
  unfold ny_leaf_original. rewrite !map_length, seq_length. reflexivity.
Qed.
Lemma slabs_map2 : forall (f : mat R -> mat R -> mat R) G g, length G = nc -> length g = nc -> map2 f (slabs G) (slabs g) = slabs (map2 f G g).
Proof using TAU.
  intros f G g LG Lg. unfold slabs. rewrite map2_map_l, map2_map_r.
  apply (nth_ext _ _ [] []).
  - rewrite map2_length, !map_length, !seq_length. lia.
  - intros c Hc. rewrite map2_length, !seq_length in Hc. assert (c < nc)%nat by lia.
    rewrite nth_map2 with (da := 0%nat) (db := 0%nat) by (rewrite ?seq_length; auto). rewrite !seq_nth by auto. rewrite nth_map_seq by auto. cbn [Nat.add].
    rewrite nth_map2 with (da := []) (db := []); [reflexivity|rewrite LG|rewrite Lg]; apply (perm_bound _ _ TAU); auto.
Qed.
Lemma class_stack : forall pa K f f' ts,
  (forall t, f' (class_tree nc tau t) = rmap on_slabs (f t)) -> (forall t g e, f t = Ok (g, e) -> length g = nc) ->
  stack_forest (Class nc) pa K f' (map (class_tree nc tau) ts) = rmap (fun r => (on_slabs (fst r), snd r)) (stack_forest (Class nc) pa K f ts).
Proof using TAU.
  intros pa K f f' ts H HL. apply rrel_map. unfold stack_forest.
  eapply rrel_impl with (Rl := fun a b => length (fst (fst a)) = nc /\ b = (on_slabs (fst a), snd a)); [intros a b (_&E); exact E|].
  eapply foldM_rrel; [|apply Forall2_combine_seq; apply Forall2_mapr|].
  - intros [[G E] Ti] a' [i t] [i' t'] (LG&->) [Ei Et]. cbn [fst snd] in *. subst i' t'. unfold add_tree. cbn [fst snd on_slabs].
    rewrite H. pose proof (HL t) as HLt. destruct (f t) as [[g e]|]; cbn [rmap bind fst snd on_slabs]; [|reflexivity].
    destruct (Nat.ltb K (ncols e)); [reflexivity|]. cbn [rrel fst snd]. specialize (HLt g e eq_refl).
    split; [rewrite map2_length; lia|]. unfold on_slabs. cbn [fst snd]. rewrite slabs_map2 by auto. reflexivity.
  - cbn [fst snd n_gamma]. split; [apply repeat_length|]. unfold on_slabs. cbn [fst snd]. f_equal. f_equal. unfold slabs.
    apply (nth_ext _ _ [] []); [rewrite map_length, seq_length, repeat_length; reflexivity|]. intros c Hc. rewrite repeat_length in Hc. rewrite nth_map_seq by auto.
    rewrite !nth_repeat. reflexivity.
Qed.
Lemma class_matrices : forall (o o' : smooth_opts R) ts, o_dist o' = o_dist o -> o_style o' = o_style o ->
  forest_matrices (Class nc) o' (map (class_tree nc tau) ts) = rmap (fun r => (on_slabs (fst r), snd r)) (forest_matrices (Class nc) o ts).
Proof using TAU.
  intros o o' ts D0 S0. unfold forest_matrices. rewrite D0, S0. destruct (o_dist o) as [pa|lv].
  - unfold create_Gamma_eta_forest.
    replace (calc_depth_for_forest (map (class_tree nc tau) ts)) with (calc_depth_for_forest ts).
    + apply class_stack.
      * intros t. unfold create_Gamma_eta_tree. change (depth_dist_leaves (o_style o) (class_tree nc tau t)) with (depth_dist_leaves (o_style o) t). apply class_of_dist.
      * intros t g e. unfold create_Gamma_eta_tree. apply of_dist_slabs.
    + unfold calc_depth_for_forest. rewrite map_map. f_equal. generalize 0%nat as m. clear. induction ts; intros m; cbn; auto.
  - unfold create_Gamma_eta_forest_imp.
    assert (EQ : forall n, quantiles_distance_trees (o_style o) (firstn 5 (map (class_tree nc tau) ts)) n = quantiles_distance_trees (o_style o) (firstn 5 ts) n).
    { intros n. unfold quantiles_distance_trees. f_equal. rewrite firstn_map. clear. induction (firstn 5 ts); cbn; auto. rewrite IHl. reflexivity. }
    assert (EA : match lv with LInt n => quantiles_distance_trees (o_style o) (firstn 5 (map (class_tree nc tau) ts)) n | LArr l => Ok l end
      = match lv with LInt n => quantiles_distance_trees (o_style o) (firstn 5 ts) n | LArr l => Ok l end) by (destruct lv; auto).
    rewrite EA. destruct (match lv with LInt n => quantiles_distance_trees (o_style o) (firstn 5 ts) n | LArr l => Ok l end) as [arr|]; cbn [bind rmap]; auto.
    destruct ts as [|t0 r]; [reflexivity|]. cbn [map].
    change (impurity_levels (o_style o) (LArr arr) (class_tree nc tau t0)) with (impurity_levels (o_style o) (LArr arr) t0).
    destruct (impurity_levels (o_style o) (LArr arr) t0) as [[D e]|]; cbn [bind rmap]; auto.
    apply (class_stack false e _ _ (t0 :: r)).
    + intros t. unfold create_Gamma_eta_tree_imp. change (impurity_levels (o_style o) (LArr arr) (class_tree nc tau t)) with (impurity_levels (o_style o) (LArr arr) t).
      destruct (impurity_levels (o_style o) (LArr arr) t) as [[D1 e1]|]; cbn [bind rmap]; auto. apply class_of_dist.
    + intros t g e1 H. unfold create_Gamma_eta_tree_imp in H. apply bind_ok in H. destruct H as ([D1 e2]&_&H). eapply of_dist_slabs; eauto.
Qed.

Lemma wf_class : forall t : tree R, wf_tree t -> wf_tree (class_tree nc tau t).
Proof using. intros t W. unfold wf_tree, wf_treeb in *. cbn [class_tree t_right t_feature t_thresh t_value t_weight t_imp]. rewrite map_length. exact W. Qed.
Lemma class_leaf_ny : forall (t : tree R) c i, wf_tree t -> (c < nc)%nat -> (i < n_leaves t)%nat -> leaf_ny (class_tree nc tau t) (Class nc) c i = leaf_ny t (Class nc) (tau c) i.
Proof using.
  intros t c i W Hc Hi. unfold leaf_ny, node_ny, node_v. cbn [class_tree t_value]. change (leaf_id (class_tree nc tau t) i) with (leaf_id t i).
  rewrite (nth_map_in _ _ _ [] []) by (rewrite (wf_len_value t W); apply leaf_id_lt; auto). apply class_row_nth; auto.
Qed.
Lemma offset_class : forall (ts : list (tree R)) q, offset (map (class_tree nc tau) ts) q = offset ts q.
Proof using.
  intros ts. induction ts as [|t ts IH]; intros [|q]; try reflexivity.
  change (offset (map (class_tree nc tau) (t :: ts)) (S q)) with (n_leaves t + offset (map (class_tree nc tau) ts) q)%nat. rewrite IH. reflexivity.
Qed.
Lemma class_mats : forall ts K sel G E Ti, Forall wf_tree ts -> mats (Class nc) ts K sel G E Ti -> mats (Class nc) (map (class_tree nc tau) ts) K sel (slabs G) E Ti.
Proof using TAU.
  intros ts K sel G E Ti WF (LG&LE&LT&LC&V). cbn [n_gamma] in *.
  assert (SL : forall c, (c < nc)%nat -> nth c (slabs G) [] = nth (tau c) G []) by (intros c Hc; unfold slabs; rewrite nth_map_seq by auto; reflexivity).
  split; [unfold slabs; rewrite map_length, seq_length; reflexivity|]. split; [rewrite map_length, offset_class; exact LE|]. split; [exact LT|].
  split; [intros c Hc; rewrite (SL c Hc); apply LC, (perm_bound _ _ TAU); auto|].
  intros q t' N i Hi. rewrite nth_error_map in N. destruct (nth_error ts q) as [t|] eqn:N0; [|discriminate]. cbn in N. inversion N; subst t'. clear N.
  change (n_leaves (class_tree nc tau t)) with (n_leaves t) in *. assert (W : wf_tree t) by (rewrite Forall_forall in WF; apply WF; eapply nth_error_In; eauto).
  destruct (V q t N0 i Hi) as (V1&V2&V3&V4&V5). rewrite !offset_class. split; [exact V1|]. split; [exact V2|]. split; [exact V3|]. split; [exact V4|].
  intros c Hc. rewrite (SL c Hc). destruct (V5 (tau c)) as (V6&V7); [apply (perm_bound _ _ TAU); auto|]. split; [exact V6|]. intros k Hk. rewrite V7 by auto.
  unfold sum_sel. apply sumto_ext. intros j Hj. rewrite class_leaf_ny by auto. reflexivity.
Qed.

(** *** the data *)
Lemma subset_full : forall (l cs : list R), StronglySorted Rlt cs -> incl l cs -> length (sorted_set l) = length cs -> sorted_set l = cs.
Proof using.
  intros l cs SC IN LN. apply sorted_unique; [apply sorted_set_sorted|auto|].
  assert (ND : NoDup (sorted_set l)). { clear. pose proof (sorted_set_sorted l) as H. induction H as [|x m H IH F]; constructor; auto. intros I. rewrite Forall_forall in F. apply F in I. lra. }
  assert (IC : incl (sorted_set l) cs) by (intros x Hx; apply IN, sorted_set_in, Hx).
  intros x. split; [apply IC|]. apply (NoDup_length_incl ND); auto. lia.
Qed.
Lemma sorted_nodup : forall l : list R, StronglySorted Rlt l -> NoDup l.
Proof using. intros l H. induction H as [|x m H IH F]; constructor; auto. intros IN. rewrite Forall_forall in F. apply F in IN. lra. Qed.
Lemma tau_surj : forall d, (d < nc)%nat -> exists c, (c < nc)%nat /\ tau c = d.
Proof using TAU.
  intros d Hd. assert (IN : In d (map tau (seq 0 nc))). { eapply Permutation_in; [apply Permutation_sym, TAU|]. apply in_seq. lia. }
  apply in_map_iff in IN. destruct IN as (c&E&Hc). apply in_seq in Hc. exists c. split; [lia|auto].
Qed.
Lemma dummies_relabelled : forall phi cs cs' (y : list R), relabels nc tau phi cs cs' -> incl y cs -> length (sorted_set y) = nc ->
  (forall r, In r (get_dummies (map phi y)) -> length r = nc) /\ length (get_dummies (map phi y)) = length (get_dummies y) /\
  forall ob c, (ob < length y)%nat -> (c < nc)%nat -> resp (get_dummies (map phi y)) ob c = resp (get_dummies y) ob (tau c).
Proof using TAU.
  intros phi cs cs' y (S1&S2&L1&L2&E) IN LN.
  assert (P1 : sorted_set y = cs) by (apply subset_full; auto; lia).
  assert (PV : forall v, In v y -> exists d, (d < nc)%nat /\ v = nth (tau d) cs 0 /\ phi v = nth d cs' 0).
  { intros v Hv. apply IN in Hv. apply (In_nth _ _ 0) in Hv. destruct Hv as (k&Hk&<-). rewrite L1 in Hk. destruct (tau_surj k Hk) as (d&Hd&<-). exists d. auto. }
  assert (P2 : sorted_set (map phi y) = cs').
  { apply sorted_unique; [apply sorted_set_sorted|auto|]. intros x. rewrite sorted_set_in, in_map_iff. split.
    - intros (v&<-&Hv). destruct (PV v Hv) as (d&Hd&_&->). apply nth_In. lia.
    - intros Hx. apply (In_nth _ _ 0) in Hx. destruct Hx as (d&Hd&<-). rewrite L2 in Hd. exists (nth (tau d) cs 0). split; [auto|].
      apply sorted_set_in. rewrite P1. apply nth_In. rewrite L1. apply (perm_bound _ _ TAU). auto. }
  unfold get_dummies. rewrite P1, P2. split.
  { intros r Hr. apply in_map_iff in Hr. destruct Hr as (v&<-&_). rewrite map_length. exact L2. }
  split; [rewrite !map_length; reflexivity|]. intros ob c Ho Hc. unfold resp.
  rewrite (nth_map_in _ _ _ 0 []) by (rewrite map_length; auto). rewrite (nth_map_in _ y _ 0 []) by auto. rewrite (nth_map_in _ y _ 0 0) by auto.
  pose proof (perm_bound _ _ TAU c Hc) as Ht. rewrite (nth_map_in _ cs' _ 0 0) by lia. rewrite (nth_map_in _ cs _ 0 0) by lia.
  destruct (PV _ (nth_In y 0 Ho)) as (d&Hd&E1&E2). rewrite E2, E1. pose proof (sorted_nodup _ S1) as N1. pose proof (sorted_nodup _ S2) as N2.
  change (@neqb R _ (nth d cs' 0) (nth c cs' 0)) with (Reqb (nth d cs' 0) (nth c cs' 0)). change (@neqb R _ (nth (tau d) cs 0) (nth (tau c) cs 0)) with (Reqb (nth (tau d) cs 0) (nth (tau c) cs 0)).
  pose proof (perm_bound _ _ TAU d Hd) as Hd'.
  unfold Reqb. destruct (Req_EM_T (nth d cs' 0) (nth c cs' 0)) as [A|A], (Req_EM_T (nth (tau d) cs 0) (nth (tau c) cs 0)) as [B|B]; auto; exfalso.
  - apply B. apply (proj1 (NoDup_nth cs' 0) N2) in A; [|lia|lia]. subst d. reflexivity.
  - apply A. apply (proj1 (NoDup_nth cs 0) N1) in B; [|lia|lia]. apply (perm_inj _ _ TAU) in B; auto. subst d. reflexivity.
Qed.
Lemma mapM_length : forall {A B} (f : A -> result B) l r, mapM f l = Ok r -> length r = length l.
Proof using. intros A B f l. induction l as [|a l IH]; intros r H; cbn in H; [inversion H; reflexivity|]. apply bind_ok in H. destruct H as (x&_&H). apply bind_ok in H. destruct H as (s&Hs&H). inversion H; subst. cbn. rewrite (IH s); auto. Qed.

Lemma class_leaf_targets : forall n (t : tree R) X Y, leaf_targets n (class_tree nc tau t) X Y = leaf_targets n t X Y.
Proof using.
  intros. unfold leaf_targets.
  assert (EV : obs_V_leaf (class_tree nc tau t) X = obs_V_leaf t X).
  { unfold obs_V_leaf. destruct X; auto. f_equal. apply map_ext. intros x0. unfold path_row.
    assert (EP : forall n v, path_nodes n (class_tree nc tau t) x0 v = path_nodes n t x0 v).
    { induction n0; intros; cbn [path_nodes]; [reflexivity|]. rewrite IHn0. reflexivity. }
    change (size (class_tree nc tau t)) with (size t). rewrite EP. reflexivity. }
  rewrite EV. reflexivity.
Qed.
Lemma class_targets : forall t X Y X' Y' yl w, wf_tree t -> X' = X -> length Y' = length Y -> (forall r, In r Y' -> length r = nc) ->
  (forall ob c, (ob < length X)%nat -> (c < nc)%nat -> resp Y' ob c = resp Y ob (tau c)) ->
  leaf_targets nc t X Y = Ok (yl, w) -> exists yl', leaf_targets nc (class_tree nc tau t) X' Y' = Ok (yl', w) /\
  forall i c, (i < n_leaves t)%nat -> (c < nc)%nat -> nth c (nth i yl' []) 0 = nth (tau c) (nth i yl []) 0.
Proof using TAU.
  intros t X Y X' Y' yl w W -> LY RY RE H. destruct (targets_spec nc t X Y yl w W H) as (NX&LXY&RL&SP).
  destruct (leaf_targets_total nc t X Y') as (yl'&w'&H'&_); auto; [lia|]. rewrite class_leaf_targets.
  destruct (targets_spec nc _ X Y' yl' w' W H') as (_&_&_&SP'). destruct (routed_ex t X W) as (lf&RT).
  destruct (SP' lf RT) as (LW'&_&V'). destruct (SP lf RT) as (LW&_&V).
  assert (w' = w). { apply (nth_ext _ _ 0 0); [lia|]. intros i Hi. destruct (V' i ltac:(lia)) as (->&_). destruct (V i ltac:(lia)) as (->&_). reflexivity. }
  subst w'. exists yl'. split; [exact H'|]. intros i c Hi Hc. destruct (V' i Hi) as (_&_&Z'). destruct (V i Hi) as (_&_&Z). rewrite (Z' c Hc), (Z (tau c) (perm_bound _ _ TAU c Hc)).
  f_equal. unfold sum_sel. apply sumto_ext. intros ob Ho. rewrite RE by auto. reflexivity.
Qed.

(** *** two places of a forest with the same row *)
Lemma place_unique : forall (ts : list (tree R)) q t i q' t' i', nth_error ts q = Some t -> (i < n_leaves t)%nat -> nth_error ts q' = Some t' -> (i' < n_leaves t')%nat ->
  (offset ts q + i = offset ts q' + i')%nat -> q = q' /\ i = i'.
Proof using.
  intros ts q t i q' t' i' N Hi N' Hi' E.
  pose proof (L_Gamma.offset_S ts q t N) as A. pose proof (L_Gamma.offset_S ts q' t' N') as B.
  destruct (lt_eq_lt_dec q q') as [[L|EQ]|L].
  - pose proof (offset_mono ts (S q) q' ltac:(lia)). lia.
  - subst q'. lia.
  - pose proof (offset_mono ts (S q') q ltac:(lia)). lia.
Qed.
Lemma class_tree_eq : forall t a b : tree R, wf_tree t -> same_but_leaf_values t a -> same_but_leaf_values (class_tree nc tau t) b ->
  (forall i, (i < n_leaves t)%nat -> length (nth (leaf_id t i) (t_value b) []) = nc /\ forall c, (c < nc)%nat -> node_v b c (leaf_id t i) = node_v a (tau c) (leaf_id t i)) ->
  b = class_tree nc tau a.
Proof using.
  intros t a b W (A1&A2&A3&A4&A5&A6&A7&A8) (B1&B2&B3&B4&B5&B6&B7&B8) V. destruct a as [al ar af ath av aw ai], b as [bl br bf bth bv bw bi].
  cbn [class_tree t_left t_right t_feature t_thresh t_value t_weight t_imp] in *. subst. unfold class_tree. cbn [t_left t_right t_feature t_thresh t_value t_weight t_imp]. f_equal.
  rewrite map_length in B7. pose proof (wf_len_value t W) as LV.
  apply (nth_ext _ _ [] []); [rewrite map_length; lia|]. intros v Hv. rewrite (nth_map_in _ _ _ [] []) by lia.
  destruct (is_leafb t v) eqn:L.
  - assert (HI : In v (leaf_ids t)) by (apply leaf_ids_spec; split; [lia|exact L]). apply (In_nth _ _ 0%nat) in HI. destruct HI as (i&Hi&EI).
    change (leaf_id t i = v) in EI. fold (n_leaves t) in Hi. destruct (V i Hi) as (L1&L2). rewrite EI in L1, L2.
    apply (nth_ext _ _ 0 0); [rewrite class_row_length; exact L1|]. intros c Hc. rewrite class_row_nth by lia. apply L2. lia.
  - rewrite A8 by auto. rewrite (B8 v) by exact L. rewrite (nth_map_in _ _ _ [] []) by lia. reflexivity.
Qed.

Lemma p_classes : forall lg (o : smooth_opts R) phi cs cs' ts rd out, Forall wf_tree ts -> ts <> [] ->
  relabels nc tau phi cs cs' -> (forall y, o_y_trained o = Some y -> incl y cs) ->
  smooth lg (Forest (Class nc) ts) o rd = Ok out ->
  smooth lg (Forest (Class nc) (map (class_tree nc tau) ts)) (class_opts nc tau phi o) rd = Ok (on_trees (class_tree nc tau) out).
Proof using TAU.
  intros lg o phi cs cs' ts rd out WF NE RL IY H. set (ts' := map (class_tree nc tau) ts). set (o' := class_opts nc tau phi o).
  assert (WF' : Forall wf_tree ts'). { apply Forall_forall. intros x Hx. apply in_map_iff in Hx. destruct Hx as (t&<-&Ht). apply wf_class. rewrite Forall_forall in WF; auto. }
  assert (FM : exists G E Ti, forest_matrices (Class nc) o ts = Ok (G, E, Ti)).
  { unfold smooth in H. destruct (_ && _)%bool; [discriminate|]. destruct (o_no_constraint o); [discriminate|].
    apply bind_ok in H. destruct H as ([[G E] Ti]&HF&_). eauto. }
  destruct FM as (G&E&Ti&FM). destruct (forest_matrices_mats (Class nc) o ts G E Ti WF NE FM) as (K&sel&KP&M&_).
  pose proof (class_mats ts K sel G E Ti WF M) as M'. fold ts' in M'.
  assert (FM' : forest_matrices (Class nc) o' ts' = Ok (slabs G, E, Ti)) by (unfold ts'; rewrite (class_matrices o o' ts) by reflexivity; rewrite FM; reflexivity).
  assert (LEN : length ts' = length ts) by apply map_length.
  assert (OL : oob_logic o' = oob_logic o). { unfold oob_logic, o', class_opts. cbn. destruct (o_y_tune o); reflexivity. }
  assert (CHK : ((oob_logic o' || o_resample o') && (isNone (o_X_trained o') || isNone (o_y_trained o')))%bool = false).
  { assert (C0 : ((oob_logic o || o_resample o) && (isNone (o_X_trained o) || isNone (o_y_trained o)))%bool = false). { unfold smooth in H. destruct (_ && _)%bool; [discriminate|reflexivity]. }
    rewrite OL. unfold o', class_opts. cbn. destruct (o_y_trained o); exact C0. }
  assert (AT : forall q t, nth_error ts q = Some t -> nth_error ts' q = Some (class_tree nc tau t)) by (intros q t N; unfold ts'; rewrite nth_error_map, N; reflexivity).
  assert (AT' : forall q t', nth_error ts' q = Some t' -> exists t, nth_error ts q = Some t /\ t' = class_tree nc tau t).
  { intros q t' N. unfold ts' in N. rewrite nth_error_map in N. destruct (nth_error ts q) as [t|]; [|discriminate]. cbn in N. inversion N. eauto. }
  assert (WT : forall q t, nth_error ts q = Some t -> wf_tree t) by (intros q t N; rewrite Forall_forall in WF; apply WF; eapply nth_error_In; eauto).
  destruct (same_smooth lg (Class nc) o o' ts ts' rd rd K sel sel G (slabs G) E E Ti Ti tau (fun _ i => i) WF WF' NE LEN FM FM' M M') with (out := out) as (out'&P0&P1&P2&P3&P4&P5&P6); auto.
  - repeat split; reflexivity.
  - intros q t t' N N'. rewrite (AT q t N) in N'. inversion N'; subst t'. split; [reflexivity|]. split; [rewrite map_id; apply Permutation_refl|]. split; [|auto].
    intros i Hi. split; [reflexivity|]. intros c Hc. apply class_leaf_ny; eauto.
  - intros q t t' X Y yl w N N' TD LT. rewrite (AT q t N) in N'. inversion N'; subst t'. clear N'. cbn [n_gamma] in *.
    assert (DT : exists Y', tuning_data (Class nc) o' rd q = Ok (X, Y') /\ length Y' = length Y /\ (forall r, In r Y' -> length r = nc) /\
      (forall ob c, (ob < length X)%nat -> (c < nc)%nat -> resp Y' ob c = resp Y ob (tau c))).
    { destruct (targets_spec nc t X Y yl w (WT q t N) LT) as (NX&LXY&RW&_). unfold tuning_data in TD |- *. rewrite OL.
      change (o_resample o') with (o_resample o). change (o_X_trained o') with (o_X_trained o). change (o_X_tune o') with (o_X_tune o).
      change (o_y_trained o') with (option_map (map phi) (o_y_trained o)). change (o_y_tune o') with (option_map (map (class_row nc tau)) (o_y_tune o)).
      destruct (oob_logic o || o_resample o)%bool.
      - destruct (o_X_trained o) as [X0|]; [|discriminate]. destruct (o_y_trained o) as [y0|]; [|discriminate]. cbn [option_map].
        apply bind_ok in TD. destruct TD as (Xt&TX&TD). apply bind_ok in TD. destruct TD as (yt&TY&TD). cbn [response_rows] in TD. inversion TD; subst X Y. clear TD.
        rewrite TX. cbn [bind]. rewrite take_rows_map, TY. cbn [rmap bind response_rows].
        assert (IN : incl yt cs) by (intros v Hv; apply (IY y0 eq_refl); eapply take_rows_in; eauto).
        assert (LY : length yt = length Xt). { rewrite <- LXY. unfold get_dummies. rewrite map_length. reflexivity. }
        assert (LN : length (sorted_set yt) = nc).
        { destruct yt as [|v yt]; [destruct Xt; [congruence|discriminate]|].
          rewrite <- (RW (map (fun c => if neqb v c then n1 else n0) (sorted_set (v :: yt)))); [rewrite map_length; reflexivity|left; reflexivity]. }
        destruct (dummies_relabelled phi cs cs' yt RL IN LN) as (Q1&Q2&Q3). eexists. split; [reflexivity|]. split; [exact Q2|]. split; [exact Q1|]. intros ob c Ho Hc. apply Q3; auto. lia.
      - destruct (o_X_tune o) as [X0|]; [|discriminate]. destruct (o_y_tune o) as [y0|]; [|discriminate]. inversion TD; subst X0 y0. cbn [option_map].
        eexists. split; [reflexivity|]. split; [apply map_length|]. split; [intros r Hr; apply in_map_iff in Hr; destruct Hr as (r0&<-&_); apply class_row_length|].
        intros ob c Ho Hc. unfold resp. rewrite (nth_map_in _ _ _ [] []) by lia. apply class_row_nth; auto. }
    destruct DT as (Y'&D1&D2&D3&D4). destruct (class_targets t X Y X Y' yl w (WT q t N) eq_refl D2 D3 D4 LT) as (yl'&T1&T2).
    exists X, Y', yl', w. split; [exact D1|]. split; [exact T1|]. intros i Hi. split; [reflexivity|]. intros c Hc. apply T2; auto.
  - rewrite P0. f_equal.
    assert (NE' : ts' <> []) by (unfold ts'; destruct ts; [congruence|discriminate]).
    destruct (smooth_inv _ _ _ _ _ _ _ _ _ _ _ H WF NE FM M) as (_&_&_&_&_&LF&LF2&_&VF2).
    destruct (smooth_inv _ _ _ _ _ _ _ _ _ _ _ P0 WF' NE' FM' M') as (_&_&_&_&_&LF'&LF2'&_&VF2').
    assert (F1 : s_forest out' = map (class_tree nc tau) (s_forest out)).
    { apply (nth_ext _ _ (class_tree nc tau no_tree) (class_tree nc tau no_tree)); [rewrite map_length; exact P5|]. intros q Hq. rewrite LF', LEN in Hq. rewrite map_nth.
      assert (N : nth_error ts q = Some (nth q ts no_tree)) by (apply nth_error_nth'; auto). set (t := nth q ts no_tree) in *.
      destruct (P6 q t _ N (AT q t N)) as (a&b&Na&Nb&SA&SB&V). rewrite (nth_error_nth _ _ _ Na), (nth_error_nth _ _ _ Nb).
      apply (class_tree_eq t); eauto. intros i Hi. destruct (V i Hi) as (V1&_&V3). auto. }
    assert (F2 : s_forest2 out' = map (class_tree nc tau) (s_forest2 out)).
    { apply (nth_ext _ _ (class_tree nc tau no_tree) (class_tree nc tau no_tree)); [rewrite map_length; congruence|]. intros q Hq. rewrite LF2', LEN in Hq. rewrite map_nth.
      assert (N : nth_error ts q = Some (nth q ts no_tree)) by (apply nth_error_nth'; auto). set (t := nth q ts no_tree) in *.
      destruct (VF2 q t N) as (a&Na&SA&V). destruct (VF2' q _ (AT q t N)) as (b&Nb&SB&V'). rewrite (nth_error_nth _ _ _ Na), (nth_error_nth _ _ _ Nb).
      apply (class_tree_eq t); eauto. intros i Hi. destruct (V i Hi) as (_&q0&t0&i0&N0&H0&E0&K0). destruct (V' i Hi) as (L1&q1&t1'&i1&N1&H1&E1&K1).
      destruct (AT' q1 t1' N1) as (t1&N1'&->). change (n_leaves (class_tree nc tau t1)) with (n_leaves t1) in H1. unfold ts' in E1. rewrite offset_class in E1.
      destruct (place_unique ts q0 t0 i0 q1 t1 i1 N0 H0 N1' H1 ltac:(lia)) as (EQ&EI). subst q1 i1. assert (t1 = t0) by congruence. subst t1.
      split; [exact L1|]. intros c Hc. cbn [n_gamma] in *. change (leaf_id (class_tree nc tau t) i) with (leaf_id t i) in K1. rewrite K1, K0 by (auto; apply (perm_bound _ _ TAU); auto).
      rewrite P2. unfold kmean. change (kmass (class_tree nc tau t0)) with (kmass t0). change (n_leaves (class_tree nc tau t0)) with (n_leaves t0).
      destruct (Req_EM_T _ 0); auto. f_equal. apply sumto_ext. intros j Hj. rewrite class_leaf_ny by eauto. reflexivity. }
    unfold on_trees. rewrite <- F1, <- F2, <- P1, <- P2, <- P3, <- P4. destruct out'. reflexivity.
Qed.
End Classes.
