(** L_Rel10: renumbered nodes, reordered classes. *)
From Verif Require Import Base TreeSpec Spec M_Tree M_Gamma M_Levels M_Prox M_Grad M_Sgd M_Smooth SpecSmooth SpecTune SpecRel SpecRel2.
From Verif Require Import L_Base L_Tree L_TreeModel L_Dist L_Gamma L_Gamma2 L_Grad L_Sgd L_Sgd2 L_Levels L_Smooth L_Smooth2 L_Smooth3 L_Smooth4 L_Route L_Tune L_Rel L_Rel2 L_Rel3 L_Rel7 L_Rel9.
From Coq Require Import Reals Lra Permutation Sorted.
Local Open Scope R_scope.

(** position of [v] in [l] *)
Fixpoint idx (v : nat) (l : list nat) : nat := match l with [] => 0%nat | u :: r => if Nat.eqb u v then 0%nat else S (idx v r) end.
Lemma idx_spec : forall v l, In v l -> (idx v l < length l)%nat /\ nth (idx v l) l 0%nat = v.
Proof.
  intros v l. induction l as [|u l IH]; intros H; [destruct H|]. cbn [idx]. destruct (Nat.eqb_spec u v) as [E|E]; [cbn; split; [lia|auto]|].
  destruct H as [H|H]; [congruence|]. destruct (IH H). cbn. split; [lia|auto].
Qed.

(** *** a map of nodes that keeps the shape *)
Section Shape.
Variables (sg : nat -> nat) (t t' : tree R).
Hypothesis W : wf_tree t.
Hypothesis W' : wf_tree t'.
Hypothesis SZ : size t' = size t.
Hypothesis PM : Permutation (map sg (seq 0 (size t))) (seq 0 (size t)).
Hypothesis R0 : sg 0%nat = 0%nat.
Hypothesis LF : forall v, (v < size t)%nat -> is_leafb t' v = is_leafb t (sg v).
Hypothesis CH : forall v, (v < size t)%nat -> is_leafb t' v = false -> lc t (sg v) = Z.of_nat (sg (Z.to_nat (lc t' v))) /\ rc t (sg v) = Z.of_nat (sg (Z.to_nat (rc t' v))).

Lemma sg_lt : forall v, (v < size t)%nat -> (sg v < size t)%nat.
Proof using W W' SZ PM R0 LF CH. apply perm_bound, PM. Qed.
Lemma sg_inj : forall u v, (u < size t)%nat -> (v < size t)%nat -> sg u = sg v -> u = v.
Proof using W W' SZ PM R0 LF CH. apply perm_inj, PM. Qed.
Lemma sg_surj : forall u, (u < size t)%nat -> exists v, (v < size t)%nat /\ sg v = u.
Proof using W W' SZ PM R0 LF CH.
  intros u Hu. assert (H : In u (map sg (seq 0 (size t)))) by (apply (Permutation_in _ (Permutation_sym PM)), in_seq; lia).
  apply in_map_iff in H. destruct H as (v&E&Hv). apply in_seq in Hv. exists v. split; [lia|auto].
Qed.
Lemma nonleaf_l : forall p c, lc t' p = Z.of_nat c -> is_leafb t' p = false.
Proof using W W' SZ PM R0 LF CH. intros p c E. unfold is_leafb. rewrite E. apply of_nat_neq. Qed.
Lemma nonleaf_r : forall p c, rc t' p = Z.of_nat c -> is_leafb t' p = false.
Proof using W W' SZ PM R0 LF CH. intros p c E. destruct (is_leafb t' p) eqn:X; auto. exfalso. apply (leaf_no_child t' W' p c X). right; auto. Qed.
Lemma sg_left : forall p c, lc t' p = Z.of_nat c -> lc t (sg p) = Z.of_nat (sg c).
Proof using W W' SZ PM R0 LF CH.
  intros p c E. assert (Hp : (p < size t)%nat). { rewrite <- SZ. pose proof (child_lt t' W' p c (or_introl E)). lia. }
  destruct (CH p Hp (nonleaf_l p c E)) as (H&_). rewrite H, E, Nat2Z.id. reflexivity.
Qed.
Lemma sg_right : forall p c, rc t' p = Z.of_nat c -> rc t (sg p) = Z.of_nat (sg c).
Proof using W W' SZ PM R0 LF CH.
  intros p c E. assert (Hp : (p < size t)%nat). { rewrite <- SZ. pose proof (child_lt t' W' p c (or_intror E)). lia. }
  destruct (CH p Hp (nonleaf_r p c E)) as (_&H). rewrite H, E, Nat2Z.id. reflexivity.
Qed.
Lemma sg_child : forall p c, child t' p c -> child t (sg p) (sg c).
Proof using W W' SZ PM R0 LF CH. intros p c [H|H]; [left; apply sg_left; auto|right; apply sg_right; auto]. Qed.
Lemma sg_anc : forall a v, anc t' a v -> anc t (sg a) (sg v).
Proof using W W' SZ PM R0 LF CH.
  intros a v H. induction H as [v Hv|a p c _ IH C]; [apply anc_refl; apply sg_lt; lia|]. eapply anc_step; [exact IH|apply sg_child; auto].
Qed.
Lemma anc_sg : forall v, (v < size t)%nat -> forall a, (a < size t)%nat -> anc t (sg a) (sg v) -> anc t' a v.
Proof using W W' SZ PM R0 LF CH.
  intros v Hv. rewrite <- SZ in Hv. induction v as [v IH] using lt_wf_ind. intros a Ha H.
  destruct (node_cases t' W' v Hv) as [->|(p&C&L)].
  - rewrite R0 in H. apply anc_zero in H; auto. rewrite <- R0 in H. apply sg_inj in H; try lia. subst. apply anc_refl. lia.
  - destruct (proj1 (anc_child t W _ _ (sg_child p v C) (sg a)) H) as [E|E].
    + apply sg_inj in E; try lia. subst. apply anc_refl. lia.
    + apply anc_step with (p := p); [apply IH; [lia|lia|lia|exact E]|exact C].
Qed.
Lemma sg_depth : forall v d, depth_of t' v d -> depth_of t (sg v) d.
Proof using W W' SZ PM R0 LF CH.
  intros v d H. induction H as [|p c d _ IH C]; [rewrite R0; constructor|]. eapply depth_step; [exact IH|apply sg_child; auto].
Qed.
Lemma sg_lca : forall a i j, is_lca t' a i j -> is_lca t (sg a) (sg i) (sg j).
Proof using W W' SZ PM R0 LF CH.
  intros a i j (A&B&C). split; [apply sg_anc; auto|]. split; [apply sg_anc; auto|]. intros b Bi Bj.
  assert (Hb : (b < size t)%nat). { pose proof (anc_lt t W _ _ Bi). pose proof (anc_lt t' W' _ _ A). pose proof (sg_lt i). lia. }
  destruct (sg_surj b Hb) as (b'&Hb'&E). subst b. pose proof (anc_lt t' W' _ _ A). pose proof (anc_lt t' W' _ _ B).
  apply sg_anc, C; apply anc_sg; auto; lia.
Qed.
Lemma sg_climb : forall i j d, climb t' i j d -> climb t (sg i) (sg j) d.
Proof using W W' SZ PM R0 LF CH.
  intros i j d (a&di&da&A&B&C&D). exists (sg a), di, da. split; [apply sg_lca; auto|]. split; [apply sg_depth; auto|]. split; [apply sg_depth; auto|auto].
Qed.
Lemma sg_dist : forall s i j d, leaf_dist t' s i j d -> leaf_dist t s (sg i) (sg j) d.
Proof using W W' SZ PM R0 LF CH. intros s i j d (d1&d2&A&B&C). exists d1, d2. split; [apply sg_climb; auto|]. split; [apply sg_climb; auto|auto]. Qed.

Definition rho (i : nat) : nat := idx (sg (leaf_id t' i)) (leaf_ids t).
Lemma rho_spec : forall i, (i < n_leaves t')%nat -> (rho i < n_leaves t)%nat /\ leaf_id t (rho i) = sg (leaf_id t' i).
Proof using W W' SZ PM R0 LF CH.
  intros i Hi. apply idx_spec. apply leaf_ids_spec. pose proof (leaf_id_lt t' i Hi) as L. rewrite SZ in L.
  split; [apply sg_lt; auto|]. rewrite <- LF by auto. apply leaf_id_leaf; auto.
Qed.
Lemma leaves_perm : Permutation (map sg (leaf_ids t')) (leaf_ids t).
Proof using W W' SZ PM R0 LF CH.
  apply NoDup_Permutation.
  - assert (X : forall l, NoDup l -> (forall v, In v l -> (v < size t)%nat) -> NoDup (map sg l)).
    { intros l ND. induction ND as [|v l NI ND IH]; intros HB; [constructor|]. cbn. constructor; [|apply IH; intros; apply HB; right; auto].
      intros H. apply in_map_iff in H. destruct H as (u&E&Hu). apply sg_inj in E; [|apply HB; right; auto|apply HB; left; auto]. subst. contradiction. }
    apply X; [apply leaf_ids_NoDup|]. intros v Hv. apply leaf_ids_spec in Hv. rewrite <- SZ. tauto.
  - apply leaf_ids_NoDup.
  - intros u. rewrite leaf_ids_spec, in_map_iff. split.
    + intros (v&<-&Hv). apply leaf_ids_spec in Hv. destruct Hv as (L&F). rewrite SZ in L. split; [apply sg_lt; auto|]. rewrite <- LF; auto.
    + intros (L&F). destruct (sg_surj u L) as (v&Hv&<-). exists v. split; auto. apply leaf_ids_spec. rewrite SZ, LF by auto. auto.
Qed.
Lemma leaves_num : n_leaves t' = n_leaves t.
Proof using W W' SZ PM R0 LF CH. unfold n_leaves. rewrite <- (Permutation_length leaves_perm), map_length. reflexivity. Qed.
Lemma rho_perm : Permutation (map rho (seq 0 (n_leaves t))) (seq 0 (n_leaves t)).
Proof using W W' SZ PM R0 LF CH.
  assert (INJ : forall i j, (i < n_leaves t')%nat -> (j < n_leaves t')%nat -> rho i = rho j -> i = j).
  { intros i j Hi Hj E. destruct (rho_spec i Hi) as (_&A). destruct (rho_spec j Hj) as (_&B). rewrite E, B in A.
    apply (leaf_id_inj t'); auto. symmetry. apply sg_inj; auto; rewrite <- SZ; apply leaf_id_lt; auto. }
  pose proof leaves_num as LN. apply NoDup_Permutation_bis.
  - rewrite <- LN. assert (X : forall l, NoDup l -> (forall v, In v l -> (v < n_leaves t')%nat) -> NoDup (map rho l)).
    { intros l ND. induction ND as [|v l NI ND IH]; intros HB; [constructor|]. cbn. constructor; [|apply IH; intros; apply HB; right; auto].
      intros H. apply in_map_iff in H. destruct H as (u&E&Hu). apply INJ in E; [|apply HB; right; auto|apply HB; left; auto]. subst. contradiction. }
    apply X; [apply seq_NoDup|]. intros v Hv. apply in_seq in Hv. lia.
  - rewrite map_length. auto.
  - intros x Hx. apply in_map_iff in Hx. destruct Hx as (i&<-&Hi). apply in_seq in Hi. apply in_seq. destruct (rho_spec i) as (A&_); lia.
Qed.
Lemma rho_csel : forall s pa i j k, (i < n_leaves t)%nat -> (j < n_leaves t)%nat -> csel t' s pa i k j = csel t s pa (rho i) k (rho j).
Proof using W W' SZ PM R0 LF CH.
  intros s pa i j k Hi Hj. pose proof leaves_num as LN. rewrite <- LN in Hi, Hj. destruct (rho_spec i Hi) as (Ri&Ei). destruct (rho_spec j Hj) as (Rj&Ej).
  pose proof (csel_selects t' W' s pa i k Hi j Hj) as A. pose proof (csel_selects t W s pa (rho i) k Ri (rho j) Rj) as B. rewrite Ei, Ej in B.
  assert (X : (exists d, leaf_dist t' s (leaf_id t' i) (leaf_id t' j) d /\ (if pa then (d <= k)%nat else d = k)) <->
     (exists d, leaf_dist t s (sg (leaf_id t' i)) (sg (leaf_id t' j)) d /\ (if pa then (d <= k)%nat else d = k))).
  { split; intros (d&D&E).
    - exists d. split; auto. apply sg_dist; auto.
    - destruct (leaf_dist_ex t' W' s _ _ (leaf_id_lt t' i Hi) (leaf_id_lt t' j Hj)) as (d'&D'). pose proof (sg_dist _ _ _ _ D') as D2.
      rewrite (leaf_dist_unique t W _ _ _ _ _ D D2) in E. exists d'. auto. }
  rewrite X in A. rewrite <- B in A. destruct (csel t' s pa i k j), (csel t s pa (rho i) k (rho j)); auto; [symmetry|]; apply A; auto.
Qed.

(** answers to the questions agree *)
Lemma sg_reaches : forall x x', (forall v, (v < size t)%nat -> is_leafb t' v = false ->
    nleb (nth (nth v (t_feature t') 0%nat) x' 0) (nth v (t_thresh t') 0) = nleb (nth (nth (sg v) (t_feature t) 0%nat) x 0) (nth (sg v) (t_thresh t) 0)) ->
  forall v, reaches t' x' v -> reaches t x (sg v).
Proof using W W' SZ PM R0 LF CH.
  intros x x' Q v H. induction H as [|p c _ IH L G|p c _ IH L G]; [rewrite R0; constructor| |].
  - assert (Hp : (p < size t)%nat). { rewrite <- SZ. pose proof (child_lt t' W' p c (or_introl L)). lia. }
    pose proof (Q p Hp (nonleaf_l p c L)) as G1. change (@n0 R _) with 0 in G. rewrite G in G1. eapply reach_left; [exact IH|apply sg_left; auto|symmetry; exact G1].
  - assert (Hp : (p < size t)%nat). { rewrite <- SZ. pose proof (child_lt t' W' p c (or_intror L)). lia. }
    pose proof (Q p Hp (nonleaf_r p c L)) as G1. change (@n0 R _) with 0 in G. rewrite G in G1. eapply reach_right; [exact IH|apply sg_right; auto|symmetry; exact G1].
Qed.
Lemma sg_routed : forall X X' lf, (forall ob v, (ob < length X)%nat -> (v < size t)%nat -> is_leafb t' v = false ->
    nleb (nth (nth v (t_feature t') 0%nat) (nth ob X' []) 0) (nth v (t_thresh t') 0) = nleb (nth (nth (sg v) (t_feature t) 0%nat) (nth ob X []) 0) (nth (sg v) (t_thresh t) 0)) ->
  length X' = length X -> routed t' X' lf -> routed t X (fun ob => rho (lf ob)).
Proof using W W' SZ PM R0 LF CH.
  intros X X' lf Q LX RT ob Ho. rewrite <- LX in Ho. destruct (RT ob Ho) as ((H1&H2)&_). destruct (rho_spec _ H1) as (Hr&Er). rewrite LX in Ho.
  assert (L : leaf_of t (nth ob X []) (rho (lf ob))). { split; auto. rewrite Er. apply (sg_reaches (nth ob X []) (nth ob X' [])); auto. }
  split; [exact L|]. intros j (Hj&Rj). destruct (one_leaf t W (nth ob X [])) as (i&_&_&U). destruct L as (L1&L2). rewrite (U j), (U (rho (lf ob))); auto.
Qed.
Lemma sg_targets : forall nc tau X Y X' Y' yl w, Permutation (map tau (seq 0 nc)) (seq 0 nc) ->
  (forall ob v, (ob < length X)%nat -> (v < size t)%nat -> is_leafb t' v = false ->
    nleb (nth (nth v (t_feature t') 0%nat) (nth ob X' []) 0) (nth v (t_thresh t') 0) = nleb (nth (nth (sg v) (t_feature t) 0%nat) (nth ob X []) 0) (nth (sg v) (t_thresh t) 0)) ->
  length X' = length X -> length Y' = length Y -> (forall r, In r Y' -> length r = nc) ->
  (forall ob c, (ob < length X)%nat -> (c < nc)%nat -> resp Y' ob c = resp Y ob (tau c)) ->
  leaf_targets nc t X Y = Ok (yl, w) -> exists yl' w', leaf_targets nc t' X' Y' = Ok (yl', w') /\
  forall i, (i < n_leaves t)%nat -> nth i w' 0 = nth (rho i) w 0 /\ forall c, (c < nc)%nat -> nth c (nth i yl' []) 0 = nth (tau c) (nth (rho i) yl []) 0.
Proof using W W' SZ PM R0 LF CH.
  intros nc tau X Y X' Y' yl w TAU Q LX LY RY RE H. destruct (targets_spec nc t X Y yl w W H) as (NX&LXY&RL&SP).
  assert (NX' : X' <> []) by (destruct X'; [destruct X; [congruence|discriminate]|discriminate]).
  destruct (leaf_targets_total nc t' X' Y') as (yl'&w'&H'&_); auto; [lia|]. exists yl', w'. split; [exact H'|].
  destruct (targets_spec nc t' X' Y' yl' w' W' H') as (_&_&_&SP'). destruct (routed_ex t' X' W') as (lf&RT).
  destruct (SP' lf RT) as (LW'&_&V'). destruct (SP _ (sg_routed X X' lf Q LX RT)) as (LW&_&V).
  intros i Hi. rewrite <- leaves_num in Hi. destruct (rho_spec i Hi) as (Hr&_). destruct (V' i Hi) as (A1&_&A2). destruct (V _ Hr) as (B1&_&B2).
  assert (SE : forall f g, (forall ob, (ob < length X)%nat -> g ob = f ob) -> sum_sel (length X') (in_leaf lf i) g = sum_sel (length X) (in_leaf (fun ob => rho (lf ob)) (rho i)) f).
  { intros f g E. rewrite LX. unfold sum_sel. apply sumto_ext. intros ob Ho. rewrite (E ob Ho).
    assert (EB : in_leaf (fun ob => rho (lf ob)) (rho i) ob = in_leaf lf i ob).
    { unfold in_leaf. destruct (Nat.eqb_spec (lf ob) i) as [->|NE]; [apply Nat.eqb_refl|]. apply Nat.eqb_neq. intros EE. apply NE.
      assert (Hl : (lf ob < n_leaves t')%nat). { rewrite <- LX in Ho. destruct (RT ob Ho) as ((Z&_)&_). exact Z. }
      rewrite leaves_num in Hi, Hl. apply (perm_inj _ _ rho_perm); auto. }
    rewrite EB. reflexivity. }
  assert (WE : nth i w' 0 = nth (rho i) w 0). { rewrite A1, B1. apply SE. auto. }
  split; [exact WE|]. intros c Hc. rewrite A2, B2 by (auto; apply (perm_bound _ _ TAU); auto). rewrite WE. f_equal. apply SE. intros ob Ho. apply RE; auto.
Qed.
End Shape.

(** *** forests *)
Lemma list_maxn_perm : forall l m, Permutation l m -> list_maxn l = list_maxn m.
Proof.
  intros l m P. destruct l as [|a l]. { apply Permutation_nil in P. subst. reflexivity. }
  assert (LN : a :: l <> []) by discriminate. set (l0 := a :: l) in *. clearbody l0.
  assert (MN : m <> []). { intros ->. apply Permutation_sym, Permutation_nil in P. contradiction. }
  apply Nat.le_antisymm; apply list_maxn_ge; [apply (Permutation_in _ P)|apply (Permutation_in _ (Permutation_sym P))]; apply list_maxn_in; auto.
Qed.
Section Forest.
Variables (lg : R -> R) (kd : kind) (o o' : smooth_opts R) (pa : bool) (ts ts' : list (tree R)) (rd rd' : randomness) (tau : nat -> nat) (sg : nat -> nat -> nat).
Hypothesis WF : Forall wf_tree ts.
Hypothesis WF' : Forall wf_tree ts'.
Hypothesis NE : ts <> [].
Hypothesis LEN : length ts' = length ts.
Hypothesis DD : o_dist o = DDepth pa /\ o_dist o' = DDepth pa /\ o_style o' = o_style o.
Hypothesis ST : o_no_constraint o' = o_no_constraint o /\ o_sanity o' = o_sanity o /\ o_t_fix o' = o_t_fix o /\ o_all_trees o' = o_all_trees o /\
  o_lamb_draws o' = o_lamb_draws o /\ o_class_eps o' = o_class_eps o /\ o_class_loss o' = o_class_loss o /\ o_adam o' = o_adam o.
Hypothesis CHK : ((oob_logic o' || o_resample o') && (isNone (o_X_trained o') || isNone (o_y_trained o')))%bool = false.
Hypothesis DR : r_draws rd' = r_draws rd.
Hypothesis TAU : Permutation (map tau (seq 0 (n_gamma kd))) (seq 0 (n_gamma kd)).
Hypothesis SH : forall q t t', nth_error ts q = Some t -> nth_error ts' q = Some t' ->
  size t' = size t /\ Permutation (map (sg q) (seq 0 (size t))) (seq 0 (size t)) /\ sg q 0%nat = 0%nat /\
  (forall v, (v < size t)%nat -> is_leafb t' v = is_leafb t (sg q v)) /\
  (forall v, (v < size t)%nat -> is_leafb t' v = false -> lc t (sg q v) = Z.of_nat (sg q (Z.to_nat (lc t' v))) /\ rc t (sg q v) = Z.of_nat (sg q (Z.to_nat (rc t' v)))) /\
  (forall v, (v < size t)%nat -> is_leafb t' v = true -> node_w t' v = node_w t (sg q v) /\ forall c, (c < n_gamma kd)%nat -> node_ny t' kd c v = node_ny t kd (tau c) (sg q v)).
Hypothesis DATA : forall q X Y, (q < length ts)%nat -> tuning_data kd o rd q = Ok (X, Y) -> length Y = length X -> (forall r, In r Y -> length r = n_gamma kd) ->
  exists X' Y', tuning_data kd o' rd' q = Ok (X', Y') /\ length X' = length X /\ length Y' = length Y /\ (forall r, In r Y' -> length r = n_gamma kd) /\
  (forall ob c, (ob < length X)%nat -> (c < n_gamma kd)%nat -> resp Y' ob c = resp Y ob (tau c)) /\
  (forall t t' ob v, nth_error ts q = Some t -> nth_error ts' q = Some t' -> (ob < length X)%nat -> (v < size t)%nat -> is_leafb t' v = false ->
    nleb (nth (nth v (t_feature t') 0%nat) (nth ob X' []) 0) (nth v (t_thresh t') 0) = nleb (nth (nth (sg q v) (t_feature t) 0%nat) (nth ob X []) 0) (nth (sg q v) (t_thresh t) 0)).

Lemma wft : forall q t, nth_error ts q = Some t -> wf_tree t.
Proof using WF. intros q t N. rewrite Forall_forall in WF. apply WF. eapply nth_error_In; eauto. Qed.
Lemma wft' : forall q t, nth_error ts' q = Some t -> wf_tree t.
Proof using WF'. intros q t N. rewrite Forall_forall in WF'. apply WF'. eapply nth_error_In; eauto. Qed.

Lemma depths_same : snd (calc_depth_for_forest ts') = snd (calc_depth_for_forest ts).
Proof using WF WF' LEN SH.
  unfold calc_depth_for_forest. cbn [snd].
  assert (X : map (fun t => list_maxn (depth_per_node t)) ts' = map (fun t => list_maxn (depth_per_node t)) ts).
  { apply (nth_ext _ _ (list_maxn (depth_per_node no_tree)) (list_maxn (depth_per_node no_tree))); [rewrite !map_length; auto|]. intros q Hq. rewrite map_length in Hq.
    rewrite !(map_nth (fun t => list_maxn (depth_per_node t))).
    assert (N : nth_error ts q = Some (nth q ts no_tree)) by (apply nth_error_nth'; lia).
    assert (N' : nth_error ts' q = Some (nth q ts' no_tree)) by (apply nth_error_nth'; lia).
    set (t := nth q ts no_tree) in *. set (t' := nth q ts' no_tree) in *. destruct (SH q t t' N N') as (A&B&C&D&E&_).
    pose proof (wft q t N) as W1. pose proof (wft' q t' N') as W2.
    apply list_maxn_perm. assert (EQ : depth_per_node t' = map (fun v => nth v (depth_per_node t) 0%nat) (map (sg q) (seq 0 (size t)))).
    { apply (nth_ext _ _ 0%nat 0%nat); [rewrite !map_length, seq_length, (depth_per_node_length t' W2); auto|]. intros v Hv. rewrite (depth_per_node_length t' W2), A in Hv.
      rewrite map_map, nth_map_seq by auto.
      pose proof (depth_per_node_correct t' W2 v ltac:(lia)) as P1. apply (sg_depth (sg q) t t' W1 W2 A B C D E) in P1.
      pose proof (depth_per_node_correct t W1 (sg q v) (perm_bound _ _ B v Hv)) as P2. apply (depth_unique t W1 _ _ _ P1 P2). }
    rewrite EQ. transitivity (map (fun v => nth v (depth_per_node t) 0%nat) (seq 0 (size t))); [apply Permutation_map, B|].
    rewrite <- (depth_per_node_length t W1), map_nth_seq. apply Permutation_refl. }
  revert X. generalize 0%nat as m. clear. intros m. revert ts' m. induction ts as [|t l IH]; intros [|t' l'] m E; try discriminate; [reflexivity|]. cbn in *. injection E as E1 E2.
  rewrite E1. apply IH. exact E2.
Qed.
Lemma forest_smooth : forall out, smooth lg (Forest kd ts) o rd = Ok out ->
  exists out', smooth lg (Forest kd ts') o' rd' = Ok out' /\ s_lamb out' = s_lamb out /\ s_lamb_last out' = s_lamb_last out /\ s_lamb2 out' = s_lamb2 out /\
    s_costs out' = s_costs out /\ length (s_forest out') = length (s_forest out) /\
    forall q t t', nth_error ts q = Some t -> nth_error ts' q = Some t' -> exists a b, nth_error (s_forest out) q = Some a /\ nth_error (s_forest out') q = Some b /\
      same_but_leaf_values t a /\ same_but_leaf_values t' b /\
      forall v, (v < size t)%nat -> is_leafb t' v = true -> length (nth v (t_value b) []) = n_gamma kd /\ length (nth (sg q v) (t_value a) []) = n_gamma kd /\
        forall c, (c < n_gamma kd)%nat -> node_v b c v = node_v a (tau c) (sg q v).
Proof using WF WF' NE LEN DD ST CHK DR TAU SH DATA.
  intros out H. destruct DD as (D1&D2&D3).
  destruct (depth_mats kd pa (o_style o) ts WF) as (G&E&Ti&FM&M).
  destruct (depth_mats kd pa (o_style o) ts' WF') as (G'&E'&Ti'&FM'&M'). rewrite depths_same in M'.
  assert (FO : forest_matrices kd o ts = Ok (G, E, Ti)) by (unfold forest_matrices; rewrite D1; exact FM).
  assert (FO' : forest_matrices kd o' ts' = Ok (G', E', Ti')) by (unfold forest_matrices; rewrite D2, D3; exact FM').
  assert (S : forall q t t', nth_error ts q = Some t -> nth_error ts' q = Some t' ->
     n_leaves t' = n_leaves t /\ Permutation (map (rho (sg q) t t') (seq 0 (n_leaves t))) (seq 0 (n_leaves t)) /\
     (forall i, (i < n_leaves t)%nat -> (rho (sg q) t t' i < n_leaves t)%nat /\ leaf_id t (rho (sg q) t t' i) = sg q (leaf_id t' i))).
  { intros q t t' N N'. destruct (SH q t t' N N') as (A&B&C&D&F&_). pose proof (wft q t N) as W1. pose proof (wft' q t' N') as W2.
    pose proof (leaves_num (sg q) t t' W1 W2 A B C D F) as LN.
    split; [exact LN|]. split; [apply rho_perm; auto|]. intros i Hi. apply rho_spec; auto. lia. }
  destruct (same_smooth lg kd o o' ts ts' rd rd' _ _ _ G G' E E' Ti Ti' tau (fun q => rho (sg q) (nth q ts no_tree) (nth q ts' no_tree))
     WF WF' NE LEN FO FO' M M' ST CHK DR TAU) with (out := out) as (out'&P0&P1&P2&P3&P4&P5&P6); [| |exact H|].
  - intros q t t' N N'. rewrite (nth_error_nth _ _ no_tree N), (nth_error_nth _ _ no_tree N'). destruct (SH q t t' N N') as (A&B&C&D&F&V). destruct (S q t t' N N') as (S1&S2&S3).
    pose proof (wft q t N) as W1. pose proof (wft' q t' N') as W2.
    split; [exact S1|]. split; [exact S2|]. split.
    + intros i Hi. destruct (S3 i Hi) as (_&S4). unfold leaf_w, leaf_ny. rewrite S4. apply V; [rewrite <- A; apply leaf_id_lt; lia|apply leaf_id_leaf; lia].
    + intros i j k Hi Hj Hk. rewrite N, N'. apply rho_csel; auto.
  - intros q t t' X Y yl w N N' TD LT. rewrite (nth_error_nth _ _ no_tree N), (nth_error_nth _ _ no_tree N'). destruct (SH q t t' N N') as (A&B&C&D&F&V).
    pose proof (wft q t N) as W1. pose proof (wft' q t' N') as W2. destruct (targets_spec _ t X Y yl w W1 LT) as (_&LY&RL&_).
    destruct (DATA q X Y) as (X'&Y'&TD'&LX'&LY'&RY'&RE&QU); auto. { apply nth_error_Some. congruence. }
    destruct (sg_targets (sg q) t t' W1 W2 A B C D F (n_gamma kd) tau X Y X' Y' yl w TAU) as (yl'&w'&LT'&EQ); auto.
    exists X', Y', yl', w'. auto.
  - exists out'. split; [exact P0|]. repeat (split; [assumption|]). intros q t t' N N'. destruct (P6 q t t' N N') as (a&b&Na&Nb&Sa&Sb&V). exists a, b. repeat (split; [assumption|]).
    rewrite (nth_error_nth _ _ no_tree N), (nth_error_nth _ _ no_tree N') in V. destruct (S q t t' N N') as (S1&S2&S3). destruct (SH q t t' N N') as (A&_).
    intros v Hv LF. assert (HI : In v (leaf_ids t')) by (apply leaf_ids_spec; split; [lia|exact LF]). apply (In_nth _ _ 0%nat) in HI. destruct HI as (i&Hi&EI).
    change (leaf_id t' i = v) in EI. fold (n_leaves t') in Hi. rewrite S1 in Hi. destruct (S3 i Hi) as (_&S4). specialize (V i Hi). rewrite S4, EI in V. exact V.
Qed.
End Forest.

(** *** numbering of the nodes *)
Lemma p_renumbered : forall lg kd (o : smooth_opts R) pa sg ts ts' rd out, Forall wf_tree ts -> Forall wf_tree ts' -> ts <> [] -> o_dist o = DDepth pa ->
  all_renumbered sg ts ts' -> smooth lg (Forest kd ts) o rd = Ok out ->
  exists out', smooth lg (Forest kd ts') o rd = Ok out' /\ s_lamb out' = s_lamb out /\ s_lamb_last out' = s_lamb_last out /\ s_lamb2 out' = s_lamb2 out /\
    s_costs out' = s_costs out /\ all_renumbered sg (s_forest out) (s_forest out').
Proof.
  intros lg kd o pa sg ts ts' rd out WF WF' NE DD (LEN&RN) H.
  assert (CHK : ((oob_logic o || o_resample o) && (isNone (o_X_trained o) || isNone (o_y_trained o)))%bool = false).
  { unfold smooth in H. destruct (_ && _)%bool; [discriminate|reflexivity]. }
  assert (IDP : forall n, Permutation (map (fun c => c) (seq 0 n)) (seq 0 n)) by (intros; rewrite map_id; apply Permutation_refl).
  destruct (forest_smooth lg kd o o pa ts ts' rd rd (fun c => c) sg WF WF' NE LEN) with (out := out) as (out'&P0&P1&P2&P3&P4&P5&P6); auto 12.
  - intros q t t' N N'. destruct (RN q t t' N N') as (A&B&C&D). split; [exact A|]. split; [exact B|]. split; [exact C|]. split; [intros v Hv; apply (D v Hv)|].
    split. { intros v Hv L. destruct (D v Hv) as (_&E&_). destruct (E L) as (E1&E2&_). auto. }
    intros v Hv L. destruct (D v Hv) as (_&_&E1&E2&_). unfold node_w, node_ny, node_w, node_v. change (@n0 R _) with 0 in E2. rewrite E1, E2. auto.
  - intros q X Y Hq TD LY RY. exists X, Y. repeat (split; [solve [auto]|]). intros t t' ob v N N' Ho Hv L. destruct (RN q t t' N N') as (_&_&_&D).
    destruct (D v Hv) as (_&E&_). destruct (E L) as (_&_&E1&E2). change (@n0 R _) with 0 in E2. rewrite E1, E2. reflexivity.
  - exists out'. do 5 (split; [assumption|]). split; [exact P5|]. intros q a0 b0 Na0 Nb0.
    destruct (nth_error ts q) as [t|] eqn:N. 2:{ apply nth_error_None in N. assert (q < length (s_forest out))%nat by (apply nth_error_Some; congruence).
      destruct (smooth_desc _ _ _ _ _ _ H WF NE) as (_&_&_&L&_). lia. }
    destruct (nth_error ts' q) as [t'|] eqn:N'. 2:{ apply nth_error_None in N'. assert (q < length ts)%nat by (apply nth_error_Some; congruence). lia. }
    destruct (P6 q t t' N N') as (a&b&Na&Nb&SA&SB&V). assert (a0 = a) by congruence. assert (b0 = b) by congruence. subst a0 b0. destruct (RN q t t' N N') as (A&B&C&D).
    destruct SA as (A1&A2&A3&A4&A5&A6&A7&A8). destruct SB as (B1&B2&B3&B4&B5&B6&B7&B8).
    unfold renumbered, size, is_leafb, lc, rc. rewrite A1, A2, A3, A4, A5, A6, B1, B2, B3, B4, B5, B6. fold (size t) (size t').
    split; [exact A|]. split; [exact B|]. split; [exact C|]. intros v Hv. destruct (D v Hv) as (D1&D2&D3&D4&D5).
    split; [exact D1|]. split; [exact D2|]. split; [|auto].
    destruct (is_leafb t' v) eqn:L.
    + destruct (V v Hv L) as (V1&V2&V3). apply (nth_ext _ _ 0 0); [congruence|]. intros c Hc. apply V3. lia.
    + rewrite B8, A8 by auto. exact D3.
Qed.
