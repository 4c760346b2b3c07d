(** L_Rel9: two forests whose leaves correspond to each other. *)
From Verif Require Import Base TreeSpec Spec M_Tree M_Gamma M_Levels M_Prox M_Grad M_Sgd M_Smooth SpecSmooth SpecTune SpecRel.
From Verif Require Import L_Base L_Tree L_TreeModel L_Dist L_Gamma L_Gamma2 L_Grad L_Sgd L_Sgd2 L_Smooth L_Smooth2 L_Smooth3 L_Smooth4 L_Route L_Tune L_Rel L_Rel2 L_Rel3 L_Rel7.
From Coq Require Import Reals Lra Permutation.
Local Open Scope R_scope.

(** *** sums and permutations *)
Lemma sumto_map : forall n f, sumto n f = nsum (map f (seq 0 n)).
Proof.
  induction n as [|n IH]; intros f; [reflexivity|]. rewrite seq_S, map_app, nsum_app. cbn [sumto map]. rewrite IH. cbn [Nat.add]. rewrite nsum_cons. change (nsum (@nil R)) with 0. lra.
Qed.
Lemma sumto_perm : forall rho n f, Permutation (map rho (seq 0 n)) (seq 0 n) -> sumto n (fun i => f (rho i)) = sumto n f.
Proof. intros rho n f P. rewrite !sumto_map. rewrite <- (map_map rho f). apply nsum_perm, Permutation_map, P. Qed.

(** *** the rows of the problem *)
Definition row_of (o : smooth_opts R) (G : list (mat R)) (E : mat R) (Ti : list nat) (Y : mat R) (W : list R) (c r : nat) : prow :=
  {| r_y := nth c (nth r Y []) 0; r_w := nth r W 0; r_g := nth r (nth c G []) []; r_e := nth r E []; r_q := if o_all_trees o then 0%nat else nth r Ti 0%nat |}.
Definition rows_of_problem (kd : kind) o G E Ti Y W : list prow :=
  flat_map (fun c => map (row_of o G E Ti Y W c) (seq 0 (length E))) (seq 0 (n_gamma kd)).

Lemma map_nth_seq : forall {A} (d : A) l, map (fun i => nth i l d) (seq 0 (length l)) = l.
Proof.
  intros A d l. apply (nth_ext _ _ d d); [rewrite map_length, seq_length; reflexivity|]. intros i Hi. rewrite map_length, seq_length in Hi.
  rewrite nth_map_seq by auto. reflexivity.
Qed.
Lemma flatten_rows : forall kd o (G : list (mat R)) E Ti Y W, length G = n_gamma kd -> (forall c, (c < n_gamma kd)%nat -> length (nth c G []) = length E) ->
  length Ti = length E -> length Y = length E -> length W = length E ->
  flatten kd o G E Ti Y W = of_rows (rows_of_problem kd o G E Ti Y W).
Proof.
  intros kd o G E Ti Y W LG LC LT LY LW. unfold flatten, of_rows, rows_of_problem. rewrite !map_flat.
  assert (MB : forall {B} (r : prow -> B) (f : nat -> list B), (forall c, (c < n_gamma kd)%nat -> map (fun i => r (row_of o G E Ti Y W c i)) (seq 0 (length E)) = f c) ->
    flat_map (fun c => map r (map (row_of o G E Ti Y W c) (seq 0 (length E)))) (seq 0 (n_gamma kd)) = flat_map f (seq 0 (n_gamma kd))).
  { intros B r f H. apply flat_ext. intros c Hc. apply in_seq in Hc. rewrite map_map. apply H. lia. }
  f_equal.
  - rewrite (MB _ r_y (fun c => map (fun r => nth c r 0) Y)).
    + unfold transpose. rewrite <- flat_map_concat_map. reflexivity.
    + intros c Hc. cbn [row_of r_y]. rewrite <- LY. transitivity (map (fun r => nth c r 0) (map (fun i => nth i Y []) (seq 0 (length Y)))); [rewrite map_map; reflexivity|rewrite map_nth_seq; reflexivity].
  - rewrite (MB _ r_w (fun _ => W)); [apply concat_rep|]. intros c Hc. cbn [row_of r_w]. rewrite <- LW. apply map_nth_seq.
  - rewrite (MB _ r_g (fun c => nth c G [])).
    + rewrite flat_map_concat_map. f_equal. rewrite <- LG. symmetry. apply map_nth_seq.
    + intros c Hc. cbn [row_of r_g]. rewrite <- (LC c Hc). apply map_nth_seq.
  - rewrite (MB _ r_e (fun _ => E)); [apply concat_rep|]. intros c Hc. cbn [row_of r_e]. apply map_nth_seq.
  - rewrite (MB _ r_q (fun _ => if o_all_trees o then map (fun _ => 0%nat) Ti else Ti)); [apply concat_rep|]. intros c Hc. cbn [row_of r_q]. rewrite <- LT.
    destruct (o_all_trees o); [|apply map_nth_seq]. transitivity (map (fun _ => 0%nat) (map (fun i => nth i Ti 0%nat) (seq 0 (length Ti)))); [rewrite map_map; reflexivity|rewrite map_nth_seq; reflexivity].
Qed.
Lemma offset_S : forall (ts : list (tree R)) q, (q < length ts)%nat -> offset ts (S q) = (offset ts q + n_leaves (nth q ts no_tree))%nat.
Proof.
  intros ts. induction ts as [|t ts IH]; intros q Hq; [cbn in Hq; lia|]. destruct q as [|q].
  - unfold offset. cbn. lia.
  - change (offset (t :: ts) (S (S q))) with (n_leaves t + offset ts (S q))%nat. change (offset (t :: ts) (S q)) with (n_leaves t + offset ts q)%nat.
    cbn [nth]. rewrite IH by (cbn in Hq; lia). lia.
Qed.
Lemma seq_offsets : forall (ts : list (tree R)), seq 0 (offset ts (length ts)) =
  flat_map (fun q => map (fun i => (offset ts q + i)%nat) (seq 0 (n_leaves (nth q ts no_tree)))) (seq 0 (length ts)).
Proof.
  intros ts. assert (X : forall n, (n <= length ts)%nat -> seq 0 (offset ts n) =
    flat_map (fun q => map (fun i => (offset ts q + i)%nat) (seq 0 (n_leaves (nth q ts no_tree)))) (seq 0 n)).
  { induction n as [|n IH]; intros Hn; [reflexivity|]. rewrite offset_S by lia. rewrite seq_app, IH by lia.
    rewrite (seq_S n 0), flat_map_app. f_equal. cbn [flat_map Nat.add]. rewrite app_nil_r.
    clear. generalize (offset ts n) as a. intros a. generalize (n_leaves (nth n ts no_tree)) as m. intros m.
    apply (nth_ext _ _ 0%nat 0%nat); [rewrite map_length, !seq_length; reflexivity|]. intros i Hi. rewrite seq_length in Hi.
    rewrite nth_map_seq by auto. rewrite seq_nth by auto. reflexivity. }
  apply X. lia.
Qed.

Section Same.
Variables (lg : R -> R) (kd : kind) (o o' : smooth_opts R) (ts ts' : list (tree R)) (rd rd' : randomness) (K : nat)
  (sel sel' : nat -> nat -> nat -> nat -> bool) (G G' : list (mat R)) (E E' : mat R) (Ti Ti' : list nat) (tau : nat -> nat) (rho : nat -> nat -> nat).
Hypothesis WF : Forall wf_tree ts.
Hypothesis WF' : Forall wf_tree ts'.
Hypothesis NE : ts <> [].
Hypothesis LEN : length ts' = length ts.
Hypothesis FM : forest_matrices kd o ts = Ok (G, E, Ti).
Hypothesis FM' : forest_matrices kd o' ts' = Ok (G', E', Ti').
Hypothesis M : mats kd ts K sel G E Ti.
Hypothesis M' : mats kd ts' K sel' G' E' Ti'.
Hypothesis ST : o_no_constraint o' = o_no_constraint o /\ o_sanity o' = o_sanity o /\ o_t_fix o' = o_t_fix o /\ o_all_trees o' = o_all_trees o /\
  o_lamb_draws o' = o_lamb_draws o /\ o_class_eps o' = o_class_eps o /\ o_class_loss o' = o_class_loss o /\ o_adam o' = o_adam o.
Hypothesis CHK : ((oob_logic o' || o_resample o') && (isNone (o_X_trained o') || isNone (o_y_trained o')))%bool = false.
Hypothesis DR : r_draws rd' = r_draws rd.
Hypothesis TAU : Permutation (map tau (seq 0 (n_gamma kd))) (seq 0 (n_gamma kd)).
Hypothesis LV : forall q t t', nth_error ts q = Some t -> nth_error ts' q = Some t' ->
  n_leaves t' = n_leaves t /\ Permutation (map (rho q) (seq 0 (n_leaves t))) (seq 0 (n_leaves t)) /\
  (forall i, (i < n_leaves t)%nat -> leaf_w t' i = leaf_w t (rho q i) /\ forall c, (c < n_gamma kd)%nat -> leaf_ny t' kd c i = leaf_ny t kd (tau c) (rho q i)) /\
  (forall i j k, (i < n_leaves t)%nat -> (j < n_leaves t)%nat -> (k < K)%nat -> sel' q i k j = sel q (rho q i) k (rho q j)).
Hypothesis DATA : forall q t t' X Y yl w, nth_error ts q = Some t -> nth_error ts' q = Some t' ->
  tuning_data kd o rd q = Ok (X, Y) -> leaf_targets (n_gamma kd) t X Y = Ok (yl, w) ->
  exists X' Y' yl' w', tuning_data kd o' rd' q = Ok (X', Y') /\ leaf_targets (n_gamma kd) t' X' Y' = Ok (yl', w') /\
  forall i, (i < n_leaves t)%nat -> nth i w' 0 = nth (rho q i) w 0 /\ forall c, (c < n_gamma kd)%nat -> nth c (nth i yl' []) 0 = nth (tau c) (nth (rho q i) yl []) 0.

Lemma ts'_at : forall q t, nth_error ts q = Some t -> exists t', nth_error ts' q = Some t'.
Proof using LEN.
  intros q t N. destruct (nth_error ts' q) as [t'|] eqn:N'; eauto. apply nth_error_None in N'. assert (q < length ts)%nat by (apply nth_error_Some; congruence). lia.
Qed.
Lemma offset_same : forall q, (q <= length ts)%nat -> offset ts' q = offset ts q.
Proof using LEN LV.
  intros q. induction q as [|q IH]; intros Hq; [reflexivity|]. rewrite !offset_S by lia. rewrite IH by lia. f_equal.
  assert (N : nth_error ts q = Some (nth q ts no_tree)) by (apply nth_error_nth'; lia).
  assert (N' : nth_error ts' q = Some (nth q ts' no_tree)) by (apply nth_error_nth'; lia).
  destruct (LV _ _ _ N N') as (A&_). exact A.
Qed.
Lemma rows_E : length E' = length E.
Proof using M M' LEN LV. destruct M as (_&->&_). destruct M' as (_&->&_). rewrite LEN. apply offset_same. lia. Qed.

Lemma targets' : forall Y W, all_targets kd o rd ts = Ok (Y, W) -> exists Y' W', all_targets kd o' rd' ts' = Ok (Y', W') /\
  length Y = length E /\ length W = length E /\ length Y' = length E /\ length W' = length E /\
  forall q t i, nth_error ts q = Some t -> (i < n_leaves t)%nat ->
    nth (offset ts q + i) W' 0 = nth (offset ts q + rho q i) W 0 /\
    forall c, (c < n_gamma kd)%nat -> nth c (nth (offset ts q + i) Y' []) 0 = nth (tau c) (nth (offset ts q + rho q i) Y []) 0.
Proof using WF WF' LEN M M' LV DATA.
  intros Y W H. destruct (L_Tune.targets_blocks kd o rd ts Y W WF H) as (LY&LW&TB).
  assert (OKS : Forall (fun it => tg kd o' rd' it = Ok (tf kd o' rd' it)) (combine (seq 0 (length ts')) ts')).
  { apply Forall_forall. intros [q t'] Hi. assert (N' : nth_error ts' q = Some t').
    { rewrite (combine_seq_map no_tree) in Hi. apply in_map_iff in Hi. destruct Hi as (p&EQ&Hp). apply in_seq in Hp. inversion EQ; subst. apply nth_error_nth'. lia. }
    assert (HQ : (q < length ts')%nat) by (apply nth_error_Some; congruence).
    destruct (nth_error ts q) as [t|] eqn:N; [|apply nth_error_None in N; lia].
    destruct (TB q t N) as (X&y&yl&w&TD&LT&_). destruct (DATA q t t' X y yl w N N' TD LT) as (X'&Y1&yl'&w'&TD'&LT'&_).
    unfold tf. unfold tg. cbn [fst snd]. rewrite TD'. cbn [bind]. rewrite LT'. reflexivity. }
  pose proof (blocks_targets kd o' rd' _ [] [] OKS) as AT'. fold (all_targets kd o' rd' ts') in AT'.
  match type of AT' with _ = Ok (?a, ?b) => exists a, b; set (Y' := a) in *; set (W' := b) in * end. split; [exact AT'|].
  destruct (L_Tune.targets_blocks kd o' rd' ts' Y' W' WF' AT') as (LY'&LW'&TB').
  assert (LE : length E = offset ts (length ts)) by apply M. assert (LE' : length E' = offset ts' (length ts')) by apply M'. rewrite rows_E in LE'.
  split; [lia|]. split; [lia|]. split; [lia|]. split; [lia|].
  intros q t i N Hi. destruct (ts'_at q t N) as (t'&N'). destruct (TB q t N) as (X&y&yl&w&TD&LT&VV). destruct (TB' q t' N') as (X'&y'&yl'&w'&TD'&LT'&VV').
  destruct (DATA q t t' X y yl w N N' TD LT) as (X1&Y1&yl1&w1&TD1&LT1&EQ). rewrite TD' in TD1. inversion TD1; subst X1 Y1. rewrite LT' in LT1. inversion LT1; subst yl1 w1.
  destruct (LV q t t' N N') as (NL&PR&_). assert (HQ : (q < length ts)%nat) by (apply nth_error_Some; congruence).
  rewrite <- (offset_same q) by lia. destruct (VV' i ltac:(lia)) as (->&->). rewrite (offset_same q) by lia.
  destruct (VV (rho q i) (perm_bound _ _ PR i Hi)) as (->&->). apply EQ; auto.
Qed.

Lemma row_same : forall Y W Y' W', (forall q t i, nth_error ts q = Some t -> (i < n_leaves t)%nat ->
    nth (offset ts q + i) W' 0 = nth (offset ts q + rho q i) W 0 /\
    forall c, (c < n_gamma kd)%nat -> nth c (nth (offset ts q + i) Y' []) 0 = nth (tau c) (nth (offset ts q + rho q i) Y []) 0) ->
  forall q t i c, nth_error ts q = Some t -> (i < n_leaves t)%nat -> (c < n_gamma kd)%nat ->
  row_of o' G' E' Ti' Y' W' c (offset ts q + i) = row_of o G E Ti Y W (tau c) (offset ts q + rho q i).
Proof using LEN M M' ST TAU LV.
  intros Y W Y' W' H q t i c N Hi Hc. destruct (ts'_at q t N) as (t'&N'). destruct (LV q t t' N N') as (NL&PR&VL&SL).
  destruct (H q t i N Hi) as (H1&H2). unfold row_of. rewrite H1, H2 by auto.
  destruct ST as (_&_&_&->&_).
  destruct M as (_&_&_&_&V). destruct M' as (_&_&_&_&V'). assert (HQ : (q < length ts)%nat) by (apply nth_error_Some; congruence).
  pose proof (perm_bound _ _ PR i Hi) as Hr. pose proof (perm_bound _ _ TAU c Hc) as Ht.
  destruct (V q t N _ Hr) as (_&T1&L1&E1&G1). destruct (V' q t' N' i ltac:(lia)) as (_&T2&L2&E2&G2). rewrite (offset_same q) in T2, L2, E2, G2 by lia.
  rewrite T1, T2.
  assert (SUM : forall k f f', (k < K)%nat -> (forall j, (j < n_leaves t)%nat -> f' j = f (rho q j)) -> sum_sel (n_leaves t') (sel' q i k) f' = sum_sel (n_leaves t) (sel q (rho q i) k) f).
  { intros k f f' Hk Hf. unfold sum_sel. rewrite NL. rewrite <- (sumto_perm (rho q) (n_leaves t) (fun j => if sel q (rho q i) k j then f j else 0)) by auto.
    apply sumto_ext. intros j Hj. rewrite SL, Hf by auto. reflexivity. }
  assert (EE : nth (offset ts q + i) E' [] = nth (offset ts q + rho q i) E []).
  { apply (nth_ext _ _ 0 0); [lia|]. intros k Hk. rewrite E2, E1 by lia. apply SUM; [lia|]. intros j Hj. apply VL; auto. }
  assert (EG : nth (offset ts q + i) (nth c G' []) [] = nth (offset ts q + rho q i) (nth (tau c) G []) []).
  { destruct (G1 (tau c) Ht) as (LG1&VG1). destruct (G2 c Hc) as (LG2&VG2). apply (nth_ext _ _ 0 0); [lia|]. intros k Hk. rewrite VG2, VG1 by lia.
    apply SUM; [lia|]. intros j Hj. apply VL; auto. }
  rewrite EE, EG. reflexivity.
Qed.
Lemma rows_perm9 : forall Y W Y' W', (forall q t i, nth_error ts q = Some t -> (i < n_leaves t)%nat ->
    nth (offset ts q + i) W' 0 = nth (offset ts q + rho q i) W 0 /\
    forall c, (c < n_gamma kd)%nat -> nth c (nth (offset ts q + i) Y' []) 0 = nth (tau c) (nth (offset ts q + rho q i) Y []) 0) ->
  Permutation (rows_of_problem kd o G E Ti Y W) (rows_of_problem kd o' G' E' Ti' Y' W').
Proof using LEN M M' ST TAU LV.
  intros Y W Y' W' H. unfold rows_of_problem. rewrite rows_E. assert (LE : length E = offset ts (length ts)) by apply M.
  apply Permutation_sym.
  transitivity (flat_map (fun c => map (row_of o G E Ti Y W c) (seq 0 (length E))) (map tau (seq 0 (n_gamma kd)))); [|apply Permutation_flat_map, TAU].
  rewrite (flat_map_concat_map _ (map tau _)), map_map, <- flat_map_concat_map.
  assert (X : forall l, (forall c, In c l -> (c < n_gamma kd)%nat) -> Permutation (flat_map (fun c => map (row_of o' G' E' Ti' Y' W' c) (seq 0 (length E))) l)
     (flat_map (fun c => map (row_of o G E Ti Y W (tau c)) (seq 0 (length E))) l)).
  2:{ apply X. intros c Hc. apply in_seq in Hc. lia. }
  intros l Hl. induction l as [|c l IH]; [constructor|]. cbn [flat_map]. apply Permutation_app; [|apply IH; intros; apply Hl; right; auto].
  assert (Hc : (c < n_gamma kd)%nat) by (apply Hl; left; auto). clear IH Hl.
  rewrite LE, seq_offsets, !map_flat.
  assert (Z : forall m, (forall q, In q m -> (q < length ts)%nat) ->
    Permutation (flat_map (fun q => map (row_of o' G' E' Ti' Y' W' c) (map (fun i => (offset ts q + i)%nat) (seq 0 (n_leaves (nth q ts no_tree))))) m)
                (flat_map (fun q => map (row_of o G E Ti Y W (tau c)) (map (fun i => (offset ts q + i)%nat) (seq 0 (n_leaves (nth q ts no_tree))))) m)).
  2:{ apply Z. intros q Hq. apply in_seq in Hq. lia. }
  intros m Hm. induction m as [|q m IH]; [constructor|]. cbn [flat_map]. apply Permutation_app; [|apply IH; intros; apply Hm; right; auto].
  assert (HQ : (q < length ts)%nat) by (apply Hm; left; auto). clear IH Hm.
  assert (N : nth_error ts q = Some (nth q ts no_tree)) by (apply nth_error_nth'; auto). set (t := nth q ts no_tree) in *.
  destruct (ts'_at q t N) as (t'&N'). destruct (LV q t t' N N') as (_&PR&_).
  rewrite !map_map. rewrite (map_ext_in _ (fun i => row_of o G E Ti Y W (tau c) (offset ts q + rho q i))).
  2:{ intros i Hi. apply in_seq in Hi. apply row_same with (t := t); auto. lia. }
  rewrite <- (map_map (rho q) (fun i => row_of o G E Ti Y W (tau c) (offset ts q + i))). apply Permutation_map, PR.
Qed.

Lemma opt9 : forall Y W Y' W' l r, (0 < n_gamma kd)%nat ->
  flatten kd o G E Ti Y W = of_rows (rows_of_problem kd o G E Ti Y W) -> flatten kd o' G' E' Ti' Y' W' = of_rows (rows_of_problem kd o' G' E' Ti' Y' W') ->
  Permutation (rows_of_problem kd o G E Ti Y W) (rows_of_problem kd o' G' E' Ti' Y' W') ->
  optimise lg kd o rd (flatten kd o G E Ti Y W) l = Ok r -> optimise lg kd o' rd' (flatten kd o' G' E' Ti' Y' W') l = Ok r.
Proof using WF WF' NE LEN M M' ST DR.
  clear LV DATA FM FM' CHK TAU. intros Y W Y' W' l r NG F F' PM H.
  assert (NE' : ts' <> []). { intros X. rewrite X in LEN. destruct ts; [congruence|discriminate]. }
  destruct (ncols_mats _ _ _ _ _ _ _ WF NE M) as (_&NC&_). destruct (ncols_mats _ _ _ _ _ _ _ WF' NE' M') as (_&NC'&_). specialize (NC ltac:(lia)). specialize (NC' ltac:(lia)).
  destruct (count_mats kd o ts K sel G E Ti Y W M WF NE ltac:(lia)) as (CA&_).
  destruct (count_mats kd o' ts' K sel' G' E' Ti' Y' W' M' WF' NE' ltac:(lia)) as (CB&BB). rewrite LEN in CB, BB.
  destruct ST as (S1&S2&S3&S4&S5&S6&S7&S8). rewrite S4 in CB, BB. set (nt := if o_all_trees o then 1%nat else length ts) in *.
  assert (XL : forall L proj, row_sym L -> ren_free L ->
    sgd_run L proj (negb (o_no_constraint o)) (o_t_fix o) (o_adam o) (flatten kd o' G' E' Ti' Y' W') l (r_draws rd') =
    sgd_run L proj (negb (o_no_constraint o)) (o_t_fix o) (o_adam o) (flatten kd o G E Ti Y W) l (r_draws rd)).
  { intros L proj LS LR. rewrite F, F' in *. apply run_same with (s := fun q => q) (nt := nt); auto.
    - assert (ID : forall B, map (ren (fun q => q)) B = B). { intros B. rewrite (map_ext _ (fun r => r)); [apply map_id|]. intros []. reflexivity. }
      rewrite ID. exact PM.
    - intros x Hx. apply BB. cbn [of_rows p_tidx]. apply in_map; auto.
    - rewrite DR. clear. induction (r_draws rd); constructor; auto. }
  unfold optimise in *. rewrite S1, S2, S3, S6, S7, S8. destruct (o_sanity o); [exact H|].
  assert (GA : forall (o : smooth_opts R) G E Ti Y W, p_Gamma (flatten kd o G E Ti Y W) = concat G) by reflexivity.
  assert (X2 : stocastic_grad_descent (flatten kd o' G' E' Ti' Y' W') l (o_t_fix o) (negb (o_no_constraint o)) (o_adam o) (r_draws rd') =
    stocastic_grad_descent (flatten kd o G E Ti Y W) l (o_t_fix o) (negb (o_no_constraint o)) (o_adam o) (r_draws rd)).
  { unfold stocastic_grad_descent. rewrite !GA, NC, NC'. rewrite (XL _ _ l2_sym l2_ren). reflexivity. }
  assert (XC : stocastic_grad_descent_ce lg (flatten kd o' G' E' Ti' Y' W') l (o_t_fix o) (negb (o_no_constraint o)) (o_class_eps o) (o_adam o) (r_draws rd') =
    stocastic_grad_descent_ce lg (flatten kd o G E Ti Y W) l (o_t_fix o) (negb (o_no_constraint o)) (o_class_eps o) (o_adam o) (r_draws rd)).
  { unfold stocastic_grad_descent_ce. rewrite !GA, NC, NC'. rewrite (XL _ _ (ce_sym lg) (ce_ren lg)). reflexivity. }
  rewrite X2, XC. exact H.
Qed.

Lemma same_smooth : forall out, smooth lg (Forest kd ts) o rd = Ok out ->
  exists out', smooth lg (Forest kd ts') o' rd' = Ok out' /\ s_lamb out' = s_lamb out /\ s_lamb_last out' = s_lamb_last out /\ s_lamb2 out' = s_lamb2 out /\
    s_costs out' = s_costs out /\ length (s_forest out') = length (s_forest out) /\
    forall q t t', nth_error ts q = Some t -> nth_error ts' q = Some t' -> exists a b, nth_error (s_forest out) q = Some a /\ nth_error (s_forest out') q = Some b /\
      same_but_leaf_values t a /\ same_but_leaf_values t' b /\
      forall i, (i < n_leaves t)%nat -> length (nth (leaf_id t' i) (t_value b) []) = n_gamma kd /\ length (nth (leaf_id t (rho q i)) (t_value a) []) = n_gamma kd /\
        forall c, (c < n_gamma kd)%nat -> node_v b c (leaf_id t' i) = node_v a (tau c) (leaf_id t (rho q i)).
Proof using WF WF' NE LEN FM FM' M M' ST CHK DR TAU LV DATA.
  intros out H.
  assert (NE' : ts' <> []). { intros X. rewrite X in LEN. destruct ts; [congruence|discriminate]. }
  destruct (smooth_inv _ _ _ _ _ _ _ _ _ _ _ H WF NE FM M) as (CC&(Y&W&AT&OP)&L2&LK&_&LF&_&VF&_).
  destruct (targets' Y W AT) as (Y'&W'&AT'&LY&LW&LY'&LW'&TE). pose proof rows_E as RE.
  pose proof M as (LG&LE&LT&LC&_). pose proof M' as (LG'&LE'&LT'&LC'&_).
  assert (FB : flatten kd o G E Ti Y W = of_rows (rows_of_problem kd o G E Ti Y W)) by (apply flatten_rows; auto).
  assert (FB' : flatten kd o' G' E' Ti' Y' W' = of_rows (rows_of_problem kd o' G' E' Ti' Y' W')) by (apply flatten_rows; auto; lia).
  pose proof (rows_perm9 Y W Y' W' TE) as PM.
  assert (IL : initial_lamb kd o' K = initial_lamb kd o K). { unfold initial_lamb. destruct ST as (_&_&_&_&->&->&_). reflexivity. }
  assert (OP' : optimise lg kd o' rd' (flatten kd o' G' E' Ti' Y' W') (initial_lamb kd o' K) = Ok (s_lamb out, s_lamb_last out, s_costs out)).
  { rewrite IL. destruct (Nat.eq_dec (n_gamma kd) 0) as [Z|Z].
    - assert (ZF : flatten kd o G E Ti Y W = of_rows [] /\ flatten kd o' G' E' Ti' Y' W' = of_rows []). { rewrite FB, FB'. unfold rows_of_problem. rewrite Z. auto. }
      destruct ZF as (Z1&Z2). rewrite Z2. rewrite Z1 in OP. unfold optimise in *. destruct ST as (_&->&_). destruct (o_sanity o); [exact OP|]. exfalso.
      assert (Q : forall L proj cn tt ad l dr, sgd_run L proj cn tt ad (of_rows []) l dr = Ok (s_lamb out, s_lamb_last out, s_costs out) -> False).
      { intros. unfold sgd_run in H0. destruct (l_cost _ _ _); cbn in H0; discriminate. }
      unfold stocastic_grad_descent, stocastic_grad_descent_ce in OP. clear - OP Q.
      destruct kd; [|destruct (o_class_loss o)]; repeat match type of OP with (if ?b then _ else _) = _ => destruct b; [discriminate|] end; eapply Q; eauto.
    - eapply opt9; eauto. lia. }
  assert (RUN : exists out', smooth lg (Forest kd ts') o' rd' = Ok out').
  { unfold smooth. rewrite CHK.
    assert (C2 : (match kd with Class _ => o_no_constraint o' | Reg => false end) = false). { destruct ST as (->&_). destruct kd; auto. }
    rewrite C2, FM'. cbn [bind]. rewrite AT'. cbn [bind]. destruct (ncols_mats _ _ _ _ _ _ _ WF' NE' M') as (->&_). rewrite OP'. cbn [bind].
    match goal with |- context [write_forest ?Y1 0 ts'] => destruct (write_forest_ok Y1 ts' 0 WF') as (f1&->&_); [rewrite unflatten_length; lia|] end. cbn [bind].
    match goal with |- context [write_forest2 ?Y1 0 ts'] => destruct (write_forest2_ok Y1 ts' WF') as (f2&->&_) end.
    { intros t Ht. rewrite unflatten_length. destruct (In_nth_error _ _ Ht) as (q&Nq). pose proof (offset_le ts' q t Nq). lia. }
    cbn [bind]. eauto. }
  destruct RUN as (out'&RUN). exists out'. split; auto.
  destruct (smooth_inv _ _ _ _ _ _ _ _ _ _ _ RUN WF' NE' FM' M') as (_&(Y1&W1&A1&O1)&L2'&_&_&LF'&_&VF'&_).
  rewrite AT' in A1. inversion A1; subst Y1 W1. rewrite OP' in O1. inversion O1 as [[S1 S2 S3]].
  split; [auto|]. split; [auto|]. split; [congruence|]. split; [auto|]. split; [congruence|].
  intros q t t' N N'. destruct (VF _ _ N) as (a&Na&SA&VA). destruct (VF' _ _ N') as (b&Nb&SB&VB). exists a, b. split; auto. split; auto. split; auto. split; auto.
  intros i Hi. destruct (LV q t t' N N') as (NL&PR&VL&SL). pose proof (perm_bound _ _ PR i Hi) as Hr.
  destruct (VB i ltac:(lia)) as (LB&KB). destruct (VA _ Hr) as (LA&KA). split; auto. split; auto. intros c Hc.
  rewrite KB, (KA (tau c)) by (auto; apply (perm_bound _ _ TAU); auto).
  assert (KK : forall j, (j < n_leaves t)%nat -> kap_sel sel' (s_lamb out') q i j = kap_sel sel (s_lamb out) q (rho q i) (rho q j)).
  { intros j Hj. rewrite <- S1. unfold kap_sel. apply sumto_ext. intros k Hk. rewrite SL; auto. lia. }
  assert (SUM : forall f f', (forall j, (j < n_leaves t)%nat -> f' j = f (rho q j)) -> sumto (n_leaves t') (fun j => kap_sel sel' (s_lamb out') q i j * f' j) =
     sumto (n_leaves t) (fun j => kap_sel sel (s_lamb out) q (rho q i) j * f j)).
  { intros f f' Hf. rewrite NL. rewrite <- (sumto_perm (rho q) (n_leaves t) (fun j => kap_sel sel (s_lamb out) q (rho q i) j * f j)) by auto.
    apply sumto_ext. intros j Hj. rewrite KK, Hf by auto. reflexivity. }
  assert (EM : kmass t' (kap_sel sel' (s_lamb out') q i) = kmass t (kap_sel sel (s_lamb out) q (rho q i))).
  { unfold kmass. apply SUM. intros j Hj. apply VL; auto. }
  unfold kmean. rewrite EM. destruct (Req_EM_T _ 0); auto. f_equal. apply SUM. intros j Hj. apply VL; auto.
Qed.
End Same.
