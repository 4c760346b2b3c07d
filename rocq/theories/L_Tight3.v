(** L_Tight3: lemmas for Props_Tight3. *)
From Coq Require Import Reals Lra Lia.
From Verif Require Import Base TreeSpec Spec SpecSmooth SpecTune SpecDepth M_Tree M_Gamma M_Levels M_Prox M_Grad M_Sgd M_Smooth M_Depth M_Null M_Level.
From Verif Require Import L_Base L_Tree L_TreeModel L_Sgd L_Depth L_Depth2 L_Tight.
Local Open Scope R_scope.

(** C38: which error a tree without a split gives *)
Lemma tree_value : forall kd (o : depth_opts R) rd m fl i0 q t X y, depth_rows o rd q X y -> (i0 = None -> wf_tree t /\ (1 < size t)%nat) ->
  depth_tree kd o rd m (fl, i0) (q, t) = Err ValueError \/ exists fl' i, depth_tree kd o rd m (fl, i0) (q, t) = Ok (fl', Some i).
Proof.
  intros kd o rd m fl i0 q t X y RK H. apply rows_data in RK. unfold depth_tree. cbn [fst snd]. rewrite RK. cbn [bind].
  set (pl := combine _ _). destruct (steps_value kd X y pl (t, repeat (- n1)%num m, i0)) as [E|(t1&tl&i&E&N)].
  { left. match goal with |- bind ?x _ = _ => change x with (foldM (depth_step kd X y) pl (t, repeat (- n1)%num m, i0)) end. rewrite E. reflexivity. }
  right. rewrite E. cbn [bind]. destruct i as [i|]; [eauto|]. exfalso.
  destruct pl as [|a pl'] eqn:EP; [|apply N; [discriminate|reflexivity]].
  cbn [foldM] in E. injection E as _ _ E. destruct (H E) as (W&SZ).
  pose proof (lpv_length t) as LL. pose proof (depth_pos t W SZ) as DP. unfold pl in EP. destruct (leaf_predicted_values t); cbn [length] in *; [lia|discriminate].
Qed.
Lemma trees_value : forall kd (o : depth_opts R) rd m ts k fl i0, (forall q, (k <= q < k + length ts)%nat -> exists X y, depth_rows o rd q X y) ->
  i0 <> None -> foldM (depth_tree kd o rd m) (combine (seq k (length ts)) ts) (fl, i0) = Err ValueError \/
    exists r, foldM (depth_tree kd o rd m) (combine (seq k (length ts)) ts) (fl, i0) = Ok r.
Proof.
  intros kd o rd m. induction ts as [|t ts IH]; intros k fl i0 RO NI; cbn [length seq combine foldM]; [eauto|].
  destruct (RO k) as (X&y&RK); [cbn [length]; lia|].
  destruct (tree_value kd o rd m fl i0 k t X y RK ltac:(congruence)) as [-> |(fl'&i&->)]; cbn [bind]; auto.
  apply IH; [|discriminate]. intros q Hq. apply RO. cbn [length]. lia.
Qed.
Lemma p_single_error : forall kd t0 ts (o : depth_opts R) rd, Forall wf_tree (t0 :: ts) ->
  (forall q, (q <= length ts)%nat -> exists X y, depth_rows o rd q X y) ->
  (size t0 = 1%nat -> depth_tune (Forest kd (t0 :: ts)) o rd = Err UnboundLocalError) /\
  ((1 < size t0)%nat -> (exists t, In t ts /\ size t = 1%nat) -> depth_tune (Forest kd (t0 :: ts)) o rd = Err ValueError).
Proof.
  intros kd t0 ts o rd WF RO. inversion WF as [|? ? W0 WT]; subst.
  assert (CK : ((d_oob o || d_resample o) && (isNone (d_X_trained o) || isNone (d_y_trained o)))%bool = false).
  { destruct (RO O) as (X&y&RK); [lia|]. eapply rows_checks; eauto. }
  split.
  - intros SZ. unfold depth_tune. rewrite CK. cbn [length seq combine foldM].
    destruct (RO O) as (X&y&RK); [lia|]. apply rows_data in RK. unfold depth_tree at 1. cbn [fst snd]. rewrite RK. cbn [bind].
    pose proof (lpv_length t0) as LL. rewrite (depth_single t0 W0 SZ) in LL. destruct (leaf_predicted_values t0); [reflexivity|discriminate].
  - intros SZ (t&IT&ST). destruct (p_C38_single kd (t0 :: ts) o rd t) as (e&E); [rewrite Forall_forall in WT; auto|right; auto|auto|]. rewrite E. f_equal.
    unfold depth_tune in E. rewrite CK in E. cbn [length seq combine foldM] in E. destruct (RO O) as (X&y&RK); [lia|].
    set (m := snd (calc_depth_for_forest (t0 :: ts))) in *.
    destruct (tree_value kd o rd m (repeat n0 m) None O t0 X y RK ltac:(auto)) as [F|(fl'&i&F)]; rewrite F in E; cbn [bind] in E; [congruence|].
    destruct (trees_value kd o rd m ts 1 fl' (Some i)) as [F'|([fl2 i2]&F')]; [|discriminate| |]; try (rewrite F' in E; cbn [bind] in E).
    + intros q Hq. apply RO. lia.
    + congruence.
    + destruct fl2 as [|a fl2]; cbn [argmin bind] in E; [congruence|].
      set (b := snd _) in E. clearbody b.
      assert (MV : forall l : list (tree R), mapM (truncate_tree b) l = Err ValueError \/ exists r, mapM (truncate_tree b) l = Ok r).
      { induction l as [|x l IH]; cbn [mapM]; [eauto|]. unfold truncate_tree at 1 3. destruct (leaf_predicted_values x); cbn [bind]; auto. destruct IH as [-> |(r&->)]; cbn [bind]; eauto. }
      destruct (MV (t0 :: ts)) as [G|(r&G)]; rewrite G in E; cbn [bind] in E; congruence.
Qed.

(** C81: a vector of another length *)
Lemma p_null_length : forall null_space matrix_rank (G : mat R) v m, null_space G <> [] -> (forall b, In b (null_space G) -> length b = m) -> length v <> m ->
  forall tol, check_in_null null_space matrix_rank G v tol = Err ValueError.
Proof.
  intros ns mr G v m NE LB LV tol. unfold check_in_null. destruct (tol_ok tol); cbn [negb]; [|reflexivity].
  destruct (ns G) as [|b bs]; [congruence|]. cbn [length Nat.eqb nth]. rewrite (LB b) by (left; auto). apply Nat.eqb_neq in LV. rewrite LV. reflexivity.
Qed.

(* ---------------- C55 ---------------- *)
Lemma lookup_absent : forall {A} k (d : M_Level.dict A), (forall m, ~ In (k, m) d) -> M_Level.lookup k d = None.
Proof.
  intros A k d H. unfold M_Level.lookup. destruct (filter _ d) as [|[j m] l] eqn:E; [reflexivity|]. exfalso.
  assert (HI : In (j, m) (filter (fun p => Nat.eqb (fst p) k) d)) by (rewrite E; now left).
  apply filter_In in HI. destruct HI as [HI J]. cbn in J. apply Nat.eqb_eq in J. subst j. exact (H m HI).
Qed.
Lemma p_kernel_errors :
  (forall Vn V md, length Vn <> length V -> M_Level.make_Ut_prime Vn V md = Err AssertionError) /\
  (forall (U : M_Level.dict (list (list (list nat)))), (forall k m, In (k, m) U -> k <> 0%nat) -> M_Level.remove_0 U = Err AssertionError) /\
  (forall (U : M_Level.dict (list (list (list nat)))) (lamb : list R), length lamb <> length U -> M_Level.make_kernel U (Some lamb) = Err AssertionError) /\
  (forall md, M_Level.make_Ut_prime [] [] md = Err IndexError) /\
  (forall (t : tree R) x X dv, length dv <> size t -> M_Level.make_Vt_mat_tree t (x :: X) (Some dv) = Err IndexError) /\
  (forall dn Vn d V md, length Vn = length V -> (forall m, ~ In (0%nat, m) d) \/ (forall m, ~ In (0%nat, m) dn) -> M_Level.make_Ut_prime (dn :: Vn) (d :: V) md = Err KeyError).
Proof.
  split; [|split; [|split; [|split; [|split]]]].
  - intros Vn V md H. unfold M_Level.make_Ut_prime. apply Nat.eqb_neq in H. rewrite H. reflexivity.
  - intros U H. unfold M_Level.remove_0. destruct (existsb _ U) eqn:E; [|reflexivity].
    apply existsb_exists in E. destruct E as ((k, m) & HI & E). cbn in E. apply Nat.eqb_eq in E. destruct (H k m HI E).
  - intros U lamb H. unfold M_Level.make_kernel. apply not_eq_sym, Nat.eqb_neq in H. rewrite H. reflexivity.
  - reflexivity.
  - intros t x X dv H. unfold M_Level.make_Vt_mat_tree. apply Nat.eqb_neq in H. rewrite H. reflexivity.
  - intros dn Vn d V md L H. unfold M_Level.make_Ut_prime. replace (Nat.eqb _ _) with true by (symmetry; apply Nat.eqb_eq; cbn; f_equal; exact L). cbn [negb].
    destruct H as [H|H]; rewrite (lookup_absent 0%nat _ H); [reflexivity|]. destruct (M_Level.lookup 0 d); reflexivity.
Qed.

(* ---------------- C30 ---------------- *)
Lemma ce_step_err : forall lg cons t eps ad (P : problem R) nt st d e,
  sgd_step (ce_loss lg) (fun y => prox_project_ce y eps) cons t ad P nt st d = Err e -> e = AssertionError.
Proof.
  intros lg cons t eps ad P nt st d e H. unfold sgd_step in H. apply bind_err in H.
  destruct H as [H|([l1 iv1]&_&H)].
  - destruct ad.
    + apply bind_err in H. destruct H as [H|(x&_&H)]; [|discriminate].
      apply adam_step_err in H. destruct H as (x&H). eapply take_gradient_ce_err; exact H.
    + apply bind_err in H. destruct H as [H|(x&_&H)]; [|discriminate]. eapply take_gradient_ce_err; exact H.
  - apply bind_err in H. destruct H as [H|(x&_&H)].
    + destruct cons; [|discriminate]. unfold prox_project_ce in H. congruence.
    + discriminate.
Qed.
Lemma p_ce_typeerror : forall (lg : R -> R) (P : problem R) init t cons eps ad draws,
  stocastic_grad_descent_ce lg P init t cons eps ad draws = Err TypeError <-> ncols (p_Gamma P) <> length init.
Proof.
  intros lg P init t cons eps ad draws. unfold stocastic_grad_descent_ce. destruct (Nat.eqb_spec (ncols (p_Gamma P)) (length init)) as [E|E]; cbn [negb].
  2:{ split; auto. }
  split; [|contradiction]. intros H. exfalso. unfold sgd_run in H. cbn [l_cost ce_loss bind] in H.
  apply bind_err in H. destruct H as [H|(nt&_&H)].
  { unfold count_trees in H. destruct (p_tidx P); discriminate. }
  apply bind_err in H. destruct H as [H|(st&_&H)]; [|discriminate].
  apply (foldM_err _ (fun e => e = AssertionError)) in H; [discriminate|].
  intros. eapply ce_step_err; eauto.
Qed.
