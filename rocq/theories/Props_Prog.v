(** Props_Prog: progress of plain descent from the default start. *)
From Verif Require Import Base TreeSpec Spec M_Tree M_Gamma M_Levels M_Prox M_Grad M_Sgd M_Smooth SpecSmooth SpecTune SpecRel SpecProg.
From Verif Require Import L_Base L_TreeModel L_Dist L_Smooth L_Smooth2 L_Tune L_Box L_Prog L_Prog2 Props_Smooth.
From Coq Require Import Reals Lra QArith.
Local Open Scope R_scope.

(** ** C91: small steps help exactly when some distance is asked for *)

(** C91: regression, all trees at each step, no Adam, default start (all weight on a leaf's own mean).  If the tuning data ask for weight at some distance (positive pull; without the constraint: non-zero pull), then for all small enough step sizes, and any number of steps from one on, the smoothed forest has a strictly smaller squared error on the tuning data than the forest itself ... *)
Theorem C91_small_steps_help : forall lg ts (o : smooth_opts R) rd out, smooth lg (Forest Reg ts) o rd = Ok out ->
  Forall (@wf_tree R) ts -> Forall pos_leaves ts -> ts <> [] -> plain_l2 Reg o -> o_all_trees o = true -> o_lamb_draws o = None -> separated o ts ->
  forall k p, (k < length (s_lamb out))%nat -> is_pull o rd ts (length (s_lamb out)) k p -> (if o_no_constraint o then p <> 0 else 0 < p) ->
  exists t0, 0 < t0 /\ forall t draws out', 0 < t < t0 -> draws <> [] ->
    smooth lg (Forest Reg ts) (stepped t o) (drawing draws rd) = Ok out' ->
    forall data lf, tuning_of Reg o rd ts data lf -> forest_sse 1 data lf (s_forest out') < forest_sse 1 data lf ts.
Proof. exact p_C91_improves. Qed.
Print Assumptions C91_small_steps_help.

(** ... and if no distance is asked for, no step size changes anything: weights, costs and leaf values stay what they were. *)
Theorem C91_no_pull_no_change : forall lg ts (o : smooth_opts R) rd out, smooth lg (Forest Reg ts) o rd = Ok out ->
  Forall (@wf_tree R) ts -> Forall pos_leaves ts -> ts <> [] -> plain_l2 Reg o -> o_all_trees o = true -> o_lamb_draws o = None -> separated o ts ->
  (forall k p, (k < length (s_lamb out))%nat -> is_pull o rd ts (length (s_lamb out)) k p -> if o_no_constraint o then p = 0 else p <= 0) ->
  forall t draws out', 0 <= t -> smooth lg (Forest Reg ts) (stepped t o) (drawing draws rd) = Ok out' ->
    s_lamb out' = only (length (s_lamb out)) 0 /\ s_lamb_last out' = only (length (s_lamb out)) 0 /\
    (forall c c', In c (s_costs out') -> In c' (s_costs out') -> c = c') /\
    forall q tr tr' i, nth_error ts q = Some tr -> nth_error (s_forest out') q = Some tr' -> (i < n_leaves tr)%nat -> leaf_v tr' 0 i = leaf_v tr 0 i.
Proof. exact p_C91_stays. Qed.
Print Assumptions C91_no_pull_no_change.

(** The two cases on the tree with leaf values 20 and 30: one observation in the first leaf,
    two in the second, responses y0, y1, y2 *)
Definition ex_prog {T} {NT : Num T} (Y : list T) (t : T) : smooth_opts T :=
  {| o_X_trained := None; o_y_trained := None; o_X_tune := Some exX; o_y_tune := Some (map (fun y => [y]) Y);
     o_no_constraint := false; o_sanity := false; o_resample := false; o_t_fix := t; o_all_trees := true;
     o_lamb_draws := None; o_style := Standard; o_dist := DDepth false; o_class_eps := n0; o_class_loss := L2; o_adam := None |}.
Lemma ex_prog_wf : Forall (@wf_tree R) [ex3_reg] /\ Forall pos_leaves [@ex3_reg R _].
Proof. destruct ex_trees_ok as (A&_&B). inversion A; subst. inversion B; subst. auto. Qed.
Lemma ex_prog_runs : forall (lg : R -> R) (y0 y1 y2 t : R) draws, exists out, smooth lg (Forest Reg [ex3_reg]) (ex_prog [y0; y1; y2] t) (ex_rand draws) = Ok out.
Proof.
  intros. destruct ex_prog_wf as (A&B). apply C65_smooth_returns; auto; try discriminate; [|exact Logic.I|exact Logic.I].
  left. split; [reflexivity|]. exists exX, (map (fun y => [y]) [y0; y1; y2]). split; [reflexivity|]. split; [reflexivity|]. split; [discriminate|]. split; [reflexivity|].
  intros r [<-|[<-|[<-|[]]]]; reflexivity.
Qed.
Lemma ex_prog_K : forall (lg : R -> R) (y0 y1 y2 t : R) draws out, smooth lg (Forest Reg [ex3_reg]) (ex_prog [y0; y1; y2] t) (ex_rand draws) = Ok out -> length (s_lamb out) = 2%nat.
Proof.
  intros lg y0 y1 y2 t draws out H. destruct ex_prog_wf as (A&_).
  destruct (depth_mats Reg false Standard [ex3_reg] A) as (G&E&Ti&FM&M).
  destruct (smooth_inv lg Reg [ex3_reg] (ex_prog [y0; y1; y2] t) (ex_rand draws) out _ _ G E Ti H A ltac:(discriminate) FM M) as (_&_&_&LK&_).
  rewrite LK. reflexivity.
Qed.
Lemma ex_prog_leaf : forall lf, routed (@ex3_reg R _) exX lf -> lf 0%nat = 0%nat /\ lf 1%nat = 1%nat /\ lf 2%nat = 1%nat.
Proof.
  intros lf RT. 
  assert (X : forall x v i, nth x (@exX R _) [] = v -> (x < 3)%nat -> leaf_of (@ex3_reg R _) v i -> lf x = i).
  { intros x v i <- Hx Hi. destruct (RT x Hx) as [_ U]. symmetry. auto. }
  split; [|split].
  - apply (X 0%nat _ 0%nat eq_refl); [lia|]. split; [cbn; lia|]. apply (reach_left _ _ 0 1); [constructor|reflexivity|]. apply nleb_true. cbn. lra.
  - apply (X 1%nat _ 1%nat eq_refl); [lia|]. split; [cbn; lia|]. apply (reach_right _ _ 0 2); [constructor|reflexivity|]. apply nleb_false. cbn. change (Pos.to_nat 3) with 3%nat. cbn. lra.
  - apply (X 2%nat _ 1%nat eq_refl); [lia|]. split; [cbn; lia|]. apply (reach_right _ _ 0 2); [constructor|reflexivity|]. apply nleb_false. cbn. change (Pos.to_nat 3) with 3%nat. cbn. lra.
Qed.
Lemma ex3_nums : leaf_v (@ex3_reg R _) 0 0 = 20 /\ leaf_v (@ex3_reg R _) 0 1 = 30 /\ leaf_w (@ex3_reg R _) 0 = 2 /\ leaf_w (@ex3_reg R _) 1 = 2.
Proof. repeat split; exnum. Qed.
Lemma ex3_kernel : forall ts (y0 y1 y2 t : R) k i kap, smooth_kernel (ex_prog [y0; y1; y2] t) ts (@ex3_reg R _) (only 2 k) i kap -> (k < 2)%nat -> (i < 2)%nat ->
  forall j, (j < 2)%nat -> kap j = if Nat.eqb k (if Nat.eqb i j then 0 else 1) then 1 else 0.
Proof.
  intros ts y0 y1 y2 t k i kap HK Kk Hi j Hj. destruct ex_prog_wf as (A&_). inversion A as [|? ? W _]; subst.
  destruct (HK j Hj) as (d&Dd&->). destruct (leaf_dist_conv (@ex3_reg R _) Standard i j W Hi Hj) as (d'&E&Dd').
  assert (d = d') by (eapply leaf_dist_unique; eauto). subst d'.
  assert (ED : d = if Nat.eqb i j then 0%nat else 1%nat).
  { apply Nat2Z.inj. rewrite <- E. destruct i as [|[|i]]; [..|lia]; (destruct j as [|[|j]]; [..|lia]); reflexivity. }
  rewrite ED. unfold dweight, only. destruct k as [|[|k]]; [..|lia]; destruct (Nat.eqb i j); reflexivity.
Qed.
(** the pull of the other leaf, in numbers *)
Lemma ex_prog_pull : forall (y0 y1 y2 t : R) rd k p, (k < 2)%nat -> is_pull (ex_prog [y0; y1; y2] t) rd [ex3_reg] 2 k p ->
  p = if Nat.eqb k 1 then 10 * (y0 - 20) + 10 * (30 - y1) + 10 * (30 - y2) else 0.
Proof.
  intros y0 y1 y2 t rd k p Hk (data&lf&kap&TO&HK&->). destruct (TO 0%nat ex3_reg eq_refl) as [TD RT].
  assert (ED : data 0%nat = (exX, [[y0]; [y1]; [y2]])) by (assert (TE : tuning_data Reg (ex_prog [y0; y1; y2] t) rd 0 = Ok (exX, [[y0]; [y1]; [y2]])) by reflexivity; congruence). rewrite ED in RT. cbn [fst] in RT. destruct (ex_prog_leaf _ RT) as (F0&F1&F2).
  destruct ex3_nums as (V0&V1&W0&W1).
  pose proof (ex3_kernel _ _ _ _ _ k 0 _ (HK 0%nat ex3_reg 0%nat eq_refl ltac:(cbn; lia)) Hk ltac:(lia)) as K0.
  pose proof (ex3_kernel _ _ _ _ _ k 1 _ (HK 0%nat ex3_reg 1%nat eq_refl ltac:(cbn; lia)) Hk ltac:(lia)) as K1.
  cbv zeta. change (length [@ex3_reg R _]) with 1%nat. cbn [sumto]. rewrite ED. cbn [fst snd nth]. change (length (@exX R _)) with 3%nat. change (n_leaves (@ex3_reg R _)) with 2%nat. cbn [sumto].
  rewrite F0, F1, F2, V0, V1, W0, W1, !K0, !K1 by lia. unfold resp. cbn [nth Nat.eqb].
  destruct k as [|[|k]]; [..|lia]; cbn [Nat.eqb]; field.
Qed.
Lemma ex_prog_has_pull : forall (y0 y1 y2 t : R) draws, is_pull (ex_prog [y0; y1; y2] t) (ex_rand draws) [ex3_reg] 2 1 (10 * (y0 - 20) + 10 * (30 - y1) + 10 * (30 - y2)).
Proof.
  intros y0 y1 y2 t draws. destruct ex_prog_wf as (A&B). destruct (ex_prog_runs (fun x => x) y0 y1 y2 t draws) as (out&H). pose proof (ex_prog_K _ _ _ _ _ _ _ H) as LK.
  destruct (run_again (fun x => x) [ex3_reg] _ _ out H A B ltac:(discriminate) ltac:(repeat split; auto) eq_refl eq_refl Logic.I) as (n&L&g&L1&_&_&_&_&_&PU&_).
  assert (n = 1%nat) by lia. subst n. destruct (PU 1%nat ltac:(lia)) as [(p&HP) _]. pose proof (ex_prog_pull _ _ _ _ _ 1 p ltac:(lia) HP) as E. cbn [Nat.eqb] in E. rewrite <- E. exact HP.
Qed.
(** responses 24, 26, 28 lie between the leaf values: smoothing helps *)
Example C91_ex_helps : forall (lg : R -> R) draws, draws <> [] -> exists t0, 0 < t0 /\ forall t, 0 < t < t0 ->
  exists out data lf, smooth lg (Forest Reg [ex3_reg]) (ex_prog [24; 26; 28] t) (ex_rand draws) = Ok out /\ tuning_of Reg (ex_prog [24; 26; 28] t) (ex_rand draws) [ex3_reg] data lf /\
    forest_sse 1 data lf (s_forest out) < forest_sse 1 data lf [ex3_reg].
Proof.
  intros lg draws ND. destruct ex_prog_wf as (A&B). destruct (ex_prog_runs lg 24 26 28 1 draws) as (out&H). pose proof (ex_prog_K _ _ _ _ _ _ _ H) as LK.
  destruct (C91_small_steps_help lg [ex3_reg] _ _ out H A B ltac:(discriminate) ltac:(repeat split; auto) eq_refl eq_refl Logic.I 1%nat _ ltac:(lia)
    ltac:(rewrite LK; apply ex_prog_has_pull) ltac:(cbn; lra)) as (t0&T0&HI).
  exists t0. split; auto. intros t Ht. destruct (ex_prog_runs lg 24 26 28 t draws) as (out'&H'). pose proof (ex_prog_has_pull 24 26 28 1 draws) as (data&lf&_&TO&_).
  exists out', data, lf. split; auto. split; [exact TO|]. exact (HI t draws out' Ht ND H' data lf TO).
Qed.
(** responses 18, 32, 31 lie outside: no step size moves the weights *)
Example C91_ex_stays : forall (lg : R -> R) (t : R) draws, 0 <= t -> exists out,
  smooth lg (Forest Reg [ex3_reg]) (ex_prog [18; 32; 31] t) (ex_rand draws) = Ok out /\ s_lamb out = [1; 0] /\ s_lamb_last out = [1; 0].
Proof.
  intros lg t draws Ht. destruct ex_prog_wf as (A&B). destruct (ex_prog_runs lg 18 32 31 t draws) as (out&H). pose proof (ex_prog_K _ _ _ _ _ _ _ H) as LK.
  exists out. split; auto.
  destruct (C91_no_pull_no_change lg [ex3_reg] _ _ out H A B ltac:(discriminate) ltac:(repeat split; auto) eq_refl eq_refl Logic.I) with (t := t) (draws := draws) (out' := out) as (E1&E2&_); auto.
  - intros k p Hk HP. rewrite LK in Hk, HP. cbn [o_no_constraint ex_prog]. rewrite (ex_prog_pull _ _ _ _ _ k p Hk HP). destruct (Nat.eqb k 1); lra.
  - rewrite LK in E1, E2. auto.
Qed.
(** the same in numbers: one step of size 1/1000 *)
Example C91_ex_run : match smooth (fun x => x) (Forest Reg [ex3_reg]) (ex_prog [24; 26; 28]%Q (1#1000)%Q) (ex_rand [0]%nat) with
  | Ok out => s_lamb out = [9#10; 1#10]%Q /\ match s_costs out with [a; b] => Qlt b a | _ => False end | Err _ => False end.
Proof. vm_compute. auto. Qed.
