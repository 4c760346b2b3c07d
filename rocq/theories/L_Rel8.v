(** L_Rel8: copies of the trees. *)
From Verif Require Import Base TreeSpec Spec M_Tree M_Gamma M_Levels M_Prox M_Grad M_Sgd M_Smooth SpecSmooth SpecRel SpecProg SpecCopy.
From Verif Require Import L_Base L_Tree L_TreeModel L_Dist L_Gamma L_Gamma2 L_Grad L_Sgd L_Sgd2 L_Smooth L_Smooth2 L_Smooth3 L_Smooth4 L_Rel L_Rel2 L_Rel3 L_Rel7.
From Coq Require Import Reals Lra Permutation.
Local Open Scope R_scope.

Definition rmapR {A B} (f : A -> B) (r : result A) : result B := match r with Ok x => Ok (f x) | Err e => Err e end.
Definition rep {A} (m : nat) (l : list A) : list A := flat_map (fun _ : nat => l) (seq 0 m).
Lemma rep_S : forall {A} m (l : list A), rep (S m) l = l ++ rep m l.
Proof. intros. unfold rep. cbn [seq flat_map]. f_equal. rewrite <- seq_shift. rewrite !flat_map_concat_map, map_map. reflexivity. Qed.
Lemma rep_map : forall {A B} (f : A -> B) m l, map f (rep m l) = rep m (map f l).
Proof. intros. unfold rep. apply map_flat. Qed.
Lemma rep_filter : forall {A} (f : A -> bool) m l, filter f (rep m l) = rep m (filter f l).
Proof. intros A f m l. induction m as [|m IH]; [reflexivity|]. rewrite !rep_S, filter_app, IH. reflexivity. Qed.
Lemma nsum_rep : forall m (l : list R), nsum (rep m l) = INR m * nsum l.
Proof. intros m l. induction m as [|m IH]; [cbn; change (@nsum R _ []) with 0; ring|]. rewrite rep_S, nsum_app, IH, S_INR. ring. Qed.
Lemma forallb_rep : forall {A} (f : A -> bool) m l, (0 < m)%nat -> forallb f (rep m l) = forallb f l.
Proof.
  intros A f m l H. destruct m as [|m]; [lia|]. clear H. induction m as [|m IH]; [rewrite rep_S; cbn; rewrite app_nil_r; reflexivity|].
  rewrite rep_S, forallb_app, IH. destruct (forallb f l); reflexivity.
Qed.

(** cost and gradient of repeated rows *)
Definition rep_loss (L : loss R) : Prop := forall m A l, (0 < m)%nat ->
  l_cost L (of_rows (rep m A)) l = rmapR (Rmult (INR m)) (l_cost L (of_rows A) l) /\
  l_grad L (of_rows (rep m A)) l = rmapR (map (Rmult (INR m))) (l_grad L (of_rows A) l).
Lemma l2_rep : rep_loss l2_loss.
Proof.
  intros m A l Hm. split.
  - rewrite !cost_rows, forallb_rep by auto. destruct (forallb _ A); cbn [rmapR]; [|reflexivity]. rewrite rep_map, nsum_rep. reflexivity.
  - destruct (grad_rows A l) as (h&->&H). rewrite H, forallb_rep by auto. destruct (forallb _ A); cbn [rmapR]; [|reflexivity]. rewrite map_map. f_equal. apply map_ext. intros k.
    rewrite rep_map, nsum_rep. rn. ring.
Qed.
Lemma ce_rep : forall lg, rep_loss (ce_loss lg).
Proof.
  intros lg m A l Hm. split.
  - destruct (cost_ce_rows lg) as (h&H). rewrite !H. cbn [rmapR]. rewrite rep_filter, rep_map, nsum_rep. f_equal. rn. ring.
  - destruct (grad_ce_rows lg) as (h&H). rewrite !H, forallb_rep by auto. destruct (forallb _ A); cbn [rmapR]; [|reflexivity]. rewrite map_map. f_equal. apply map_ext. intros k.
    rewrite rep_map, nsum_rep. reflexivity.
Qed.

(** *** two descents with proportional costs and the same candidates *)
Definition cand (L : loss R) (t : R) (ad : option (adam_par R)) (P : problem R) (nt : nat) (st : sgd_state R) (d : nat) : result (list R * option (adam_iv R)) :=
  match ad with
  | None => do grad <- l_grad L (restrict P (Nat.modulo d nt)) (g_lamb st); Ok (map2 (fun l g => nsub l (nmul t g)) (g_lamb st) grad, None)
  | Some p => do r <- adam_step (l_grad L (restrict P (Nat.modulo d nt))) (Some (g_lamb st)) p (g_iv st); Ok (fst r, Some (snd r))
  end.
Definition sc (c : R) (st : sgd_state R) : sgd_state R :=
  {| g_lamb := g_lamb st; g_iv := g_iv st; g_best := g_best st; g_cbest := c * g_cbest st; g_costs := map (Rmult c) (g_costs st) |}.
Section Scaled.
Variables (L : loss R) (proj : list R -> result (list R)) (cons : bool) (t t' : R) (ad : option (adam_par R)) (A B : problem R) (n n' : nat) (c : R) (rel : nat -> nat -> Prop).
Hypothesis CP : 0 < c.
Hypothesis COST : forall l, l_cost L B l = rmapR (Rmult c) (l_cost L A l).
Hypothesis CAND : forall st d d', rel d d' -> cand L t' ad B n' (sc c st) d' = cand L t ad A n st d.
Lemma prop_step : forall st d d', rel d d' -> sgd_step L proj cons t' ad B n' (sc c st) d' = rmapR (sc c) (sgd_step L proj cons t ad A n st d).
Proof using CP COST CAND.
  intros st d d' RD. specialize (CAND st d d' RD). unfold cand in CAND. unfold sgd_step. cbv zeta. rewrite CAND. clear CAND.
  match goal with |- bind ?m _ = _ => destruct m as [[l1 iv1]|e]; cbn [bind rmapR]; [|reflexivity] end.
  destruct (if cons then proj l1 else Ok l1) as [l2|]; cbn [bind rmapR]; [|reflexivity]. rewrite COST.
  destruct (l_cost L A l2) as [x|]; cbn [bind rmapR]; [|reflexivity]. unfold sc. cbn [g_lamb g_iv g_best g_cbest g_costs].
  change (@nltb R _ (c * x) (c * g_cbest st)) with (Rltb (c * x) (c * g_cbest st)). change (@nltb R _ x (g_cbest st)) with (Rltb x (g_cbest st)).
  rewrite map_app. cbn [map]. destruct (Rltb_spec (c * x) (c * g_cbest st)), (Rltb_spec x (g_cbest st)); try reflexivity; exfalso; nra.
Qed.
Lemma prop_run : forall init draws draws', count_trees (p_tidx A) = Ok n -> count_trees (p_tidx B) = Ok n' -> Forall2 rel draws draws' ->
  sgd_run L proj cons t' ad B init draws' = rmapR (fun r => (fst (fst r), snd (fst r), map (Rmult c) (snd r))) (sgd_run L proj cons t ad A init draws).
Proof using CP COST CAND.
  intros init draws draws' CA CB F. unfold sgd_run. rewrite CA, CB, COST. destruct (l_cost L A init) as [c0|]; cbn [bind rmapR]; [|reflexivity].
  assert (X : forall st, foldM (sgd_step L proj cons t' ad B n') draws' (sc c st) = rmapR (sc c) (foldM (sgd_step L proj cons t ad A n) draws st)).
  { clear CA CB. induction F as [|d d' ds ds' E F IH]; intros st; cbn [foldM]; [reflexivity|]. rewrite (prop_step st d d' E).
    destruct (sgd_step L proj cons t ad A n st d) as [st1|]; cbn [bind rmapR]; auto. }
  specialize (X {| g_lamb := init; g_iv := None; g_best := init; g_cbest := c0; g_costs := [c0] |}). unfold sc at 1 in X. cbn [g_lamb g_iv g_best g_cbest g_costs map] in X. rewrite X.
  destruct (foldM _ draws _) as [st|]; cbn [bind rmapR]; reflexivity.
Qed.
End Scaled.

Lemma flat_swap : forall {A B C} (f : A -> B -> list C) la lb, Permutation (flat_map (fun a => flat_map (f a) lb) la) (flat_map (fun b => flat_map (fun a => f a b) la) lb).
Proof.
  intros A B C f la lb. induction la as [|a la IH]; cbn [flat_map].
  - induction lb; cbn; auto.
  - eapply perm_trans; [apply Permutation_app_head, IH|]. clear IH. induction lb as [|b lb IH]; cbn [flat_map]; [auto|].
    rewrite <- !app_assoc. apply Permutation_app_head. eapply perm_trans; [|apply Permutation_app_head, IH]. rewrite !app_assoc. apply Permutation_app_tail, Permutation_app_comm.
Qed.
Lemma seq_blocks : forall n m, seq 0 (m * n) = flat_map (fun i => map (fun q => i * n + q)%nat (seq 0 n)) (seq 0 m).
Proof.
  intros n m. induction m as [|m IH]; [reflexivity|]. replace (S m * n)%nat with (m * n + n)%nat by lia. rewrite seq_app, IH, seq_S, flat_map_app. cbn [flat_map Nat.add]. rewrite app_nil_r. f_equal.
  clear. generalize (m * n)%nat as a. intros a. rewrite <- (map_id (seq a n)) at 1. replace (seq a n) with (map (fun q => a + q)%nat (seq 0 n)); [rewrite map_map; reflexivity|].
  induction a as [|a IH]; [cbn; apply map_id|]. rewrite <- seq_shift, <- IH, map_map. reflexivity.
Qed.

Definition spread (s : nat -> nat -> nat) (m : nat) (A : list prow) : list prow := flat_map (fun i => map (ren (s i)) A) (seq 0 m).
Lemma spread_cost : forall L s m A l, (0 < m)%nat -> ren_free L -> rep_loss L ->
  l_cost L (of_rows (spread s m A)) l = rmapR (Rmult (INR m)) (l_cost L (of_rows A) l) /\
  l_grad L (of_rows (spread s m A)) l = rmapR (map (Rmult (INR m))) (l_grad L (of_rows A) l).
Proof.
  intros L s m A l Hm LR LP. set (z := fun _ : nat => 0%nat).
  assert (E : map (ren z) (spread s m A) = rep m (map (ren z) A)).
  { unfold spread, rep. rewrite map_flat. apply flat_ext. intros i _. rewrite map_map. reflexivity. }
  rewrite <- (proj1 (LR z (spread s m A) l)), <- (proj2 (LR z (spread s m A) l)), E. destruct (LP m (map (ren z) A) l Hm) as (-> & ->).
  rewrite (proj1 (LR z A l)), (proj2 (LR z A l)). auto.
Qed.
Lemma filter_none : forall {A} (f : A -> bool) l, (forall x, In x l -> f x = false) -> filter f l = [].
Proof. intros A f l H. induction l as [|x l IH]; [reflexivity|]. cbn. rewrite (H x) by (left; auto). apply IH. intros; apply H; right; auto. Qed.
Lemma filter_flat : forall {A B} (f : B -> bool) (g : A -> list B) l, filter f (flat_map g l) = flat_map (fun x => filter f (g x)) l.
Proof. intros. induction l; cbn; auto. rewrite filter_app, IHl. reflexivity. Qed.
Lemma flat_single : forall {B} (f : nat -> list B) i m, (i < m)%nat -> (forall j, (j < m)%nat -> j <> i -> f j = []) -> flat_map f (seq 0 m) = f i.
Proof.
  intros B f i m Hi H. replace m with (i + (1 + (m - S i)))%nat by lia. rewrite seq_app, flat_map_app, seq_app, flat_map_app. cbn [seq flat_map Nat.add]. rewrite app_nil_r.
  assert (Z : forall a k, (forall j, (a <= j < a + k)%nat -> f j = []) -> flat_map f (seq a k) = []).
  { clear. intros a k. revert a. induction k as [|k IH]; intros a X; [reflexivity|]. cbn [seq flat_map]. rewrite (X a) by lia. rewrite IH; [reflexivity|]. intros; apply X; lia. }
  rewrite Z, Z; [cbn; apply app_nil_r|intros j Hj; apply H; lia|intros j Hj; apply H; lia].
Qed.
Lemma spread_filter : forall n m A q, (q < m * n)%nat -> (forall r, In r A -> (r_q r < n)%nat) ->
  filter (fun r => Nat.eqb (r_q r) q) (spread (fun i x => (i * n + x)%nat) m A) = map (ren (fun x => (q / n * n + x)%nat)) (filter (fun r => Nat.eqb (r_q r) (q mod n)) A).
Proof.
  intros n m A q Hq HA. assert (n <> 0)%nat as Hn by (intros ->; lia). pose proof (Nat.div_mod q n Hn) as DM. pose proof (Nat.mod_upper_bound q n Hn) as MB.
  assert (DB : (q / n < m)%nat) by (apply Nat.div_lt_upper_bound; lia).
  assert (FM : forall s (B : list prow), filter (fun r => Nat.eqb (r_q r) q) (map (ren s) B) = map (ren s) (filter (fun r => Nat.eqb (s (r_q r)) q) B)).
  { clear. intros s B. induction B as [|r B IH]; [reflexivity|]. cbn [map filter ren r_q]. destruct (Nat.eqb (s (r_q r)) q); cbn [map]; rewrite IH; reflexivity. }
  unfold spread. rewrite filter_flat. rewrite (flat_single _ (q / n)%nat m DB).
  - rewrite FM. f_equal. apply filter_ext. intros r. destruct (Nat.eqb_spec (q / n * n + r_q r) q), (Nat.eqb_spec (r_q r) (q mod n)); auto; exfalso; lia.
  - intros j Hj NJ. rewrite FM. rewrite (filter_none _ A); [reflexivity|]. intros r Hr. specialize (HA r Hr). apply Nat.eqb_neq. intros X. apply NJ.
    rewrite <- X. rewrite Nat.div_add_l, Nat.div_small by lia. lia.
Qed.

Section Copies.
Variables (lg : R -> R) (kd : kind) (o : smooth_opts R) (t' : R) (pa : bool) (m : nat) (ts ts' : list (tree R)) (rd rd' : randomness).
Hypothesis WF : Forall wf_tree ts.
Hypothesis NE : ts <> [].
Hypothesis DD : o_dist o = DDepth pa.
Hypothesis CO : copied m ts ts' rd rd'.
Hypothesis HT : (o_all_trees o = false /\ t' = o_t_fix o) \/ (o_all_trees o = true /\ o_adam o = None /\ o_t_fix o = INR m * t').
Let n := length ts.
Let o' := stepped t' o.
Let d0 : tree R := mkTree [] [] [] [] [] [] [].
Let its := combine (seq 0 (length ts)) ts.
Let its' := combine (seq 0 (length ts')) ts'.

Lemma cp_pos : (0 < n)%nat.
Proof using NE. unfold n. pose proof NE as X. clear -X. destruct ts; [congruence|cbn; lia]. Qed.
Lemma cp_nth : forall q, (q < m * n)%nat -> nth_error ts' q = Some (nth (q mod n) ts d0).
Proof using CO NE. clear HT.
  intros q Hq. destruct CO as (_&L&H&_). destruct (H q) as (->&_); [rewrite L; exact Hq|]. apply nth_error_nth'. apply Nat.mod_upper_bound. pose proof cp_pos; unfold n in *; lia.
Qed.
Lemma cp_its : its = map (fun q => (q, nth q ts d0)) (seq 0 n).
Proof using. apply combine_seq_map. Qed.
Lemma cp_its' : its' = flat_map (fun i => map (fun q => (i * n + q, nth q ts d0)%nat) (seq 0 n)) (seq 0 m).
Proof using CO NE. clear HT.
  unfold its'. rewrite (combine_seq_map d0). destruct CO as (_&L&_). rewrite L. fold n. rewrite seq_blocks, map_flat. apply flat_ext. intros i Hi. apply in_seq in Hi.
  rewrite map_map. apply map_ext_in. intros q Hq. apply in_seq in Hq. f_equal. assert (B : (i * n + q < m * n)%nat) by nia.
  rewrite (nth_error_nth _ _ d0 (cp_nth _ B)). f_equal. rewrite Nat.add_comm, Nat.mod_add, Nat.mod_small; lia.
Qed.
Lemma cp_in : forall t, In t ts' -> In t ts.
Proof using CO NE. clear HT.
  intros t Ht. apply In_nth_error in Ht. destruct Ht as (q&Nq). assert (Hq : (q < m * n)%nat). { destruct CO as (_&L&_). fold n in L. rewrite <- L. apply nth_error_Some. congruence. }
  rewrite (cp_nth q Hq) in Nq. inversion Nq. apply nth_In. apply Nat.mod_upper_bound. pose proof cp_pos; unfold n in *; lia.
Qed.
Lemma cp_in' : forall t, In t ts -> In t ts'.
Proof using CO NE. clear HT.
  intros t Ht. apply In_nth_error in Ht. destruct Ht as (q&Nq). assert (Hq : (q < n)%nat) by (apply nth_error_Some; congruence).
  assert (M0 : (0 < m)%nat) by apply CO. assert (B : (q < m * n)%nat) by nia. pose proof (cp_nth q B) as X. rewrite Nat.mod_small in X by auto.
  rewrite (nth_error_nth _ _ d0 Nq) in X. eapply nth_error_In; eauto.
Qed.
Lemma cp_wf : Forall wf_tree ts'.
Proof using CO NE WF. clear HT. apply Forall_forall. intros t Ht. rewrite Forall_forall in WF. apply WF, cp_in; auto. Qed.
Lemma cp_ne : ts' <> [].
Proof using CO NE. clear HT. intros X. pose proof cp_pos. destruct CO as (M0&L&_). rewrite X in L. cbn in L. unfold n in *. nia. Qed.
Lemma fold_max_sup : forall {A} (f : A -> nat) l a, (a <= fold_left (fun x t => Nat.max x (f t)) l a)%nat /\ (forall t, In t l -> (f t <= fold_left (fun x t => Nat.max x (f t)) l a)%nat) /\
  (fold_left (fun x t => Nat.max x (f t)) l a = a \/ exists t, In t l /\ fold_left (fun x t => Nat.max x (f t)) l a = f t).
Proof using.
  clear. intros A f l. induction l as [|t l IH]; intros a; cbn [fold_left]; [split; [lia|split; [intros t []|auto]]|].
  destruct (IH (Nat.max a (f t))) as (I1&I2&I3). split; [lia|]. split.
  - intros u [<-|Hu]; [lia|auto].
  - destruct I3 as [E|(u&Hu&E)]; [|right; exists u; split; [right; auto|exact E]].
    destruct (Nat.max_spec a (f t)) as [[_ X]|[_ X]]; rewrite X in *; [right; exists t; split; [left; auto|exact E]|left; exact E].
Qed.
Lemma cp_depth : calc_depth_for_forest ts' = (map depth_per_node ts', snd (calc_depth_for_forest ts)).
Proof using CO NE. clear HT.
  unfold calc_depth_for_forest. f_equal. cbn [snd]. set (f := fun t : tree R => list_maxn (depth_per_node t)).
  change (fold_left (fun x t => Nat.max x (f t)) ts' 0%nat = fold_left (fun x t => Nat.max x (f t)) ts 0%nat).
  destruct (fold_max_sup f ts 0) as (_&A1&A2). destruct (fold_max_sup f ts' 0) as (_&B1&B2). apply Nat.le_antisymm.
  - destruct B2 as [->|(t&Ht&->)]; [lia|]. apply A1, cp_in; auto.
  - destruct A2 as [->|(t&Ht&->)]; [lia|]. apply B1, cp_in'; auto.
Qed.
Lemma cp_tg : forall i q t, (i < m)%nat -> (q < n)%nat -> tg kd o' rd' (i * n + q, t)%nat = tg kd o rd (q, t).
Proof using CO NE. clear HT.
  intros i q t Hi Hq. unfold tg, tuning_data. cbn [fst snd]. destruct CO as (_&L&H&_). destruct (H (i * n + q)%nat) as (_&->&->); [rewrite L; fold n; nia|].
  fold n. rewrite Nat.add_comm, Nat.mod_add, Nat.mod_small by lia. reflexivity.
Qed.
Definition shift (i x : nat) : nat := if o_all_trees o then x else (i * n + x)%nat.
Lemma cp_blk : forall K c i q t, (i < m)%nat -> (q < n)%nat -> blk kd o' rd' pa (o_style o) K c (i * n + q, t)%nat = map (ren (shift i)) (blk kd o rd pa (o_style o) K c (q, t)).
Proof using CO NE. clear HT.
  intros K c i q t Hi Hq. unfold blk. rewrite zip5_ren. unfold tf. rewrite cp_tg by auto. cbn [fst snd]. f_equal.
  unfold shift, tix, o'. cbn [o_all_trees stepped]. generalize (length (snd (gef kd pa (o_style o) t))) as k. induction k as [|k IH]; [reflexivity|]. cbn [repeat map]. rewrite <- IH.
  destruct (o_all_trees o); reflexivity.
Qed.
Lemma cp_rows : forall K, Permutation (allrows kd o' pa rd' K its') (spread shift m (allrows kd o pa rd K its)).
Proof using CO NE. clear HT.
  intros K. unfold allrows, spread. eapply perm_trans; [|eapply perm_trans; [apply (flat_swap (fun c i => map (ren (shift i)) (flat_map (blk kd o rd pa (o_style o) K c) its)))|]].
  - apply flat_perm. intros c. rewrite cp_its'. 
    assert (E : flat_map (blk kd o' rd' pa (o_style o') K c) (flat_map (fun i => map (fun q => (i * n + q, nth q ts d0)%nat) (seq 0 n)) (seq 0 m)) =
      flat_map (fun i => map (ren (shift i)) (flat_map (blk kd o rd pa (o_style o) K c) its)) (seq 0 m)).
    { rewrite (flat_map_concat_map _ (flat_map _ _)). rewrite map_flat. rewrite flat_map_concat_map. 
      assert (CF : forall {A B} (f : A -> list (list B)) l, concat (concat (map f l)) = flat_map (fun x => concat (f x)) l).
      { clear. intros A B f l. induction l; cbn; auto. rewrite concat_app, IHl. reflexivity. }
      rewrite CF. apply flat_ext. intros i Hi. apply in_seq in Hi. rewrite map_map, <- flat_map_concat_map, map_flat, cp_its, (flat_map_concat_map _ (map _ _)), map_map, <- flat_map_concat_map.
      apply flat_ext. intros q Hq. apply in_seq in Hq. apply cp_blk; lia. }
    rewrite E. apply Permutation_refl.
  - apply flat_perm. intros i. rewrite map_flat. apply Permutation_refl.
Qed.
Lemma cp_opt : forall K G E Ti G' E' Ti' Y W Y' W' sel sel' l lb ll cs, (0 < n_gamma kd)%nat -> mats kd ts K sel G E Ti -> mats kd ts' K sel' G' E' Ti' ->
  flatten kd o G E Ti Y W = of_rows (allrows kd o pa rd K its) -> flatten kd o' G' E' Ti' Y' W' = of_rows (allrows kd o' pa rd' K its') ->
  optimise lg kd o rd (flatten kd o G E Ti Y W) l = Ok (lb, ll, cs) -> optimise lg kd o' rd' (flatten kd o' G' E' Ti' Y' W') l = Ok (lb, ll, map (Rmult (INR m)) cs).
Proof using WF NE CO HT.
  intros K G E Ti G' E' Ti' Y W Y' W' sel sel' l lb ll cs NG M M' F F' H.
  destruct (ncols_mats _ _ _ _ _ _ _ WF NE M) as (_&NC&_). destruct (ncols_mats _ _ _ _ _ _ _ cp_wf cp_ne M') as (_&NC'&_). specialize (NC ltac:(lia)). specialize (NC' ltac:(lia)).
  destruct (count_mats kd o ts K sel G E Ti Y W M WF NE ltac:(lia)) as (CA&BA).
  destruct (count_mats kd o' ts' K sel' G' E' Ti' Y' W' M' cp_wf cp_ne ltac:(lia)) as (CB&_).
  assert (M0 : (0 < m)%nat) by apply CO. assert (IM : 0 < INR m) by (apply lt_0_INR; auto). assert (LL : length ts' = (m * n)%nat) by apply CO. rewrite LL in CB.
  assert (XL : forall L proj, row_sym L -> ren_free L -> rep_loss L ->
    sgd_run L proj (negb (o_no_constraint o')) (o_t_fix o') (o_adam o') (flatten kd o' G' E' Ti' Y' W') l (r_draws rd') =
    rmapR (fun r => (fst (fst r), snd (fst r), map (Rmult (INR m)) (snd r))) (sgd_run L proj (negb (o_no_constraint o)) (o_t_fix o) (o_adam o) (flatten kd o G E Ti Y W) l (r_draws rd))).
  { intros L proj LS LR LP. rewrite F, F' in *. cbn [o' stepped o_t_fix o_adam o_no_constraint o_all_trees] in *.
    eapply prop_run with (rel := fun d d' => ((d' mod length ts') mod length ts = d mod length ts)%nat); [exact IM| | |exact CA|exact CB|apply CO].
    - intros l0. rewrite (proj1 (LS _ _ l0 (cp_rows K))). apply spread_cost; auto.
    - intros st d d' RD. rewrite LL in RD. fold n in RD. destruct HT as [(AT&ET)|(AT&AD&ET)]; rewrite AT in *; cbn [sc g_lamb g_iv].
      + assert (GE : forall x, l_grad L (restrict (of_rows (allrows kd o' pa rd' K its')) (d' mod (m * n))) x = l_grad L (restrict (of_rows (allrows kd o pa rd K its)) (d mod n)) x).
        { intros x. rewrite !restrict_rows. rewrite (proj2 (LS _ _ x (filter_perm _ _ _ (cp_rows K)))).
          assert (SE : spread shift m (allrows kd o pa rd K its) = spread (fun i x => (i * n + x)%nat) m (allrows kd o pa rd K its)) by (unfold shift; rewrite AT; reflexivity).
          rewrite SE, spread_filter.
          - rewrite (proj2 (LR _ _ x)), RD. reflexivity.
          - apply Nat.mod_upper_bound. pose proof cp_pos. nia.
          - intros r Hr. apply BA. cbn [of_rows p_tidx]. apply in_map; auto. }
        unfold cand. cbn [sc g_lamb g_iv]. fold n. subst t'. destruct (o_adam o) as [p|]; [|rewrite GE; reflexivity]. unfold adam_step. destruct (g_iv st); cbn [bind iv_lamb]; rewrite GE; reflexivity.
      + unfold cand. cbn [sc g_lamb g_iv]. rewrite AD. rewrite !Nat.mod_1_r.
        assert (Z : forall r K0 its0, (forall x, In x (allrows kd r pa K0 K its0) -> r_q x = 0%nat) -> restrict (of_rows (allrows kd r pa K0 K its0)) 0 = of_rows (allrows kd r pa K0 K its0)).
        { clear. intros r K0 its0 Hz. rewrite restrict_rows. f_equal. induction (allrows kd r pa K0 K its0) as [|x A IH]; [reflexivity|]. cbn [filter].
          rewrite (Hz x) by (left; auto). cbn [Nat.eqb]. f_equal. apply IH. intros; apply Hz; right; auto. }
        assert (ZA : forall x, In x (allrows kd o pa rd K its) -> r_q x = 0%nat).
        { intros x Hx. assert (r_q x < 1)%nat; [|lia]. apply BA. cbn [of_rows p_tidx]. apply in_map; auto. }
        rewrite (Z o rd its ZA). rewrite (Z o' rd' its').
        2:{ intros x Hx. apply (Permutation_in _ (cp_rows K)) in Hx. unfold spread in Hx. apply in_flat_map in Hx. destruct Hx as (i&_&Hx). apply in_map_iff in Hx. destruct Hx as (y&<-&Hy).
            cbn [ren r_q]. unfold shift. rewrite AT. auto. }
        rewrite (proj2 (LS _ _ (g_lamb st) (cp_rows K))). rewrite (proj2 (spread_cost L shift m _ (g_lamb st) M0 LR LP)).
        destruct (l_grad L (of_rows (allrows kd o pa rd K its)) (g_lamb st)) as [g|]; cbn [bind rmapR]; [|reflexivity]. do 2 f_equal.
        generalize (g_lamb st) as a. induction g as [|x g IH]; intros [|y a]; try reflexivity. cbn [map map2]. f_equal; [|apply IH]. rn. rewrite ET. ring. }
  unfold optimise in *. change (o_sanity o') with (o_sanity o). change (o_class_loss o') with (o_class_loss o). change (o_class_eps o') with (o_class_eps o). destruct (o_sanity o); [inversion H; reflexivity|].
  assert (GA : forall (a : smooth_opts R) G E Ti Y W, p_Gamma (flatten kd a G E Ti Y W) = concat G) by reflexivity.
  assert (X2 : stocastic_grad_descent (flatten kd o' G' E' Ti' Y' W') l t' (negb (o_no_constraint o)) (o_adam o) (r_draws rd') =
    rmapR (fun r => (fst (fst r), snd (fst r), map (Rmult (INR m)) (snd r))) (stocastic_grad_descent (flatten kd o G E Ti Y W) l (o_t_fix o) (negb (o_no_constraint o)) (o_adam o) (r_draws rd))).
  { unfold stocastic_grad_descent. rewrite !GA, NC, NC'. destruct (negb (Nat.eqb K (length l))); [reflexivity|]. destruct (_ && _)%bool; [reflexivity|]. apply (XL _ _ l2_sym l2_ren l2_rep). }
  assert (XC : stocastic_grad_descent_ce lg (flatten kd o' G' E' Ti' Y' W') l t' (negb (o_no_constraint o)) (o_class_eps o) (o_adam o) (r_draws rd') =
    rmapR (fun r => (fst (fst r), snd (fst r), map (Rmult (INR m)) (snd r))) (stocastic_grad_descent_ce lg (flatten kd o G E Ti Y W) l (o_t_fix o) (negb (o_no_constraint o)) (o_class_eps o) (o_adam o) (r_draws rd))).
  { unfold stocastic_grad_descent_ce. rewrite !GA, NC, NC'. destruct (negb (Nat.eqb K (length l))); [reflexivity|]. apply (XL _ _ (ce_sym lg) (ce_ren lg) (ce_rep lg)). }
  change (o_t_fix o') with t'. change (o_no_constraint o') with (o_no_constraint o). change (o_adam o') with (o_adam o). rewrite X2, XC. destruct kd; [|destruct (o_class_loss o)]; rewrite H; reflexivity.
Qed.

Lemma p_C92 : forall out, smooth lg (Forest kd ts) o rd = Ok out ->
  exists out', smooth lg (Forest kd ts') o' rd' = Ok out' /\ s_lamb out' = s_lamb out /\ s_lamb_last out' = s_lamb_last out /\ s_lamb2 out' = s_lamb2 out /\
    s_costs out' = map (Rmult (INR m)) (s_costs out) /\ length (s_forest out') = length ts' /\
    forall q, (q < length ts')%nat -> nth_error (s_forest out') q = nth_error (s_forest out) (q mod length ts).
Proof using WF NE DD CO HT.
  intros out H. pose proof cp_ne as NE'.
  set (K := (snd (calc_depth_for_forest ts) + 1)%nat).
  destruct (depth_mats kd pa (o_style o) ts WF) as (G&E&Ti&FM&M). fold K in M.
  destruct (depth_mats kd pa (o_style o) ts' cp_wf) as (G'&E'&Ti'&FM'&M'). rewrite cp_depth in M'. cbn [snd] in M'. fold K in M'.
  assert (FO : forest_matrices kd o ts = Ok (G, E, Ti)) by (unfold forest_matrices; rewrite DD; exact FM).
  assert (FO' : forest_matrices kd o' ts' = Ok (G', E', Ti')) by (unfold forest_matrices, o'; cbn [o_dist stepped]; rewrite DD; exact FM').
  destruct (smooth_inv _ _ _ _ _ _ _ _ _ _ _ H WF NE FO M) as (CC&(Y&W&AT&OP)&L2&_&_&_&_&VF&_).
  assert (WI : Forall (fun it => wf_tree (snd it)) its).
  { apply Forall_forall. intros [q t] Hi. apply in_combine_r in Hi. pose proof WF as X. rewrite Forall_forall in X. auto. }
  assert (WI' : Forall (fun it => wf_tree (snd it)) its').
  { apply Forall_forall. intros [q t] Hi. apply in_combine_r in Hi. pose proof cp_wf as X. rewrite Forall_forall in X. auto. }
  pose proof AT as AT0. unfold all_targets in AT0. fold its in AT0. destruct (targets_blocks _ _ _ _ _ _ _ AT0) as (TO&_).
  assert (TO' : Forall (fun it => tg kd o' rd' it = Ok (tf kd o' rd' it)) its').
  { rewrite cp_its'. apply Forall_forall. intros it Hi. apply in_flat_map in Hi. destruct Hi as (i&Hi0&Hi). apply in_seq in Hi0. apply in_map_iff in Hi. destruct Hi as (q&<-&Hq). apply in_seq in Hq.
    unfold tf. rewrite cp_tg by lia. rewrite cp_its in TO. rewrite Forall_forall in TO. rewrite (TO (q, nth q ts d0)); [reflexivity|].
    apply in_map_iff; exists q; split; [reflexivity|]; apply in_seq; lia. }
  pose proof (blocks_targets kd o' rd' its' [] [] TO') as AT1.
  assert (AT' : exists Y' W', all_targets kd o' rd' ts' = Ok (Y', W')) by (unfold all_targets; fold its'; eauto). clear AT1.
  destruct AT' as (Y'&W'&AT').
  assert (FB : flatten kd o G E Ti Y W = of_rows (allrows kd o pa rd K its)) by (eapply flatten_blocks; eauto).
  assert (FB' : flatten kd o' G' E' Ti' Y' W' = of_rows (allrows kd o' pa rd' K its')).
  { eapply flatten_blocks; eauto. unfold create_Gamma_eta_forest, stack_forest in FM'. rewrite cp_depth in FM'. exact FM'. }
  assert (OP' : optimise lg kd o' rd' (flatten kd o' G' E' Ti' Y' W') (initial_lamb kd o' K) = Ok (s_lamb out, s_lamb_last out, map (Rmult (INR m)) (s_costs out))).
  { change (initial_lamb kd o' K) with (initial_lamb kd o K). destruct (Nat.eq_dec (n_gamma kd) 0) as [Z|Z].
    - assert (ZF : flatten kd o G E Ti Y W = of_rows [] /\ flatten kd o' G' E' Ti' Y' W' = of_rows []). { rewrite FB, FB'. unfold allrows. rewrite Z. auto. }
      destruct ZF as (Z1&Z2). rewrite Z2. rewrite Z1 in OP. unfold optimise in *. cbn [o' stepped o_sanity]. destruct (o_sanity o); [inversion OP; reflexivity|]. exfalso.
      assert (Q : forall L proj cn tt ad l dr, sgd_run L proj cn tt ad (of_rows []) l dr = Ok (s_lamb out, s_lamb_last out, s_costs out) -> False).
      { clear. intros L proj cn tt ad l dr H0. unfold sgd_run in H0. destruct (l_cost _ _ _); cbn in H0; discriminate. }
      unfold stocastic_grad_descent, stocastic_grad_descent_ce in OP.
      destruct kd; [|destruct (o_class_loss o)]; repeat match type of OP with (if ?b then _ else _) = _ => destruct b; [discriminate|] end; eapply Q; eauto.
    - eapply cp_opt with (G := G) (E := E); eauto. lia. }
  assert (RUN : exists out', smooth lg (Forest kd ts') o' rd' = Ok out').
  { pose proof H as H0. unfold smooth in H0 |- *. change (oob_logic o') with (oob_logic o). cbn [o' stepped o_resample o_X_trained o_y_trained o_no_constraint] in *.
    destruct ((oob_logic o || o_resample o) && _)%bool; [discriminate|].
    destruct (match kd with Reg => false | Class _ => o_no_constraint o end); [discriminate|]. clear H0. fold o'.
    rewrite FO'. cbn [bind]. rewrite AT'. cbn [bind]. destruct (ncols_mats _ _ _ _ _ _ _ cp_wf NE' M') as (->&_). rewrite OP'. cbn [bind].
    pose proof M' as (_&LE&_&_&V).
    match goal with |- context [write_forest ?Y1 0 ts'] => destruct (write_forest_ok Y1 ts' 0 cp_wf) as (f1&->&_); [rewrite unflatten_length; lia|] end. cbn [bind].
    match goal with |- context [write_forest2 ?Y1 0 ts'] => destruct (write_forest2_ok Y1 ts' cp_wf) as (f2&->&_) end.
    { intros t Ht. rewrite unflatten_length. destruct (In_nth_error _ _ Ht) as (q&Nq). pose proof (offset_le ts' q t Nq). lia. }
    cbn [bind]. eauto. }
  destruct RUN as (out'&RUN). exists out'. split; auto.
  destruct (smooth_inv _ _ _ _ _ _ _ _ _ _ _ RUN cp_wf NE' FO' M') as (_&(Y1&W1&A1&O1)&L2'&_&_&LF'&_&VF'&_).
  rewrite AT' in A1. inversion A1; subst Y1 W1. rewrite OP' in O1. inversion O1 as [[S1 S2 S3]].
  split; [auto|]. split; [auto|]. split; [congruence|]. split; [auto|]. split; [congruence|].
  intros q Hq. assert (Hq' : (q < m * n)%nat) by (destruct CO as (_&L&_); fold n in L; lia). pose proof (cp_nth q Hq') as NQ.
  assert (PB : (q mod n < length ts)%nat) by (apply Nat.mod_upper_bound; pose proof cp_pos; lia).
  pose proof (nth_error_nth' ts d0 PB) as NT. fold n. set (t := nth (q mod n) ts d0) in *.
  destruct (VF _ _ NT) as (a&Na&SA&VA). destruct (VF' _ _ NQ) as (b&Nb&SB&VB). rewrite Na, Nb. f_equal.
  apply (leaves_eq kd t); auto. { pose proof WF as X. rewrite Forall_forall in X. apply X. eapply nth_error_In; eauto. }
  intros i Hi. destruct (VA i Hi) as (LA&KA). destruct (VB i Hi) as (LB&KB). split; auto. split; auto. intros c Hc. rewrite KA, KB by auto. rewrite S1.
  unfold kap_sel. rewrite NT, NQ. reflexivity.
Qed.
End Copies.
