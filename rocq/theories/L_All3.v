(** L_All3: when the tuning data determine the weights, smooth_all returns the least squares weights. *)
From Verif Require Import Base TreeSpec Spec M_Tree M_Gamma M_Levels M_Grad M_Smooth M_Level SpecSmooth SpecTune SpecClean SpecLevel SpecRel2 SpecAll.
From Verif Require Import L_Base L_Tree L_TreeModel L_Dist L_Gamma L_Gamma2 L_Sgd L_Grad L_Smooth L_Smooth2 L_Smooth3 L_Smooth4 L_Route L_Tune L_Clean3 L_Level3 L_Level4 L_Level5 L_Level6 L_Level7 L_Level8 L_Level9 L_Rel L_Rel7 L_Rel9 L_All L_All2.
From Coq Require Import Reals Lra Lia Permutation.
Local Open Scope R_scope.

Lemma sumto_some_pos : forall n f, (forall i, (i < n)%nat -> 0 <= f i) -> (exists i, (i < n)%nat /\ 0 < f i) -> 0 < sumto n f.
Proof.
  induction n as [|n IH]; intros f A (i & Hi & P); [lia|]. cbn [sumto]. destruct (Nat.eq_dec i n) as [->|NE].
  - assert (0 <= sumto n f) by (apply sumto_nonneg; intros; apply A; lia). lra.
  - assert (0 < sumto n f) by (apply IH; [intros; apply A; lia|exists i; split; [lia|auto]]). specialize (A n ltac:(lia)). lra.
Qed.

(** sums of squares over the observations *)
Definition mean_sq (nt : nat) (data : nat -> list (list R) * list R) (lf : nat -> nat -> nat) (p : nat -> nat -> R) : R :=
  sumto nt (fun q => sumto (length (fst (data q))) (fun x => p q (lf q x) ^ 2) / INR (length (fst (data q)))).
Lemma sse_mid : forall nt data lf p p', mean_sse nt data lf (fun q i => (p q i + p' q i) / 2)
  = (mean_sse nt data lf p + mean_sse nt data lf p') / 2 - mean_sq nt data lf (fun q i => p q i - p' q i) / 4.
Proof.
  intros nt data lf p p'. unfold mean_sse, mean_sq. induction nt as [|nt IH]; cbn [sumto]; [lra|]. rewrite IH.
  assert (E : sumto (length (fst (data nt))) (fun x => (nth x (snd (data nt)) 0 - (p nt (lf nt x) + p' nt (lf nt x)) / 2) ^ 2)
    = (sumto (length (fst (data nt))) (fun x => (nth x (snd (data nt)) 0 - p nt (lf nt x)) ^ 2) + sumto (length (fst (data nt))) (fun x => (nth x (snd (data nt)) 0 - p' nt (lf nt x)) ^ 2)) / 2
      - sumto (length (fst (data nt))) (fun x => (p nt (lf nt x) - p' nt (lf nt x)) ^ 2) / 4).
  { induction (length (fst (data nt))) as [|m IHm]; cbn [sumto]; [lra|]. rewrite IHm. field. }
  rewrite E. unfold Rdiv. ring.
Qed.
Lemma sse_zero : forall nt data lf p, mean_sse nt data lf p + mean_sse nt data lf (fun q i => - p q i) - 2 * mean_sse nt data lf (fun _ _ => 0) = 2 * mean_sq nt data lf p.
Proof.
  intros nt data lf p. pose proof (sse_mid nt data lf p (fun q i => - p q i)) as E. cbv beta in E.
  assert (E1 : mean_sse nt data lf (fun q i => (p q i + - p q i) / 2) = mean_sse nt data lf (fun _ _ => 0)).
  { unfold mean_sse. apply sumto_ext. intros q Hq. f_equal. apply sumto_ext. intros x Hx. f_equal. field. }
  assert (E2 : mean_sq nt data lf (fun q i => p q i - - p q i) = 4 * mean_sq nt data lf p).
  { unfold mean_sq. rewrite <- sumto_scal. apply sumto_ext. intros q Hq. unfold Rdiv. rewrite <- Rmult_assoc. f_equal. rewrite <- sumto_scal. apply sumto_ext. intros x Hx. ring. }
  rewrite E1, E2 in E. lra.
Qed.
Lemma mean_sq_pos : forall nt data lf p, (exists q x, (q < nt)%nat /\ (x < length (fst (data q)))%nat /\ p q (lf q x) <> 0) -> 0 < mean_sq nt data lf p.
Proof.
  intros nt data lf p (q & x & Hq & Hx & NZ). unfold mean_sq. apply sumto_some_pos.
  - intros i _. unfold Rdiv. destruct (length (fst (data i))) as [|m] eqn:E; [cbn; lra|]. apply Rmult_le_pos; [apply sumto_nonneg; intros; apply pow2_ge_0|]. apply Rlt_le, Rinv_0_lt_compat. apply (lt_INR 0). lia.
  - exists q. split; auto. unfold Rdiv. apply Rmult_lt_0_compat.
    + apply sumto_some_pos; [intros; apply pow2_ge_0|]. exists x. split; auto. pose proof (pow2_ge_0 (p q (lf q x))). assert (p q (lf q x) ^ 2 <> 0) by (apply pow_nonzero; auto). lra.
    + apply Rinv_0_lt_compat. apply (lt_INR 0). lia.
Qed.

Section Exact.
Variables (o : all_opts R) (oob boot : nat -> list nat) (ts : list (tree R)) (data : nat -> list (list R) * list R) (lf : nat -> nat -> nat).
Hypothesis WF : Forall wf_tree ts.
Hypothesis DT : all_data o oob boot ts data lf.
Hypothesis DE : determined ts (a_parents_all o) (K_of ts) data lf.
Let pred (l : list R) (q i : nat) : R := sumto (K_of ts) (fun k => nth k l 0 * lmean o (nth q ts no_tree) i k).
Lemma told_apart : forall l l', length l = K_of ts -> length l' = K_of ts -> l <> l' -> 0 < mean_sq (length ts) data lf (fun q i => pred l q i - pred l' q i).
Proof using All.
  intros l l' L L' NE. destruct (DE l l' L L' NE) as (q & t & x & m & N & Hx & LM & D). apply mean_sq_pos. exists q, x.
  split; [apply nth_error_Some; congruence|]. split; [exact Hx|]. destruct (DT q t N) as [_ RT]. destruct (RT x Hx) as [[Hi _] _].
  assert (E : forall l0, pred l0 q (lf q x) = sumto (K_of ts) (fun k => nth k l0 0 * m k)).
  { intros l0. unfold pred. rewrite (nth_error_nth _ q no_tree N). apply sumto_ext. intros k Hk. f_equal. apply (level_mean_unique t (a_parents_all o) (lf q x) k); [eapply lmean_ok; eauto|apply LM; auto]. }
  rewrite !E. lra.
Qed.
Lemma feasible_mid : forall nc l l', feasible nc (K_of ts) l -> feasible nc (K_of ts) l' -> feasible nc (K_of ts) (map2 (fun a b => (a + b) / 2) l l').
Proof using Type.
  intros nc l l' F F'. pose proof (feasible_len _ _ _ F) as L. pose proof (feasible_len _ _ _ F') as L'.
  assert (LM : length (map2 (fun a b => (a + b) / 2) l l') = K_of ts) by (rewrite map2_length; lia). destruct nc; [exact LM|].
  destruct F as (_ & P & S1). destruct F' as (_ & P' & S1'). split; [exact LM|]. split.
  - intros x Hx. apply (In_nth _ _ 0) in Hx. destruct Hx as (k & Hk & <-). rewrite LM in Hk. rewrite nth_map2 with (da := 0) (db := 0) by lia.
    assert (0 <= nth k l 0) by (apply P, nth_In; lia). assert (0 <= nth k l' 0) by (apply P', nth_In; lia). lra.
  - rewrite nsum_sumto, LM. rewrite nsum_sumto, L in S1. rewrite nsum_sumto, L' in S1'.
    rewrite (sumto_ext _ _ (fun k => / 2 * (nth k l 0 + nth k l' 0))).
    + rewrite sumto_scal, sumto_plus, S1, S1'. lra.
    + intros k Hk. rewrite nth_map2 with (da := 0) (db := 0) by lia. lra.
Qed.
Lemma pred_mid : forall l l' q i, length l = K_of ts -> length l' = K_of ts -> pred (map2 (fun a b => (a + b) / 2) l l') q i = (pred l q i + pred l' q i) / 2.
Proof using Type.
  intros l l' q i L L'. unfold pred. rewrite <- sumto_plus. unfold Rdiv. rewrite <- sumto_scal_r. apply sumto_ext. intros k Hk. rewrite nth_map2 with (da := 0) (db := 0) by lia. lra.
Qed.
Lemma min_unique : forall nc l l', feasible nc (K_of ts) l -> feasible nc (K_of ts) l' ->
  (forall l2, feasible nc (K_of ts) l2 -> mean_sse (length ts) data lf (pred l) <= mean_sse (length ts) data lf (pred l2)) ->
  mean_sse (length ts) data lf (pred l') <= mean_sse (length ts) data lf (pred l) -> l' = l.
Proof using All.
  intros nc l l' F F' MN LE. pose proof (feasible_len _ _ _ F) as L. pose proof (feasible_len _ _ _ F') as L'.
  destruct (list_eq_dec Req_EM_T l' l) as [|NE]; auto. exfalso. pose proof (told_apart l' l L' L NE) as P.
  pose proof (MN _ (feasible_mid nc l' l F' F)) as M1.
  assert (E : mean_sse (length ts) data lf (pred (map2 (fun a b => (a + b) / 2) l' l)) = mean_sse (length ts) data lf (fun q i => (pred l' q i + pred l q i) / 2)).
  { unfold mean_sse. apply sumto_ext. intros q Hq. f_equal. apply sumto_ext. intros x Hx. rewrite pred_mid by auto. reflexivity. }
  rewrite E, sse_mid in M1. lra.
Qed.

Variables (w yl : list R) (Gs : mat R).
Hypothesis HT : all_leaf_targets o oob boot ts = Ok (w, yl).
Hypothesis LG : length Gs = offset ts (length ts).
Hypothesis VG : forall q t i, nth_error ts q = Some t -> (i < n_leaves t)%nat -> length (nth (offset ts q + i) Gs []) = K_of ts /\
    forall k, (k < K_of ts)%nat -> nth k (nth (offset ts q + i) Gs []) 0 = lmean o t i k.
Let S0 := S_of (K_of ts) Gs w.
Let a := a_of (K_of ts) Gs w yl.
Lemma sse_program : exists B, forall l, length l = K_of ts -> mean_sse (length ts) data lf (pred l) = B + 2 * qp_objective (K_of ts) S0 a l.
Proof using WF DT HT LG VG.
  destruct (targets_val o oob boot ts w yl WF HT) as (LW & LY & _). assert (Ls : length (seen_of w) = length w) by apply map_length.
  set (Gm := mask_select (seen_of w) Gs). set (wm := mask_select (seen_of w) w). set (ym := mask_select (seen_of w) yl).
  assert (LM : length Gm = length wm) by (apply mask_len3; congruence). assert (Lym : length ym = length wm) by (apply mask_len3; congruence).
  destruct (S_entry o oob boot ts w yl Gs WF HT LG VG) as [SQ _]. destruct (a_entry o oob boot ts w yl Gs WF HT LG VG) as [LA _].
  destruct (loss_form o oob boot ts WF w yl data lf HT DT) as (B & HB). exists B. intros l Hl. rewrite HB. unfold qp_objective. rewrite <- (qp_quad (K_of ts) S0 a l SQ LA Hl).
  change a with (rhs_w (K_of ts) Gm wm ym). rewrite (objective (K_of ts) Gm wm ym LM Lym 0 S0 l (lifted_self (K_of ts) S0 SQ) Hl).
  pose proof (mask_sum3 (seen_of w) Gs w yl (fun row wr yr => wr * ((sumto (K_of ts) (fun k => nth k row 0 * nth k l 0) - yr) ^ 2 - yr ^ 2)) ltac:(congruence) ltac:(congruence) ltac:(congruence)) as MS3. cbv beta in MS3. fold Gm wm ym in MS3. rewrite MS3. clear MS3.
  rewrite Ls, LW, sumto_offset. rewrite Rmult_0_l, Rplus_0_r. f_equal. apply sumto_ext. intros q Hq.
  assert (N : nth_error ts q = Some (nth q ts no_tree)) by (apply nth_error_nth'; auto). apply sumto_ext. intros i Hi. cbv zeta.
  assert (Hr : (offset ts q + i < length w)%nat) by (rewrite LW; pose proof (offset_le ts q _ N); lia).
  unfold seen_of. rewrite nth_map_in with (d := 0) by auto. destruct (VG q _ i N Hi) as [_ V1].
  rewrite (sumto_ext (K_of ts) (fun k => nth k (nth (offset ts q + i) Gs []) 0 * nth k l 0) (fun k => nth k l 0 * lmean o (nth q ts no_tree) i k)); [reflexivity|].
  intros k Hk. rewrite V1 by auto. ring.
Qed.
Lemma quad_program : forall x, quad (K_of ts) S0 x = mean_sq (length ts) data lf (fun q i => pred (map x (seq 0 (K_of ts))) q i).
Proof using WF DT HT LG VG.
  intros x. destruct sse_program as (B & HB). set (n := K_of ts) in *. set (l := map x (seq 0 n)).
  assert (L : length l = n) by (unfold l; rewrite map_length, seq_length; auto).
  pose proof (HB l L) as E1. pose proof (HB (map Ropp l) ltac:(rewrite map_length; auto)) as E2. pose proof (HB (repeat 0 n) (repeat_length _ _)) as E3.
  pose proof (sse_zero (length ts) data lf (pred l)) as Z.
  assert (PN : forall q i, pred (map Ropp l) q i = - pred l q i).
  { intros q i. unfold pred. fold n. match goal with |- _ = - ?s => replace (- s) with (-1 * s) by ring end. rewrite <- sumto_scal. apply sumto_ext. intros k Hk. rewrite nth_map_in with (d := 0) by (rewrite L; auto). ring. }
  assert (P2 : mean_sse (length ts) data lf (pred (map Ropp l)) = mean_sse (length ts) data lf (fun q i => - pred l q i)).
  { unfold mean_sse. apply sumto_ext. intros q Hq. f_equal. apply sumto_ext. intros z Hz. rewrite PN. reflexivity. }
  assert (P3 : mean_sse (length ts) data lf (pred (repeat 0 n)) = mean_sse (length ts) data lf (fun _ _ => 0)).
  { unfold mean_sse. apply sumto_ext. intros q Hq. f_equal. apply sumto_ext. intros z Hz. f_equal. f_equal. unfold pred. fold n. rewrite (sumto_ext n _ (fun _ => 0)) by (intros k Hk; rewrite nth_repeat; ring). rewrite sumto_const. ring. }
  rewrite E1, <- P2, E2, <- P3, E3 in Z. rewrite <- (Rmult_1_l (mean_sq _ _ _ _)). 
  assert (Q : qp_objective n S0 a l + qp_objective n S0 a (map Ropp l) - 2 * qp_objective n S0 a (repeat 0 n) = quad n S0 x).
  { unfold qp_objective, quad.
    assert (Q1 : forall y y' : nat -> R, (forall k, (k < n)%nat -> y k = y' k) -> sumto n (fun i => sumto n (fun j => y i * nth j (nth i S0 []) 0 * y j)) = sumto n (fun i => sumto n (fun j => y' i * nth j (nth i S0 []) 0 * y' j))).
    { intros y y' E. apply sumto_ext. intros i Hi. apply sumto_ext. intros j Hj. rewrite !E by auto. reflexivity. }
    rewrite (Q1 (fun k => nth k l 0) x) by (intros k Hk; unfold l; rewrite nth_map_seq by auto; reflexivity).
    rewrite (Q1 (fun k => nth k (map Ropp l) 0) (fun k => - x k)) by (intros k Hk; rewrite nth_map_in with (d := 0) by lia; unfold l; rewrite nth_map_seq by auto; reflexivity).
    rewrite (Q1 (fun k => nth k (repeat 0 n) 0) (fun k => 0)) by (intros k Hk; apply nth_repeat).
    rewrite (sumto_ext n (fun i => sumto n (fun j => - x i * nth j (nth i S0 []) 0 * - x j)) (fun i => sumto n (fun j => x i * nth j (nth i S0 []) 0 * x j))) by (intros i Hi; apply sumto_ext; intros; ring).
    rewrite (sumto_ext n (fun i => sumto n (fun j => 0 * nth j (nth i S0 []) 0 * 0)) (fun i => 0)) by (intros i Hi; rewrite (sumto_ext _ _ (fun _ => 0)) by (intros; ring); rewrite sumto_const; ring).
    rewrite (sumto_const n 0).
    rewrite (sumto_ext n (fun k => nth k a 0 * nth k (map Ropp l) 0) (fun k => -1 * (nth k a 0 * nth k l 0))) by (intros k Hk; rewrite nth_map_in with (d := 0) by lia; ring).
    rewrite (sumto_ext n (fun k => nth k a 0 * nth k (repeat 0 n) 0) (fun _ => 0)) by (intros k Hk; rewrite nth_repeat; ring).
    rewrite sumto_scal, (sumto_const n 0). lra. }
  change (mean_sq (length ts) data lf (fun q i => pred l q i)) with (mean_sq (length ts) data lf (pred l)). lra.
Qed.
Lemma program_pd : pos_def (K_of ts) S0.
Proof using All.
  intros x (i & Hi & NZ). rewrite quad_program. set (l := map x (seq 0 (K_of ts))).
  assert (L : length l = K_of ts) by (unfold l; rewrite map_length, seq_length; auto).
  assert (NE : l <> repeat 0 (K_of ts)). { intros E. apply NZ. apply (f_equal (fun z => nth i z 0)) in E. unfold l in E. rewrite nth_map_seq in E by auto. rewrite nth_repeat in E. exact E. }
  pose proof (told_apart l (repeat 0 (K_of ts)) L (repeat_length _ _) NE) as P.
  assert (E : mean_sq (length ts) data lf (fun q i => pred l q i - pred (repeat 0 (K_of ts)) q i) = mean_sq (length ts) data lf (fun q i => pred l q i)).
  { unfold mean_sq. apply sumto_ext. intros q Hq. f_equal. apply sumto_ext. intros z Hz. f_equal. unfold pred at 2. rewrite (sumto_ext _ (fun k => nth k (repeat 0 (K_of ts)) 0 * _) (fun _ => 0)) by (intros k Hk; rewrite nth_repeat; ring). rewrite sumto_const. ring. }
  rewrite E in P. exact P.
Qed.
End Exact.

(** what every run computes once the program is positive definite *)
Lemma exact_core : forall (o : all_opts R) oob boot ts data lf, Forall wf_tree ts -> Forall pos_leaves ts -> length (a_y o) = length (a_X o) -> all_data o oob boot ts data lf ->
  (forall q, (q < length ts)%nat -> usable (data q)) -> determined ts (a_parents_all o) (K_of ts) data lf -> a_sanity o = false ->
  exists Gs, length Gs = offset ts (length ts) /\
    (forall q t i, nth_error ts q = Some t -> (i < n_leaves t)%nat -> length (nth (offset ts q + i) Gs []) = K_of ts /\
      forall k, (k < K_of ts)%nat -> nth k (nth (offset ts q + i) Gs []) 0 = lmean o t i k) /\
    forall fuel feps solve in_null, solves (a_no_constraint o) (K_of ts) solve ->
    exists l, feasible (a_no_constraint o) (K_of ts) l /\
      (forall l', feasible (a_no_constraint o) (K_of ts) l' ->
        mean_sse (length ts) data lf (fun q i => sumto (K_of ts) (fun k => nth k l 0 * lmean o (nth q ts no_tree) i k)) <=
        mean_sse (length ts) data lf (fun q i => sumto (K_of ts) (fun k => nth k l' 0 * lmean o (nth q ts no_tree) i k))) /\
      smooth_all fuel feps solve in_null o oob boot ts = do f <- write_forest (map (fun v => [v]) (mv Gs l)) 0 ts; Ok (f, l).
Proof.
  intros o oob boot ts data lf WF PL LXY DT US DE SA.
  destruct (targets_total o oob boot ts) as (w&yl&HT).
  { intros q t N. exists (data q). split; [apply (DT q t N)|]. apply US. apply nth_error_Some. congruence. }
  destruct (depth_mats Reg (a_parents_all o) Standard ts WF) as (G&E&Ti&HG&M).
  pose proof M as (LG&_). cbn [n_gamma] in LG. destruct G as [|G0 [|G9 ?]]; try discriminate LG.
  assert (RO : ratio_ok G0 E = true).
  { apply (ratio_iff o ts G0 E Ti M). intros q t i k N Hi Hk Z. unfold masses in *. cbn [fst snd] in *. eapply sum_sel_pos_zero; [|exact Z]. rewrite Forall_forall in PL. apply (PL t). eapply nth_error_In; eauto. }
  set (eps := @ndiv R _ n1 (nof (length (a_X o)))). destruct (ratio_entry o ts G0 E Ti M eps RO) as [LGs VG]. set (Gs := ratio_rows eps G0 E) in *.
  exists Gs. split; [exact LGs|]. split; [exact VG|]. intros fuel feps solve in_null [SV OPT].
  destruct (S_entry o oob boot ts w yl Gs WF HT LGs VG) as [SQ ES]. destruct (a_entry o oob boot ts w yl Gs WF HT LGs VG) as [LA _].
  pose proof (program_pd o oob boot ts data lf WF DT DE w yl Gs HT LGs VG) as PD. cbv zeta in PD.
  destruct (sse_program o oob boot ts data lf WF DT w yl Gs HT LGs VG) as (B & HB). cbv zeta in HB.
  set (S0 := S_of (K_of ts) Gs w) in *. set (a := a_of (K_of ts) Gs w yl) in *.
  assert (SY : symmetric (K_of ts) S0).
  { intros i j Hi Hj. rewrite !ES by auto. apply sumto_ext. intros q Hq. apply sumto_ext. intros z Hz. ring. }
  assert (IP : is_pos_def S0 = true) by (apply (proj2 (p_C71 (K_of ts) S0 SQ) SY); exact PD).
  assert (HU : update_til_psd fuel feps S0 = Ok S0).
  { destruct (p_C58 (K_of ts) fuel feps S0 SQ) as [_ UP]. unfold update_til_psd.
    pose proof (UP (sym_near _ _ SY)) as UP'. unfold update_til_psd in UP'. destruct (allclose_sym S0); cbn [negb] in *; [|destruct UP' as [?|(?&?&_)]; discriminate].
    rewrite (retry_fuel _ feps fuel S0 tt); [reflexivity|]. rewrite IP. reflexivity. }
  destruct (SV S0 a LA SQ SY PD) as (l&HS). destruct (OPT _ _ _ LA HS) as [FE MN]. pose proof (feasible_len _ _ _ FE) as LL.
  exists l. split; [exact FE|]. split. { intros l' F'. rewrite !HB by (eauto using feasible_len). specialize (MN l' F'). lra. }
  assert (KP : (0 < K_of ts)%nat) by (unfold K_of; lia).
  assert (HC : qp_cost S0 a l <= qp_cost S0 a (upd (repeat 0 (length l)) 0 1)).
  { assert (FU : feasible (a_no_constraint o) (K_of ts) (upd (repeat 0 (K_of ts)) 0 1)).
    { pose proof (simplex_unit (K_of ts) KP) as SX. destruct (a_no_constraint o); [apply SX|exact SX]. }
    rewrite !(qp_quad (K_of ts)) by (auto; rewrite ?upd_length, ?repeat_length; auto). rewrite LL. apply MN. exact FU. }
  unfold smooth_all. rewrite (all_unfold fuel feps solve _ o oob boot ts w yl [G0] E Ti LXY HT HG). cbn [concat]. rewrite app_nil_r, RO. cbn [negb]. cbv zeta. fold eps. fold Gs. fold S0. fold a.
  unfold all_rest. rewrite HU. cbn [bind]. rewrite (retry_fuel (fun M => solve (a_no_constraint o) M a) feps fuel S0 l HS). cbn [bind]. rewrite SA.
  match goal with |- context[nltb (qp_cost ?x ?y ?z) ?u] => change (nltb (qp_cost x y z) u) with (Rltb (qp_cost x y z) u) end.
  change (@qp_cost R _ S0 a (upd (repeat n0 (length l)) 0 n1)) with (qp_cost S0 a (upd (repeat 0 (length l)) 0 1)).
  destruct (Rltb_spec (qp_cost S0 a (upd (repeat 0 (length l)) 0 1)) (qp_cost S0 a l)) as [Bad|_]; [exfalso; lra|].
  match goal with |- context [if ?b then Ok ?n else Ok true] => replace (if b then Ok n else Ok true) with (Ok (if b then n else true)) by (destruct b; reflexivity) end. cbn [bind]. rewrite Bool.andb_false_r. reflexivity.
Qed.
