(** L_Start: rounding errors of numpy's sum and of normalised weights. *)
From Verif Require Import Base M_Float M_Start L_Float.
From Flocq Require Import Core Relative Plus_error BinarySingleNaN.
From Coq Require Import ZArith List Bool Arith Reals Lia Lra Permutation Psatz.
Import ListNotations.
Local Open Scope R_scope.

(** *** numpy's sum adds every number exactly once *)
Section Sums.
Context {F : Type} (add : F -> F -> F) (zero : F).
Inductive sums : F -> list F -> Prop :=
| sum_nil : sums zero []
| sum_one : forall x, sums x [x]
| sum_add : forall x y l1 l2 l, sums x l1 -> sums y l2 -> Permutation l (l1 ++ l2) -> sums (add x y) l.
Lemma sums_perm : forall x l l', sums x l -> Permutation l l' -> sums x l'.
Proof.
  intros x l l' H P. destruct H as [|x|x y l1 l2 l H1 H2 Q].
  - apply Permutation_nil in P. subst. constructor.
  - apply Permutation_length_1_inv in P. subst. constructor.
  - apply (sum_add x y l1 l2); auto. etransitivity; [symmetry; exact P|exact Q].
Qed.
Lemma seq_sums : forall l acc la, sums acc la -> sums (seq_sum add acc l) (la ++ l).
Proof.
  unfold seq_sum. induction l as [|x l IH]; intros acc la H; cbn [fold_left]; [rewrite app_nil_r; auto|].
  replace (la ++ x :: l) with ((la ++ [x]) ++ l) by (rewrite <- app_assoc; reflexivity). apply IH.
  eapply sum_add; [exact H|apply sum_one|reflexivity].
Qed.
Lemma lane_sums : forall r ls b, Forall2 sums r ls -> length r = length b ->
  exists ls', Forall2 sums (add_lanes add r b) ls' /\ Permutation (concat ls') (concat ls ++ b) /\ length (add_lanes add r b) = length r.
Proof.
  intros r ls b H. revert b. induction H as [|x l r ls HX HR IH]; intros [|y b] L; try discriminate L.
  - exists []. split; [constructor|]. split; reflexivity.
  - destruct (IH b ltac:(cbn in L; lia)) as (ls'&A1&A2&A3). exists ((l ++ [y]) :: ls'). cbn [add_lanes]. split; [constructor; auto; eapply sum_add; [exact HX|apply sum_one|reflexivity]|].
    split; [|cbn; lia]. cbn [concat]. rewrite A2. rewrite <- !app_assoc. apply Permutation_app_head. cbn [app]. rewrite (Permutation_app_comm (concat ls) (y :: b)). cbn. constructor. apply Permutation_app_comm.
Qed.
Lemma lanes_sums : forall fuel r l ls, Forall2 sums r ls -> length r = 8%nat ->
  exists ls', Forall2 sums (fst (lanes add fuel r l)) ls' /\ length (fst (lanes add fuel r l)) = 8%nat /\
    Permutation (concat ls' ++ snd (lanes add fuel r l)) (concat ls ++ l).
Proof.
  induction fuel as [|fuel IH]; intros r l ls H L; cbn [lanes]; [exists ls; auto|].
  destruct (Nat.leb_spec 8 (length l)) as [G|G]; [|exists ls; auto].
  destruct (lane_sums r ls (firstn 8 l) H) as (ls1&A1&A2&A3); [rewrite firstn_length; lia|].
  destruct (IH _ (skipn 8 l) ls1 A1) as (ls2&B1&B2&B3); [lia|]. exists ls2. split; auto. split; auto.
  rewrite B3, A2, <- app_assoc, firstn_skipn. reflexivity.
Qed.
Lemma join_sums : forall r ls, Forall2 sums r ls -> length r = 8%nat -> sums (join_lanes add zero r) (concat ls).
Proof.
  intros r ls H L. do 8 (destruct H as [|? ? ? ? ? H]; [discriminate L|]). destruct H; [|discriminate L]. unfold join_lanes. cbn [nth concat].
  rewrite app_nil_r.
  eapply sum_add; [eapply sum_add; [eapply sum_add; [eassumption|eassumption|reflexivity]|eapply sum_add; [eassumption|eassumption|reflexivity]|reflexivity]|
    eapply sum_add; [eapply sum_add; [eassumption|eassumption|reflexivity]|eapply sum_add; [eassumption|eassumption|reflexivity]|reflexivity]|].
  rewrite <- !app_assoc. reflexivity.
Qed.
Lemma ones_sums : forall l, Forall2 sums l (map (fun x => [x]) l).
Proof. induction l; constructor; auto. constructor. Qed.
Lemma concat_ones : forall l : list F, concat (map (fun x => [x]) l) = l.
Proof. induction l; cbn; congruence. Qed.
Lemma pairwise_sums : forall fuel l, sums (pairwise_sum add zero fuel l) l.
Proof.
  assert (SQ : forall l, sums (seq_sum add zero l) l) by (intros l; apply (seq_sums l zero []); constructor).
  assert (MID : forall l, (8 <= length l)%nat -> sums (let '(r, rest) := lanes add (length l) (firstn 8 l) (skipn 8 l) in seq_sum add (join_lanes add zero r) rest) l).
  { intros l G. destruct (lanes_sums (length l) (firstn 8 l) (skipn 8 l) _ (ones_sums _)) as (ls&A1&A2&A3); [rewrite firstn_length; lia|].
    destruct (lanes add (length l) (firstn 8 l) (skipn 8 l)) as [r rest]. cbn [fst snd] in *. rewrite concat_ones, firstn_skipn in A3.
    eapply sums_perm; [|exact A3]. apply seq_sums. apply join_sums; auto. }
  induction fuel as [|fuel IH]; intros l; cbn [pairwise_sum]; (destruct (Nat.ltb_spec (length l) 8); [apply SQ|]; destruct (Nat.leb (length l) 128); [apply MID; auto|]).
  - apply SQ.
  - eapply sum_add; [apply IH|apply IH|]. rewrite firstn_skipn. reflexivity.
Qed.
Lemma np_sums : forall l, sums (np_sum add zero l) l.
Proof. intros l. unfold np_sum. eapply sum_add; [apply sum_nil|apply pairwise_sums|reflexivity]. Qed.
End Sums.

(** *** rounding errors *)
Definition uu : R := bpow radix2 (-53).
Lemma uu_pos : 0 < uu. Proof. apply bpow_gt_0. Qed.
Lemma uu_le : uu <= 1 / 1024.
Proof. unfold uu. replace (1 / 1024) with (bpow radix2 (-10)) by (cbn; lra). apply bpow_le. lia. Qed.
Lemma u_ro_uu : u_ro radix2 53 = uu.
Proof. unfold u_ro, uu. change (/ 2) with (bpow radix2 (-1)). rewrite <- bpow_plus. reflexivity. Qed.
Definition rsum (l : list b64) : R := fold_right (fun x a => B2R x + a) 0 l.
Definition nonneg (x : b64) : Prop := is_finite x = true /\ 0 <= B2R x.
Lemma rsum_app : forall a b, rsum (a ++ b) = rsum a + rsum b.
Proof. unfold rsum. induction a as [|x a IH]; intros b; cbn [app fold_right]; [lra|]. rewrite IH. lra. Qed.
Lemma rsum_perm : forall a b, Permutation a b -> rsum a = rsum b.
Proof. unfold rsum. intros a b H. induction H; cbn [fold_right]; lra. Qed.
Lemma rsum_pos : forall l, Forall nonneg l -> 0 <= rsum l.
Proof. unfold rsum. induction l as [|x l IH]; intros H; cbn [fold_right]; [lra|]. inversion H; subst. destruct H2. specialize (IH H3). lra. Qed.
Lemma add_error : forall x y : b64, is_finite x = true -> is_finite y = true -> exists e, Rabs e <= uu /\
  round radix2 (SpecFloat.fexp 53 1024) (round_mode mode_NE) (B2R x + B2R y) = (B2R x + B2R y) * (1 + e).
Proof.
  intros x y FX FY. destruct (@FLT_plus_error_N_ex radix2 (-1074) 53 prec_pos (fun z => negb (Z.even z)) (B2R x) (B2R y)) as (e&A&B).
  - apply (generic_format_B2R 53 1024 x).
  - apply (generic_format_B2R 53 1024 y).
  - exists e. split; [|exact B]. eapply Rle_trans; [exact A|]. rewrite u_ro_uu. pose proof uu_pos. apply Rmult_le_reg_r with (1 + uu); [lra|]. unfold Rdiv. rewrite Rmult_assoc, Rinv_l by lra. nra.
Qed.
Lemma pow_up : forall n, 1 <= (1 + uu) ^ n. Proof. intros. apply pow_R1_Rle. pose proof uu_pos. lra. Qed.
Lemma pow_down : forall n, 0 <= (1 - uu) ^ n <= 1.
Proof. pose proof uu_pos. pose proof uu_le. induction n as [|n IH]; cbn [pow]; [lra|]. nra. Qed.
Lemma pow_up_mono : forall m n, (m <= n)%nat -> (1 + uu) ^ m <= (1 + uu) ^ n.
Proof. intros. apply Rle_pow; auto. pose proof uu_pos. lra. Qed.
Lemma pow_down_mono : forall m n, (m <= n)%nat -> (1 - uu) ^ n <= (1 - uu) ^ m.
Proof. intros m n H. replace n with (m + (n - m))%nat by lia. rewrite pow_add. pose proof (pow_down m). pose proof (pow_down (n - m)). nra. Qed.

Lemma sums_bound : forall x l, sums b64_add b64_zero x l -> Forall nonneg l -> rsum l * (1 + uu) ^ length l < bpow radix2 1024 ->
  is_finite x = true /\ rsum l * (1 - uu) ^ length l <= B2R x <= rsum l * (1 + uu) ^ length l.
Proof.
  intros x l H. induction H as [|x|x y l1 l2 l H1 IH1 H2 IH2 P]; intros N B.
  - cbn. split; [reflexivity|]. lra.
  - inversion N; subst. destruct H1 as [F V]. split; auto. unfold rsum. cbn [fold_right length pow]. pose proof uu_pos. nra.
  - assert (N12 : Forall nonneg (l1 ++ l2)) by (eapply Permutation_Forall; [exact P|exact N]). apply Forall_app in N12. destruct N12 as [N1 N2].
    rewrite (Permutation_length P), (rsum_perm _ _ P), app_length, rsum_app in *. clear P l N.
    pose proof (rsum_pos _ N1) as R1. pose proof (rsum_pos _ N2) as R2. set (S1 := rsum l1) in *. set (S2 := rsum l2) in *.
    pose proof (pow_up_mono (length l1) (length l1 + length l2) ltac:(lia)) as M1. pose proof (pow_up_mono (length l2) (length l1 + length l2) ltac:(lia)) as M2.
    pose proof (pow_up (length l1)) as U1. pose proof (pow_up (length l2)) as U2.
    destruct (IH1 N1) as [F1 [L1 H1u]]; [nra|]. destruct (IH2 N2) as [F2 [L2 H2u]]; [nra|].
    pose proof (pow_down (length l1)) as D1. pose proof (pow_down (length l2)) as D2.
    assert (PX : 0 <= B2R x) by (eapply Rle_trans; [|exact L1]; nra). assert (PY : 0 <= B2R y) by (eapply Rle_trans; [|exact L2]; nra).
    assert (K : exists z, round radix2 (SpecFloat.fexp 53 1024) (round_mode mode_NE) (B2R x + B2R y) = z /\
      (S1 + S2) * (1 - uu) ^ (length l1 + length l2) <= z <= (S1 + S2) * (1 + uu) ^ (length l1 + length l2) /\ 0 <= z).
    { pose proof uu_pos. pose proof uu_le. destruct l1 as [|a1 l1].
      - change S1 with 0 in *. assert (E : B2R x = 0) by lra. rewrite E, Rplus_0_l. eexists. split; [apply round_generic; [apply valid_rnd_N|apply generic_format_B2R]|].
        rewrite Rplus_0_l. cbn [length Nat.add]. auto.
      - destruct l2 as [|a2 l2].
        + change S2 with 0 in *. assert (E : B2R y = 0) by lra. rewrite E, Rplus_0_r. eexists. split; [apply round_generic; [apply valid_rnd_N|apply generic_format_B2R]|].
          rewrite Rplus_0_r. rewrite Nat.add_0_r. auto.
        + destruct (add_error x y F1 F2) as (e&E1&E2). exists ((B2R x + B2R y) * (1 + e)). split; auto. apply Rabs_le_inv in E1.
          set (n1 := length (a1 :: l1)) in *. set (n2 := length (a2 :: l2)) in *. assert (1 <= n1)%nat by (subst n1; cbn; lia). assert (1 <= n2)%nat by (subst n2; cbn; lia).
          replace (n1 + n2)%nat with (S (n1 + n2 - 1)) by lia. cbn [pow].
          pose proof (pow_up_mono n1 (n1 + n2 - 1) ltac:(lia)). pose proof (pow_up_mono n2 (n1 + n2 - 1) ltac:(lia)).
          pose proof (pow_down_mono n1 (n1 + n2 - 1) ltac:(lia)). pose proof (pow_down_mono n2 (n1 + n2 - 1) ltac:(lia)).
          pose proof (pow_down (n1 + n2 - 1)). set (q := (1 - uu) ^ (n1 + n2 - 1)) in *. set (p := (1 + uu) ^ (n1 + n2 - 1)) in *.
          assert (LO : (S1 + S2) * q <= B2R x + B2R y) by nra. assert (HI : B2R x + B2R y <= (S1 + S2) * p) by nra.
          split; [split|]; [| |nra].
          * apply Rle_trans with (((S1 + S2) * q) * (1 - uu)); [lra|]. apply Rmult_le_compat; nra.
          * apply Rle_trans with (((S1 + S2) * p) * (1 + uu)); [|lra]. apply Rmult_le_compat; nra. }
    destruct K as (z&E&[ZL ZH]&ZP). pose proof (Bplus_correct 53 1024 prec_pos prec_emax mode_NE x y F1 F2) as C. rewrite E in C.
    rewrite Rlt_bool_true in C by (rewrite Rabs_pos_eq by lra; lra). destruct C as (C1&C2&_). unfold b64_add. rewrite C1. auto.
Qed.

(** Bernoulli *)
Lemma pow_up_lin : forall n, INR n * uu <= 1 / 2 -> (1 + uu) ^ n <= 1 + 2 * (INR n * uu).
Proof.
  pose proof uu_pos as P. induction n as [|n IH]; intros H; [cbn; lra|]. rewrite S_INR in *. cbn [pow]. pose proof (pos_INR n). specialize (IH ltac:(nra)).
  apply Rle_trans with ((1 + uu) * (1 + 2 * (INR n * uu))); [apply Rmult_le_compat_l; lra|]. nra.
Qed.
Lemma pow_down_lin : forall n, 1 - INR n * uu <= (1 - uu) ^ n.
Proof.
  pose proof uu_pos as P. pose proof uu_le. induction n as [|n IH]; [cbn; lra|]. rewrite S_INR. cbn [pow]. pose proof (pos_INR n). apply Rle_trans with ((1 - uu) * (1 - INR n * uu)); [nra|]. apply Rmult_le_compat_l; lra.
Qed.
Lemma sum_error : forall l, Forall nonneg l -> INR (length l) * uu <= 1 / 2 -> rsum l * 2 < bpow radix2 1024 ->
  is_finite (b64_sum l) = true /\ rsum l * (1 - INR (length l) * uu) <= B2R (b64_sum l) <= rsum l * (1 + 2 * (INR (length l) * uu)).
Proof.
  intros l N B L. pose proof (pow_up_lin _ B) as PU. pose proof (pow_down_lin (length l)) as PD. pose proof (rsum_pos l N) as RP.
  destruct (sums_bound (b64_sum l) l (np_sums b64_add b64_zero l) N) as (A1&A2&A3); [nra|]. split; auto. nra.
Qed.
Lemma div_error : forall x y : b64, nonneg x -> is_finite y = true -> 0 < B2R y -> B2R x <= 2 * B2R y ->
  nonneg (b64_div x y) /\ B2R x / B2R y * (1 - uu) - uu * uu <= B2R (b64_div x y) <= B2R x / B2R y * (1 + uu) + uu * uu.
Proof.
  intros x y [FX VX] FY PY LE. set (q := B2R x / B2R y).
  assert (Q0 : 0 <= q) by (apply Rmult_le_pos; [auto|left; apply Rinv_0_lt_compat; auto]).
  assert (Q2 : q <= 2) by (unfold q; apply Rmult_le_reg_r with (B2R y); auto; unfold Rdiv; rewrite Rmult_assoc, Rinv_l by lra; lra).
  destruct (error_N_FLT radix2 (-1074) 53 eq_refl (fun z => negb (Z.even z)) q) as (e&h&E1&E2&_&E3).
  change (/ 2 * bpow radix2 (- (53) + 1)) with (u_ro radix2 53) in E1. rewrite u_ro_uu in E1.
  assert (E2' : Rabs h <= uu * uu). { eapply Rle_trans; [exact E2|]. unfold uu. rewrite <- bpow_plus. change (/ 2) with (bpow radix2 (-1)). rewrite <- bpow_plus. apply bpow_le. lia. }
  apply Rabs_le_inv in E1. apply Rabs_le_inv in E2'. pose proof uu_pos. pose proof uu_le.
  pose proof (Bdiv_correct 53 1024 prec_pos prec_emax mode_NE x y ltac:(lra)) as C. fold q in C.
  assert (RG : 0 <= round radix2 (SpecFloat.fexp 53 1024) (round_mode mode_NE) q).
  { apply round_ge_generic; auto. - apply fexp_correct. exact prec_pos. - apply valid_rnd_N. - apply generic_format_0. }
  assert (EE : round radix2 (SpecFloat.fexp 53 1024) (round_mode mode_NE) q = q * (1 + e) + h) by exact E3.
  rewrite Rlt_bool_true in C.
  - destruct C as (C1&C2&_). unfold nonneg, b64_div. rewrite C1, C2. split; [split; auto|]. rewrite EE. nra.
  - rewrite Rabs_pos_eq by auto. rewrite EE. apply Rle_lt_trans with (bpow radix2 2); [cbn; nra|apply bpow_lt; lia].
Qed.
Lemma in_rsum : forall l x, Forall nonneg l -> In x l -> B2R x <= rsum l.
Proof.
  unfold rsum. induction l as [|y l IH]; intros x N H; [destruct H|]. inversion N; subst. cbn [fold_right]. pose proof (rsum_pos l H3) as P. unfold rsum in P. destruct H2 as [_ V].
  destruct H as [->|H]; [lra|]. specialize (IH x H3 H). lra.
Qed.
Lemma divs_error : forall (s : b64) l, is_finite s = true -> 0 < B2R s -> Forall nonneg l -> (forall x, In x l -> B2R x <= 2 * B2R s) ->
  Forall nonneg (map (fun x => b64_div x s) l) /\
  rsum l / B2R s * (1 - uu) - INR (length l) * (uu * uu) <= rsum (map (fun x => b64_div x s) l) <= rsum l / B2R s * (1 + uu) + INR (length l) * (uu * uu).
Proof.
  intros s l FS PS. induction l as [|x l IH]; intros N LE.
  - split; [constructor|]. unfold rsum, Rdiv. cbn. lra.
  - inversion N; subst. destruct (IH H2) as (A1&A2); [intros; apply LE; right; auto|]. destruct (div_error x s H1 FS PS) as (B1&B2); [apply LE; left; auto|].
    split; [constructor; auto|]. cbn [map length]. rewrite S_INR. change (rsum (x :: l)) with (B2R x + rsum l).
    change (rsum (b64_div x s :: map (fun x => b64_div x s) l)) with (B2R (b64_div x s) + rsum (map (fun x => b64_div x s) l)).
    unfold Rdiv in *. rewrite Rmult_plus_distr_r. lra.
Qed.
Lemma normalise_error : forall l, Forall nonneg l -> INR (length l) * uu <= 1 / 1024 -> 0 < rsum l -> rsum l * 2 < bpow radix2 1024 ->
  Forall nonneg (normalise l) /\ length (normalise l) = length l /\ is_finite (b64_sum (normalise l)) = true /\
  Rabs (B2R (b64_sum (normalise l)) - 1) <= 7 * (INR (length l) * uu) /\ 1 / 2 <= rsum (normalise l) <= 2.
Proof.
  intros l N B P L. pose proof uu_pos as UP. pose proof uu_le as UL.
  destruct (sum_error l N ltac:(lra) L) as (F&S1&S2). set (s := b64_sum l) in *. set (n := INR (length l)) in *. set (v := n * uu) in *.
  assert (N1 : 1 <= n). { destruct l as [|x l]; [unfold rsum in P; cbn in P; lra|]. unfold n. cbn [length]. rewrite S_INR. pose proof (pos_INR (length l)). lra. }
  assert (V0 : uu <= v) by (unfold v; nra).
  assert (SP : 0 < B2R s) by (eapply Rlt_le_trans; [|exact S1]; nra).
  destruct (divs_error s l F SP N) as (D1&D2&D3). { intros x HI. pose proof (in_rsum l x N HI). nra. }
  fold (normalise l) in D1, D2, D3. change (map (fun x => b64_div x s) l) with (normalise l) in *.
  assert (LN : length (normalise l) = length l) by apply map_length. fold n in D2, D3.
  set (r := rsum l / B2R s) in *.
  assert (R0 : r * B2R s = rsum l) by (unfold r, Rdiv; rewrite Rmult_assoc, Rinv_l by lra; lra).
  assert (RP : 0 < r) by (unfold r; apply Rdiv_lt_0_compat; auto).
  assert (RU : r <= 1 + 2 * v). { apply Rmult_le_reg_r with (B2R s); auto. rewrite R0. apply Rle_trans with ((1 + 2 * v) * (rsum l * (1 - v))); [|apply Rmult_le_compat_l; lra]. nra. }
  assert (RL : 1 - 2 * v <= r). { apply Rmult_le_reg_r with (B2R s); auto. rewrite R0. apply Rle_trans with ((1 - 2 * v) * (rsum l * (1 + 2 * v))); [apply Rmult_le_compat_l; lra|]. nra. }
  assert (W : n * (uu * uu) <= v * uu) by (unfold v; nra).
  assert (QU : rsum (normalise l) <= (1 + 2 * v) * (1 + v) + v) by nra.
  assert (QL : (1 - 2 * v) * (1 - v) - v <= rsum (normalise l)) by nra.
  destruct (sum_error (normalise l) D1) as (G&T1&T2).
  - rewrite LN. fold n v. lra.
  - apply Rle_lt_trans with (bpow radix2 2); [cbn; nra|apply bpow_lt; lia].
  - rewrite LN in T1, T2. fold n v in T1, T2. split; auto. split; auto. split; auto. split; [|nra]. set (Q := rsum (normalise l)) in *. apply Rabs_le. split.
    + apply Rle_trans with (((1 - 2 * v) * (1 - v) - v) * (1 - v) - 1); [nra|]. assert (((1 - 2 * v) * (1 - v) - v) * (1 - v) <= Q * (1 - v)) by (apply Rmult_le_compat_r; lra). lra.
    + assert (Q * (1 + 2 * v) <= ((1 + 2 * v) * (1 + v) + v) * (1 + 2 * v)) by (apply Rmult_le_compat_r; lra). nra.
Qed.
Lemma no_negative : forall l, Forall nonneg l -> any_negative l = false.
Proof.
  intros l H. unfold any_negative. induction H as [|x l [F V] H IH]; [reflexivity|]. cbn [existsb]. rewrite IH, orb_false_r. rewrite Bltb_correct by (auto; reflexivity). apply Rlt_bool_false. cbn. auto.
Qed.

(** *** np.allclose *)
Definition b64_small : b64 := b64_div b64_one (binary_normalize 53 1024 prec_pos prec_emax mode_NE (2 ^ 17) 0 false).
Lemma small_val : is_finite b64_small = true /\ B2R b64_small = bpow radix2 (-17).
Proof.
  assert (E : B2SF b64_small = SpecFloat.S754_finite false 4503599627370496 (-69)) by (vm_compute; reflexivity).
  destruct b64_small as [s|s| |s m e H] eqn:EB; try discriminate E. injection E as -> -> ->. split; [reflexivity|]. unfold B2R, F2R. cbn [Fnum Fexp cond_Zopp].
  change (IZR 4503599627370496) with (bpow radix2 52). rewrite <- bpow_plus. reflexivity.
Qed.
Definition tol_allclose : b64 := b64_add (b64_frac 100000000) (b64_mul (b64_frac 100000) (Babs b64_one)).
Lemma tol_small : is_finite tol_allclose = true /\ Bleb b64_small tol_allclose = true.
Proof. split; vm_compute; reflexivity. Qed.
Lemma one_val : is_finite b64_one = true /\ B2R b64_one = 1.
Proof. destruct (of_nat_val 1) as [A B]; [lia|]. split; auto. Qed.
Lemma close_small : forall x, is_finite x = true -> Rabs (B2R x - 1) <= bpow radix2 (-17) -> close_to_one x = true.
Proof.
  intros x F H. destruct small_val as [FS VS]. destruct one_val as [F1 V1]. destruct tol_small as [FT LT].
  rewrite Bleb_correct in LT by auto. rewrite VS in LT. assert (LT' : bpow radix2 (-17) <= B2R tol_allclose) by (destruct (Rle_bool_spec (bpow radix2 (-17)) (B2R tol_allclose)); [auto|discriminate]).
  assert (RD : Rabs (round radix2 (SpecFloat.fexp 53 1024) (round_mode mode_NE) (B2R x - B2R b64_one)) <= bpow radix2 (-17)).
  { rewrite V1. apply abs_round_le_generic; auto. - apply fexp_correct. exact prec_pos. - apply valid_rnd_N. - rewrite <- VS. apply generic_format_B2R. }
  pose proof (Bminus_correct 53 1024 prec_pos prec_emax mode_NE x b64_one F F1) as C. rewrite Rlt_bool_true in C by (eapply Rle_lt_trans; [exact RD|apply bpow_lt; lia]).
  destruct C as (C1&C2&_). unfold close_to_one. fold tol_allclose. rewrite F. cbn [andb]. rewrite Bleb_correct; [|rewrite is_finite_Babs; exact C2|auto].
  apply Rle_bool_true. rewrite B2R_Babs. unfold b64_sub. rewrite C1. lra.
Qed.
Lemma p_seeded_close : forall l, (Z.of_nat (length l) <= 2 ^ 33)%Z -> (forall x, In x l -> is_finite x = true /\ 0 <= B2R x <= 1) -> (exists x, In x l /\ 0 < B2R x) ->
  (forall x, In x (normalise l) -> is_finite x = true /\ 0 <= B2R x) /\ Rabs (B2R (b64_sum (normalise l)) - 1) <= 7 * (INR (length l) * bpow radix2 (-53)) /\
  forall constrained, clean_accepts constrained (length l) (normalise l) = Ok tt.
Proof.
  intros l LL HR (x0&I0&P0). assert (N : Forall nonneg l). { apply Forall_forall. intros x HI. destruct (HR x HI) as (A&B&_). split; auto. }
  assert (LI : INR (length l) <= bpow radix2 33). { rewrite INR_IZR_INZ. rewrite <- (IZR_Zpower radix2) by lia. apply IZR_le. exact LL. }
  assert (LU : INR (length l) * uu <= bpow radix2 (-20)). { change (bpow radix2 (-20)) with (bpow radix2 (33 + -53)). rewrite bpow_plus. apply Rmult_le_compat_r; [left; apply uu_pos|exact LI]. }
  assert (SB : rsum l <= INR (length l)). { clear - HR. induction l as [|x l IH]; [unfold rsum; cbn; lra|]. cbn [length]. rewrite S_INR. change (rsum (x :: l)) with (B2R x + rsum l).
    destruct (HR x) as (_&_&H1); [left; auto|]. assert (rsum l <= INR (length l)) by (apply IH; intros; apply HR; right; auto). lra. }
  pose proof (in_rsum l x0 N I0).
  destruct (normalise_error l N) as (A1&A2&A3&A4&_).
  - eapply Rle_trans; [exact LU|]. replace (1 / 1024) with (bpow radix2 (-10)) by (cbn; lra). apply bpow_le. lia.
  - lra.
  - apply Rle_lt_trans with (bpow radix2 34); [|apply bpow_lt; lia]. change 34%Z with (33 + 1)%Z. rewrite bpow_plus. change (bpow radix2 1) with 2. lra.
  - split; [rewrite Forall_forall in A1; exact A1|]. split; [exact A4|]. intros c. unfold clean_accepts. rewrite A2, Nat.eqb_refl. cbn [negb]. rewrite no_negative by auto.
    rewrite close_small; auto; [cbn; rewrite andb_false_r; reflexivity|]. eapply Rle_trans; [exact A4|].
    apply Rle_trans with (bpow radix2 3 * bpow radix2 (-20)); [apply Rmult_le_compat; try lra; [apply Rmult_le_pos; [apply pos_INR|left; apply uu_pos]|cbn; lra]|].
    rewrite <- bpow_plus. apply bpow_le. lia.
Qed.

(** *** the start of a classification *)
Lemma mul_one : forall x, nonneg x -> nonneg (b64_mul b64_one x) /\ B2R (b64_mul b64_one x) = B2R x.
Proof.
  intros x [F V]. destruct one_val as [F1 V1]. pose proof (Bmult_correct 53 1024 prec_pos prec_emax mode_NE b64_one x) as C. rewrite V1, Rmult_1_l in C.
  rewrite round_generic in C; [|apply valid_rnd_N|apply generic_format_B2R]. rewrite Rlt_bool_true in C by apply abs_B2R_lt_emax. destruct C as (C1&C2&_).
  unfold nonneg, b64_mul. rewrite C1, C2, F, F1. auto.
Qed.
Lemma add_nonneg : forall x y, nonneg x -> nonneg y -> B2R x <= 2 -> B2R y <= 2 -> nonneg (b64_add x y) /\ B2R (b64_add x y) <= 8 /\ (0 < B2R x -> 0 < B2R (b64_add x y)).
Proof.
  intros x y [FX VX] [FY VY] LX LY. destruct (add_error x y FX FY) as (e&E1&E2). apply Rabs_le_inv in E1. pose proof uu_pos. pose proof uu_le.
  pose proof (Bplus_correct 53 1024 prec_pos prec_emax mode_NE x y FX FY) as C. rewrite E2 in C. assert (P : 0 <= (B2R x + B2R y) * (1 + e) <= 8) by nra.
  rewrite Rlt_bool_true in C. - destruct C as (C1&C2&_). unfold nonneg, b64_add. rewrite C1. split; [split; auto; lra|]. split; [lra|]. intros. nra.
  - rewrite Rabs_pos_eq by lra. apply Rle_lt_trans with (bpow radix2 3); [cbn; lra|apply bpow_lt; lia].
Qed.
Lemma rsum_le : forall l c, (forall x, In x l -> B2R x <= c) -> rsum l <= INR (length l) * c.
Proof.
  induction l as [|x l IH]; intros c H; [unfold rsum; cbn; lra|]. cbn [length]. rewrite S_INR. change (rsum (x :: l)) with (B2R x + rsum l).
  pose proof (H x (or_introl eq_refl)). assert (rsum l <= INR (length l) * c) by (apply IH; intros; apply H; right; auto). lra.
Qed.
Lemma class_start_error : forall e l, nonneg e -> B2R e <= 1 -> (1 <= length l)%nat -> (Z.of_nat (length l) <= 2 ^ 33)%Z ->
  Forall nonneg l -> (forall x, In x l -> B2R x <= 2) -> (exists x, In x l /\ 0 < B2R x) ->
  Forall nonneg (class_start e l) /\ length (class_start e l) = length l /\ is_finite (b64_sum (class_start e l)) = true /\
  Rabs (B2R (b64_sum (class_start e l)) - 1) <= 7 * (INR (length l) * uu).
Proof.
  intros e l NE LE L1 LL N HX (x0&I0&P0). pose proof uu_pos as UP. pose proof uu_le as UL.
  destruct (of_nat_val (length l)) as [FK VK]; [lia|]. assert (PK : 1 <= B2R (b64_of_nat (length l))) by (rewrite VK; apply IZR_le; lia).
  destruct (mul_one e NE) as [NM VM]. destruct (div_error _ (b64_of_nat (length l)) NM FK) as [ND [_ UD]]; [lra|rewrite VM; lra|].
  set (d := b64_div (b64_mul b64_one e) (b64_of_nat (length l))) in *. rewrite VM in UD.
  assert (DQ : B2R e / B2R (b64_of_nat (length l)) <= 1). { apply Rmult_le_reg_r with (B2R (b64_of_nat (length l))); [lra|]. unfold Rdiv. rewrite Rmult_assoc, Rinv_l by lra. lra. }
  assert (D2 : B2R d <= 2) by nra.
  assert (LI : INR (length l) <= bpow radix2 33). { rewrite INR_IZR_INZ. rewrite <- (IZR_Zpower radix2) by lia. apply IZR_le. exact LL. }
  assert (LU : INR (length l) * uu <= 1 / 1024).
  { apply Rle_trans with (bpow radix2 (-20)). - change (bpow radix2 (-20)) with (bpow radix2 (33 + -53)). rewrite bpow_plus. apply Rmult_le_compat_r; [apply bpow_ge_0|exact LI].
    - replace (1 / 1024) with (bpow radix2 (-10)) by (cbn; lra). apply bpow_le. lia. }
  unfold class_start. fold d. set (l1 := map (fun x => b64_add x d) l). assert (LN : length l1 = length l) by apply map_length.
  assert (AN : forall x, In x l -> nonneg (b64_add x d) /\ B2R (b64_add x d) <= 8 /\ (0 < B2R x -> 0 < B2R (b64_add x d))).
  { intros x HI. rewrite Forall_forall in N. apply add_nonneg; auto. }
  assert (N1 : Forall nonneg l1). { apply Forall_forall. intros y HI. apply in_map_iff in HI. destruct HI as (x&<-&HI). apply AN; auto. }
  assert (S8 : rsum l1 <= INR (length l1) * 8). { apply rsum_le. intros y HI. apply in_map_iff in HI. destruct HI as (x&<-&HI). apply AN; auto. }
  destruct (normalise_error l1 N1) as (A1&A2&_&_&A3).
  - rewrite LN. exact LU.
  - pose proof (in_rsum l1 (b64_add x0 d) N1 (in_map (fun x => b64_add x d) _ _ I0)). destruct (AN x0 I0) as (_&_&Q). specialize (Q P0). lra.
  - rewrite LN in S8. apply Rle_lt_trans with (bpow radix2 37); [|apply bpow_lt; lia]. change 37%Z with (33 + 4)%Z. rewrite bpow_plus. change (bpow radix2 4) with 16. lra.
  - destruct (normalise_error (normalise l1) A1) as (B1&B2&B3&B4&_).
    + rewrite A2, LN. exact LU.
    + lra.
    + apply Rle_lt_trans with (bpow radix2 2); [cbn; lra|apply bpow_lt; lia].
    + rewrite A2, LN in B4. split; auto. split; [lia|]. auto.
Qed.

(** *** starts that are accepted exactly *)
Lemma p_default : forall K, (1 <= K)%nat -> exists l, smooth_start None K None = Ok l /\ length l = K /\ (forall i, nth i l b64_zero = if Nat.eqb i 0 then b64_one else b64_zero) /\
  B2R (b64_sum l) = 1 /\ Forall nonneg l /\
  (forall c, sgd_accepts c K l = Ok tt) /\ forall c, clean_accepts c K l = Ok tt.
Proof.
  intros [|K] HK; [lia|]. exists (b64_one :: repeat b64_zero K). split; [reflexivity|]. split; [cbn; rewrite repeat_length; auto|].
  split. { intros [|i]; [reflexivity|]. cbn [nth Nat.eqb]. destruct (Nat.lt_ge_cases i K); [apply nth_repeat|apply nth_overflow; rewrite repeat_length; auto]. }
  assert (M : mult_of 0 (b64_sum (b64_one :: repeat b64_zero K)) 1).
  { replace 1%Z with (zsum (1%Z :: repeat 0%Z K)) at 1.
    - apply (np_sum_inv b64_add b64_zero (mult_of 0) (2 ^ 52)).
      + split; [reflexivity|]. cbn. ring.
      + intros. apply add_mult; auto. lia.
      + constructor; [destruct one_val as [A B]; split; auto; rewrite B; cbn; ring|]. clear. induction K; cbn; constructor; auto. split; [reflexivity|]. cbn. ring.
      + constructor; [lia|]. clear. induction K; cbn; constructor; auto. lia.
      + enough (zsum (repeat 0%Z K) = 0%Z) by (unfold zsum in *; cbn [fold_right]; lia). clear. induction K; cbn; auto.
    - enough (zsum (repeat 0%Z K) = 0%Z) by (unfold zsum in *; cbn [fold_right]; lia). clear. induction K; cbn; auto. }
  destruct M as [F V]. assert (V1 : B2R (b64_sum (b64_one :: repeat b64_zero K)) = 1) by (rewrite V; cbn; ring).
  split; [exact V1|].
  assert (FN : Forall nonneg (b64_one :: repeat b64_zero K)).
  { constructor; [destruct one_val as [A B]; split; auto; rewrite B; lra|]. clear. induction K; cbn; constructor; auto. split; [reflexivity|cbn; lra]. }
  split; [exact FN|]. pose proof (no_negative _ FN) as NN.
  assert (LL : length (b64_one :: repeat b64_zero K) = S K) by (cbn [length]; rewrite repeat_length; auto).
  split; intros c; [unfold sgd_accepts|unfold clean_accepts]; rewrite LL, Nat.eqb_refl, NN, orb_false_r; cbn [negb].
  - pose proof (eq_one _ F) as E1. change (b64_of_nat 1) with b64_one in E1. rewrite E1, V1. rewrite Req_bool_true by auto. cbn. rewrite andb_false_r. reflexivity.
  - rewrite close_small; auto; [cbn; rewrite andb_false_r; reflexivity|]. rewrite V1. rewrite Rminus_eq_0, Rabs_R0. apply bpow_ge_0.
Qed.

Lemma mask_repeat : forall K, mask_count (repeat true K) = K.
Proof. unfold mask_count. induction K; cbn; auto. Qed.
Lemma map_const : forall A B (f : A -> B) x n, map f (repeat x n) = repeat (f x) n.
Proof. induction n; cbn; congruence. Qed.
Lemma suggested_mask : forall K, (1 <= K)%nat -> suggested_start K = float_weights (repeat true K).
Proof.
  intros K H. unfold suggested_start, float_weights. rewrite mask_repeat. destruct (Nat.eqb_spec K 0); [lia|]. rewrite map_const. reflexivity.
Qed.
Lemma suggested_nonneg : forall K, (1 <= K)%nat -> (Z.of_nat K <= 2 ^ 52)%Z -> Forall nonneg (suggested_start K).
Proof.
  intros K H L. destruct one_val as [F1 V1]. destruct (of_nat_val K L) as [F V]. assert (P : 1 <= B2R (b64_of_nat K)) by (rewrite V; apply IZR_le; lia).
  destruct (div_error b64_one (b64_of_nat K)) as [A _]; [split; auto; rewrite V1; lra|auto|lra|rewrite V1; lra|].
  unfold suggested_start. clear - A. generalize K at 2. intros n. induction n; constructor; auto.
Qed.
Lemma p_suggested_pow : forall k, (k <= 52)%nat -> sgd_accepts true (2 ^ k) (suggested_start (2 ^ k)) = Ok tt.
Proof.
  intros k Hk. assert (P : (1 <= 2 ^ k)%nat) by (apply Nat.neq_0_lt_0, Nat.pow_nonzero; lia).
  pose proof (p_C36_pow (repeat true (2 ^ k)) k Hk (mask_repeat _)) as E. unfold float_ever_oob in E. rewrite <- suggested_mask in E by auto.
  unfold sgd_accepts, b64_sum, b64_one. rewrite E. rewrite no_negative.
  - unfold suggested_start. rewrite repeat_length, Nat.eqb_refl. reflexivity.
  - apply suggested_nonneg; auto. rewrite Nat2Z.inj_pow. apply Z.pow_le_mono_r; lia.
Qed.
Definition rejected (r : result unit) : bool := match r with Err TypeError => true | _ => false end.
Lemma rejected_spec : forall r, rejected r = true <-> r = Err TypeError.
Proof. intros [[]|[]]; cbn; split; intros H; try discriminate; auto. Qed.
Definition suggested_bad : list nat := [6; 7; 13; 14; 15; 19; 20; 21; 22; 23; 27; 28; 29; 31; 37; 38; 45; 46; 47; 48; 49; 52; 53; 54; 56; 58; 59; 61; 62; 63; 68; 69; 70; 71; 72;
  77; 78; 79; 80; 82; 84; 85; 87; 88; 93; 94; 95; 97; 98; 99; 100; 101; 102; 103; 104; 105; 106; 109; 110; 111; 112; 115; 116; 117; 118; 119; 120; 122; 123; 124; 125; 126; 127]%nat.
Lemma suggested_table : forallb (fun K => eqb (rejected (sgd_accepts true K (suggested_start K))) (existsb (Nat.eqb K) suggested_bad)) (seq 1 128) = true.
Proof. vm_compute. reflexivity. Qed.
Lemma p_suggested : forall K, (1 <= K <= 128)%nat -> (sgd_accepts true K (suggested_start K) = Err TypeError <-> In K suggested_bad).
Proof.
  intros K H. pose proof suggested_table as T. rewrite forallb_forall in T. specialize (T K ltac:(apply in_seq; lia)). apply eqb_prop in T.
  rewrite <- rejected_spec, T, existsb_exists. split; [intros (x&A&B); apply Nat.eqb_eq in B; subst; auto|intros A; exists K; split; auto; apply Nat.eqb_refl].
Qed.

(** *** seeds that are rejected *)
Definition bad_seed (class_eps : option b64) (K : nat) (s : N) : bool :=
  match smooth_start class_eps K (Some (uniform_after_seed s K)) with Ok l => rejected (sgd_accepts true K l) | Err _ => false end.
Lemma bad_seed_spec : forall ce K s, bad_seed ce K s = true -> exists l, smooth_start ce K (Some (uniform_after_seed s K)) = Ok l /\ sgd_accepts true K l = Err TypeError.
Proof. intros ce K s H. unfold bad_seed in H. destruct (smooth_start ce K (Some (uniform_after_seed s K))) as [l|]; [|discriminate]. exists l. split; auto. apply rejected_spec. auto. Qed.
(** for every number of columns a seed *)
Definition seeds_reg : list N := [5; 0; 2; 10; 0; 1; 8; 4; 4; 5; 7; 7; 0; 0; 0; 0; 0; 0; 0; 0; 1; 0; 9; 1; 2; 2; 1; 0; 0]%N.
Definition seeds_class : list N := [5; 8; 20; 8; 0; 18; 5; 1; 0; 1; 2; 3; 4; 1; 0; 2; 3; 0; 1; 0; 3; 27; 1; 3; 0; 2; 1; 7]%N.
Lemma table_seed : forall ce m ss, forallb (fun p => bad_seed ce (fst p) (snd p)) (combine (seq m (length ss)) ss) = true ->
  forall K, (m <= K < m + length ss)%nat -> exists l, smooth_start ce K (Some (uniform_after_seed (nth (K - m) ss 0%N) K)) = Ok l /\ sgd_accepts true K l = Err TypeError.
Proof.
  intros ce m ss T K H. apply bad_seed_spec. rewrite forallb_forall in T. apply (T (K, nth (K - m) ss 0%N)).
  replace (K, nth (K - m) ss 0%N) with (nth (K - m) (combine (seq m (length ss)) ss) (0%nat, 0%N)).
  - apply nth_In. rewrite combine_length, seq_length, Nat.min_id. lia.
  - rewrite combine_nth by apply seq_length. rewrite seq_nth by lia. f_equal. lia.
Qed.
Lemma nth_le : forall ss b i, forallb (fun s => N.leb s b) ss = true -> (nth i ss 0 <= b)%N.
Proof. intros ss b i H. destruct (Nat.lt_ge_cases i (length ss)); [|rewrite nth_overflow by auto; lia]. rewrite forallb_forall in H. apply N.leb_le, H, nth_In. auto. Qed.
Lemma reg_table : forallb (fun p => bad_seed None (fst p) (snd p)) (combine (seq 2 (length seeds_reg)) seeds_reg) = true.
Proof. vm_compute. reflexivity. Qed.
Lemma class_table : forallb (fun p => bad_seed (Some (b64_frac 10000)) (fst p) (snd p)) (combine (seq 3 (length seeds_class)) seeds_class) = true.
Proof. vm_compute. reflexivity. Qed.
Lemma p_seeded_bad : forall K, (2 <= K <= 30)%nat -> exists s l, (s <= 10)%N /\ smooth_start None K (Some (uniform_after_seed s K)) = Ok l /\ sgd_accepts true K l = Err TypeError.
Proof.
  intros K H. exists (nth (K - 2) seeds_reg 0%N). destruct (table_seed None 2 seeds_reg reg_table K) as (l&A&B); [cbn; lia|]. exists l. split; [apply nth_le; reflexivity|auto].
Qed.
Lemma p_class_bad : forall K, (3 <= K <= 30)%nat -> exists s l, (s <= 27)%N /\ smooth_start (Some (b64_frac 10000)) K (Some (uniform_after_seed s K)) = Ok l /\ sgd_accepts true K l = Err TypeError.
Proof.
  intros K H. exists (nth (K - 3) seeds_class 0%N). destruct (table_seed (Some (b64_frac 10000)) 3 seeds_class class_table K) as (l&A&B); [cbn; lia|]. exists l. split; [apply nth_le; reflexivity|auto].
Qed.
Lemma p_twice : let once := normalise (map (fun x => b64_add x (b64_div (b64_frac 10000) (b64_of_nat 3))) (normalise (uniform_after_seed 2 3))) in
  sgd_accepts true 3 once = Err TypeError /\ exists l, smooth_start (Some (b64_frac 10000)) 3 (Some (uniform_after_seed 2 3)) = Ok l /\ sgd_accepts true 3 l = Ok tt.
Proof.
  cbv zeta. split; [vm_compute; reflexivity|]. exists (class_start (b64_frac 10000) (normalise (uniform_after_seed 2 3))). split; [reflexivity|]. vm_compute. reflexivity.
Qed.
(** the default start of a classification *)
Lemma p_class_default : exists l, smooth_start (Some (b64_frac 10000)) 31 None = Ok l /\ sgd_accepts true 31 l = Err TypeError.
Proof. destruct (smooth_start (Some (b64_frac 10000)) 31 None) as [l|] eqn:E; [|discriminate E]. exists l. split; auto. injection E as <-. apply rejected_spec. vm_compute. reflexivity. Qed.

(** every start is close to 1 *)
Definition draws_ok (K : nat) (draws : option (list b64)) : Prop :=
  match draws with
  | None => True
  | Some d => length d = K /\ (forall x, In x d -> is_finite x = true /\ 0 <= B2R x <= 1) /\ exists x, In x d /\ 0 < B2R x
  end.
Lemma p_all_close : forall class_eps K draws, (1 <= K)%nat -> (Z.of_nat K <= 2 ^ 33)%Z -> draws_ok K draws ->
  (forall e, class_eps = Some e -> is_finite e = true /\ 0 <= B2R e <= 1) ->
  exists l, smooth_start class_eps K draws = Ok l /\ length l = K /\ (forall x, In x l -> is_finite x = true /\ 0 <= B2R x) /\ is_finite (b64_sum l) = true /\
  Rabs (B2R (b64_sum l) - 1) <= 7 * (INR K * bpow radix2 (-53)).
Proof.
  intros ce K draws HK LK HD HE. pose proof uu_pos as UP.
  assert (LI : INR K <= bpow radix2 33). { rewrite INR_IZR_INZ. rewrite <- (IZR_Zpower radix2) by lia. apply IZR_le. exact LK. }
  assert (LU : INR K * uu <= bpow radix2 (-20)). { change (bpow radix2 (-20)) with (bpow radix2 (33 + -53)). rewrite bpow_plus. apply Rmult_le_compat_r; [apply bpow_ge_0|exact LI]. }
  assert (L10 : bpow radix2 (-20) <= 1 / 1024) by (replace (1 / 1024) with (bpow radix2 (-10)) by (cbn; lra); apply bpow_le; lia).
  assert (B : exists l, start_weights K draws = Ok l /\ length l = K /\ Forall nonneg l /\ is_finite (b64_sum l) = true /\ Rabs (B2R (b64_sum l) - 1) <= 7 * (INR K * uu) /\ 1 / 2 <= rsum l <= 2).
  { destruct draws as [d|].
    - destruct HD as (LD&HR&(x0&I0&P0)). exists (normalise d). split; [reflexivity|].
      assert (N : Forall nonneg d). { apply Forall_forall. intros x HI. destruct (HR x HI) as (A&Q&_). split; auto. }
      pose proof (in_rsum d x0 N I0). assert (SB : rsum d <= INR (length d) * 1) by (apply rsum_le; intros x HI; apply HR; auto).
      rewrite LD in SB. destruct (normalise_error d N) as (A1&A2&A3&A4&A5).
      + rewrite LD. lra.
      + lra.
      + apply Rle_lt_trans with (bpow radix2 34); [|apply bpow_lt; lia]. change 34%Z with (33 + 1)%Z. rewrite bpow_plus. change (bpow radix2 1) with 2. lra.
      + rewrite LD in *. auto 10.
    - destruct (p_default K HK) as (l&A1&A2&A3&A4&A5&A6&_). exists l. unfold smooth_start, bind in A1. destruct (start_weights K None) as [l'|] eqn:E; [|discriminate A1]. injection A1 as ->. split; auto. split; auto. split; auto.
      split. { destruct (is_finite (b64_sum l)) eqn:F; auto. destruct (b64_sum l); cbn in A4, F; try discriminate F; lra. }
      split; [rewrite A4, Rminus_eq_0, Rabs_R0; apply Rmult_le_pos; [lra|apply Rmult_le_pos; [apply pos_INR|lra]]|].
      enough (rsum l = 1) by lra. destruct K as [|K]; [lia|]. injection E as <-. unfold rsum. cbn [fold_right]. rewrite (proj2 one_val).
      assert (Z0 : fold_right (fun x a => B2R x + a) 0 (repeat b64_zero K) = 0). { clear. induction K; [reflexivity|]. cbn [repeat fold_right]. rewrite IHK. cbn. lra. } lra. }
  destruct B as (l&B1&B2&B3&B4&B5&B6). unfold smooth_start. rewrite B1. cbn [bind]. destruct ce as [e|].
  - destruct (HE e eq_refl) as (E1&E2&E3). exists (class_start e l). split; [reflexivity|].
    destruct (class_start_error e l) as (C1&C2&C3&C4); auto; try (rewrite B2; auto; fail).
    + split; auto.
    + intros x HI. pose proof (in_rsum l x B3 HI). lra.
    + destruct (Exists_dec (fun x : b64 => 0 < B2R x) l (fun x => Rlt_dec 0 (B2R x))) as [X|X]; [apply Exists_exists in X; exact X|]. exfalso.
      assert (rsum l <= INR (length l) * 0); [|lra]. apply rsum_le. intros x HI. destruct (Rle_dec (B2R x) 0); auto. exfalso. apply X. apply Exists_exists. exists x. split; auto. lra.
    + rewrite B2 in C4. split; [lia|]. split; [rewrite Forall_forall in C1; exact C1|]. auto.
  - exists l. split; [reflexivity|]. split; auto. split; [rewrite Forall_forall in B3; exact B3|]. auto.
Qed.
Lemma p_ce_close : forall K, (Z.of_nat K <= 2 ^ 26)%Z -> 7 * (INR K * bpow radix2 (-53)) < 1 / 10000000.
Proof.
  intros K H. assert (LI : INR K <= bpow radix2 26). { rewrite INR_IZR_INZ. rewrite <- (IZR_Zpower radix2) by lia. apply IZR_le. exact H. }
  apply Rle_lt_trans with (7 * (bpow radix2 26 * bpow radix2 (-53))); [apply Rmult_le_compat_l; [lra|apply Rmult_le_compat_r; [apply bpow_ge_0|exact LI]]|]. rewrite <- bpow_plus. cbn. lra.
Qed.
