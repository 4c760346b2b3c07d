(** L_OobF: the sum of the out-of-bag weights in double arithmetic is close to 1. *)
From Verif Require Import Base M_Float M_Start L_Float L_Start.
From Flocq Require Import Core BinarySingleNaN.
From Coq Require Import ZArith List Bool Arith Reals Lia Lra Psatz.
Import ListNotations.
Local Open Scope R_scope.

Definition ind64 (b : bool) : b64 := b64_of_nat (if b then 1 else 0).
Lemma ind_nonneg : forall b, L_Start.nonneg (ind64 b) /\ B2R (ind64 b) = if b then 1 else 0.
Proof. intros b. destruct (of_nat_val (if b then 1 else 0)) as [F V]; [destruct b; cbn; lia|]. fold (ind64 b) in F, V. split; [split; auto|]; rewrite V; destruct b; cbn; lra. Qed.
Lemma ind_all : forall m, Forall L_Start.nonneg (map ind64 m) /\ rsum (map ind64 m) = INR (mask_count m).
Proof.
  induction m as [|b m [A B]]; [split; [constructor|reflexivity]|]. destruct (ind_nonneg b) as [N V]. cbn [map]. split; [constructor; auto|].
  change (rsum (ind64 b :: map ind64 m)) with (B2R (ind64 b) + rsum (map ind64 m)). rewrite B, V. unfold mask_count. destruct b; cbn [filter length]; [rewrite S_INR|]; lra.
Qed.
Lemma count_le : forall m, (mask_count m <= length m)%nat.
Proof. unfold mask_count. induction m as [|[] m IH]; cbn in *; lia. Qed.
Lemma p_oob_close : forall mask, (1 <= mask_count mask)%nat -> (Z.of_nat (length mask) <= 2 ^ 40)%Z ->
  is_finite (np_sum b64_add b64_zero (float_weights mask)) = true /\ Rabs (B2R (np_sum b64_add b64_zero (float_weights mask)) - 1) <= 4 * (INR (length mask) * bpow radix2 (-53)).
Proof.
  intros mask HC HL. pose proof (count_le mask) as CL. set (c := mask_count mask) in *. pose proof uu_pos as UP. pose proof uu_le as UL.
  destruct (of_nat_val c) as [FC VC]; [lia|]. assert (VC' : B2R (b64_of_nat c) = INR c) by (rewrite VC; symmetry; apply INR_IZR_INZ).
  assert (C1 : 1 <= INR c) by (change 1 with (INR 1); apply le_INR; auto). destruct (ind_all mask) as [NN RS]. fold c in RS.
  assert (EW : float_weights mask = map (fun x => b64_div x (b64_of_nat c)) (map ind64 mask)).
  { unfold float_weights. fold c. destruct (Nat.eqb_spec c 0); [lia|]. rewrite map_map. reflexivity. }
  destruct (divs_error (b64_of_nat c) (map ind64 mask) FC) as [NW [W1 W2]]; auto; [lra| |].
  { intros x H. apply in_map_iff in H. destruct H as (b&<-&_). destruct (ind_nonneg b) as [_ ->]. destruct b; lra. }
  rewrite <- EW in *. rewrite map_length, RS, VC' in W1, W2. replace (INR c / INR c) with 1 in W1, W2 by (field; lra).
  set (n := INR (length mask)) in *. assert (N1 : 1 <= n) by (unfold n; change 1 with (INR 1); apply le_INR; lia).
  assert (NB : n * uu <= 1 / 1024).
  { assert (n <= bpow radix2 40) by (unfold n; rewrite INR_IZR_INZ, <- (IZR_Zpower radix2) by lia; apply IZR_le; exact HL). apply Rle_trans with (bpow radix2 40 * uu); [apply Rmult_le_compat_r; lra|].
    unfold uu. rewrite <- bpow_plus. replace (1 / 1024) with (bpow radix2 (-10)) by (cbn; lra). apply bpow_le. lia. }
  assert (LW : length (float_weights mask) = length mask) by (unfold float_weights; apply map_length).
  assert (B10 : 4 < bpow radix2 1024) by (change 4 with (bpow radix2 2); apply bpow_lt; lia). assert (NU : n * (uu * uu) <= uu) by nra.
  destruct (sum_error (float_weights mask) NW) as (F&S1&S2); rewrite ?LW; fold n; [lra|nra|]. rewrite LW in S1, S2. fold n in S1, S2. split; [exact F|].
  change (bpow radix2 (-53)) with uu. change (b64_sum (float_weights mask)) with (np_sum b64_add b64_zero (float_weights mask)) in *.
  set (s := B2R (np_sum b64_add b64_zero (float_weights mask))) in *. set (w := rsum (float_weights mask)) in *. set (v := n * uu) in *. assert (UV : uu <= v) by (unfold v; nra).
  assert (U9 : n * (uu * uu) <= v * (1/1024)). { replace (n * (uu * uu)) with (v * uu) by (unfold v; ring). apply Rmult_le_compat_l; [unfold v; nra|]. apply Rle_trans with v; auto. }
  apply Rabs_le. split; nra.
Qed.
Lemma none_sum : forall mask, mask_count mask = 0%nat -> Forall L_Start.nonneg (float_weights mask) /\ rsum (float_weights mask) = 0.
Proof.
  intros mask H. unfold float_weights. rewrite H. cbn [Nat.eqb]. unfold mask_count in H. induction mask as [|[] m IH]; cbn in H; try discriminate H; [split; [constructor|reflexivity]|].
  destruct (IH H) as [A B]. cbn [map]. assert (Z : L_Start.nonneg (b64_div (b64_of_nat 0) (b64_of_nat 1)) /\ B2R (b64_div (b64_of_nat 0) (b64_of_nat 1)) = 0).
  { assert (E : B2SF (b64_div (b64_of_nat 0) (b64_of_nat 1)) = SpecFloat.S754_zero false) by (vm_compute; reflexivity). destruct (b64_div _ _); try discriminate E. split; [split; [reflexivity|cbn; lra]|reflexivity]. }
  destruct Z as [Z1 Z2]. split; [constructor; auto|]. match goal with |- rsum (?x :: ?l) = _ => change (B2R x + rsum l = 0) end. rewrite Z2, B. lra.
Qed.
(** [np.allclose] instead of [==] *)
Lemma p_oob_tolerance : forall mask, (Z.of_nat (length mask) <= 2 ^ 33)%Z -> (close_to_one (np_sum b64_add b64_zero (float_weights mask)) = true <-> (1 <= mask_count mask)%nat).
Proof.
  intros mask HL. split.
  - intros H. destruct (Nat.eq_dec (mask_count mask) 0) as [E|E]; [exfalso|lia]. destruct (none_sum mask E) as [N R].
    assert (B10 : 0 < bpow radix2 1024) by apply bpow_gt_0.
    destruct (sums_bound _ _ (np_sums b64_add b64_zero (float_weights mask)) N) as (F&S1&S2); [rewrite R; lra|]. rewrite R, Rmult_0_l in *.
    set (s := np_sum b64_add b64_zero (float_weights mask)) in *. assert (V0 : B2R s = 0) by lra.
    destruct s as [[]|[]| |[] m e HB]; try discriminate F.
    + assert (C : close_to_one (B754_zero true) = false) by (vm_compute; reflexivity). congruence.
    + assert (C : close_to_one (B754_zero false) = false) by (vm_compute; reflexivity). congruence.
    + revert V0. apply Rlt_not_eq. apply F2R_lt_0. reflexivity.
    + revert V0. apply Rgt_not_eq. apply F2R_gt_0. reflexivity.
  - intros HC. destruct (p_oob_close mask HC) as [F A]; [lia|]. apply close_small; auto. eapply Rle_trans; [exact A|].
    assert (LI : INR (length mask) <= bpow radix2 33) by (rewrite INR_IZR_INZ, <- (IZR_Zpower radix2) by lia; apply IZR_le; exact HL).
    apply Rle_trans with (bpow radix2 2 * (bpow radix2 33 * bpow radix2 (-53))); [change (bpow radix2 2) with 4; apply Rmult_le_compat_l; [lra|apply Rmult_le_compat_r; [apply bpow_ge_0|exact LI]]|].
    rewrite <- !bpow_plus. apply bpow_le. lia.
Qed.
