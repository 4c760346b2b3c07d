(** L_FProx4: a first entry that is large and at least K times every other entry. *)
From Verif Require Import Base M_Float M_Start M_Prox M_FProx L_Float L_Start L_FProx L_FProx2 L_FProx3.
From Flocq Require Import Core Relative Plus_error BinarySingleNaN.
From Coq Require Import ZArith List Bool Arith Reals Lia Lra Permutation Psatz Sorted.
Import ListNotations.
Local Open Scope R_scope.

(** plus infinity or a finite number that is at least c *)
Definition atleast (c : R) (x : b64) : Prop := x = pinf \/ (is_finite x = true /\ c <= B2R x).
Definition fx := SpecFloat.fexp 53 1024.
Definition fmt (x : R) : Prop := generic_format radix2 fx x.
Lemma rnd_ge : forall x c, fmt c -> c <= x -> c <= rnd x.
Proof. intros x c F H. apply round_ge_generic; auto; [apply fexp_correct; exact prec_pos|apply valid_rnd_N]. Qed.
Lemma over : forall z s x, 0 < x -> bpow radix2 1024 <= Rabs (rnd x) -> B2SF z = binary_overflow 53 1024 mode_NE s -> s = false -> z = pinf.
Proof. intros z s x _ _ H ->. cbn in H. destruct z as [b|b| |b m e HB]; try discriminate H. injection H as ->. reflexivity. Qed.
Lemma add_atleast : forall c x z, fmt c -> 0 < c -> atleast c x -> is_finite z = true -> 0 <= B2R z -> atleast c (b64_add x z).
Proof.
  intros c x z FC PC [->|[FX LX]] FZ PZ.
  - left. apply inf_add. split; [destruct z; auto; discriminate FZ|]. rewrite Bltb_correct by (auto; reflexivity). apply Rlt_bool_false. cbn. lra.
  - pose proof (Bplus_correct 53 1024 prec_pos prec_emax mode_NE x z FX FZ) as C. fold fx in C. change (round radix2 fx (round_mode mode_NE) (B2R x + B2R z)) with (rnd (B2R x + B2R z)) in C.
    destruct (Rlt_bool_spec (Rabs (rnd (B2R x + B2R z))) (bpow radix2 1024)) as [L|L].
    + destruct C as (C1&C2&_). right. split; [exact C2|]. unfold b64_add. rewrite C1. apply rnd_ge; auto. lra.
    + destruct C as (C1&_). left. apply (over _ _ (B2R x + B2R z) ltac:(lra) L C1). destruct x as [s|s| |s m e H]; try discriminate FX; [cbn in LX; lra|]. destruct s; [|reflexivity]. exfalso. cbn in LX. assert (F2R (Float radix2 (Z.neg m) e) < 0) by (apply F2R_lt_0; reflexivity). lra.
Qed.
Lemma sub_atleast : forall M x, fmt M -> bpow radix2 55 <= M -> atleast M x -> atleast M (b64_sub x b64_one).
Proof.
  intros M x FM HM [->|[FX LX]]; [left; reflexivity|right]. destruct one_val as [F1 V1]. pose proof (Bminus_correct 53 1024 prec_pos prec_emax mode_NE x b64_one FX F1) as C. rewrite V1 in C.
  rewrite big_minus_one in C; [|apply generic_format_B2R|lra]. rewrite Rlt_bool_true in C by apply abs_B2R_lt_emax. destruct C as (C1&C2&_). split; [exact C2|]. unfold b64_sub. rewrite C1. exact LX.
Qed.
Lemma div_atleast : forall M x k c, 0 < M -> atleast M x -> (1 <= k)%nat -> (Z.of_nat k <= 2 ^ 52)%Z -> fmt c -> c * INR k <= M -> atleast c (b64_div x (b64_of_nat k)).
Proof.
  intros M x k c PM HX K1 K2 FC HC. destruct (of_nat_val k K2) as [FK VK]. assert (VK' : B2R (b64_of_nat k) = INR k) by (rewrite VK; symmetry; apply INR_IZR_INZ).
  assert (N1 : 1 <= INR k) by (change 1 with (INR 1); apply le_INR; auto). destruct HX as [->|[FX LX]].
  - left. destruct (of_nat_pos k K1) as [E|E]; [exact E|]. exfalso. destruct (b64_of_nat k) as [s|[]| |[] m e H]; try discriminate FK; try discriminate E.
  - pose proof (Bdiv_correct 53 1024 prec_pos prec_emax mode_NE x (b64_of_nat k) ltac:(lra)) as C. rewrite VK' in C. change (round radix2 (SpecFloat.fexp 53 1024) (round_mode mode_NE) (B2R x / INR k)) with (rnd (B2R x / INR k)) in C.
    assert (Q : c <= B2R x / INR k). { apply Rmult_le_reg_r with (INR k); [lra|]. unfold Rdiv. rewrite Rmult_assoc, Rinv_l by lra. lra. }
    assert (QX : 0 <= B2R x / INR k <= B2R x). { assert (0 < / INR k <= 1) by (split; [apply Rinv_0_lt_compat; lra|rewrite <- Rinv_1; apply Rinv_le; lra]). unfold Rdiv. split; nra. }
    assert (R0 : 0 <= rnd (B2R x / INR k)) by (apply rnd_ge; [apply generic_format_0|lra]).
    assert (R1 : rnd (B2R x / INR k) <= B2R x) by (apply round_le_generic; [apply fexp_correct; exact prec_pos|apply valid_rnd_N|apply generic_format_B2R|lra]).
    rewrite Rlt_bool_true in C.
    + destruct C as (C1&C2&_). right. unfold b64_div. rewrite C2. split; [exact FX|]. rewrite C1. apply rnd_ge; auto.
    + rewrite Rabs_pos_eq by auto. eapply Rle_lt_trans; [exact R1|]. pose proof (abs_B2R_lt_emax 53 1024 x) as A. rewrite Rabs_pos_eq in A by lra. exact A.
Qed.
Lemma atleast_ltb : forall x z, atleast (B2R z) x -> is_finite z = true -> Bltb x z = false.
Proof. intros x z [->|[F L]] FZ; [apply inf_ltb|]. rewrite Bltb_correct by auto. apply Rlt_bool_false. exact L. Qed.
Lemma p_dominant : forall (M : b64) l, (Z.of_nat (length l) < 2 ^ 52)%Z -> is_finite M = true -> bpow radix2 55 <= B2R M -> (forall x, In x l -> is_finite x = true /\ B2R x * INR (S (length l)) <= B2R M) -> prox_project64 (M :: l) = Err ValueError.
Proof.
  intros M l LL FM HM HL. assert (P55 : 0 < bpow radix2 55) by apply bpow_gt_0. assert (PM : 0 < B2R M) by lra. assert (FMT : fmt (B2R M)) by apply (generic_format_B2R 53 1024 M).
  assert (NN : forall x, In x (M :: l) -> is_nan x = false). { intros x [<-|H]; [destruct M; auto; discriminate FM|]. destruct (HL x H) as [F _]. destruct x; auto; discriminate F. }
  rewrite p_same by auto. unfold prox_project. set (K := INR (S (length l))) in *. assert (K1 : 1 <= K) by (unfold K; rewrite S_INR; pose proof (pos_INR (length l)); lra).
  assert (CL : @clip0 b64 BNum (M :: l) = M :: @clip0 b64 BNum l).
  { unfold clip0. cbn [map nltb n0 BNum]. rewrite Bltb_correct by (auto; reflexivity). rewrite Rlt_bool_false by (cbn; lra). reflexivity. }
  set (zs := @clip0 b64 BNum l) in *. assert (LZ : length zs = length l) by (unfold zs, clip0; apply map_length).
  assert (ZB : forall z, In z zs -> is_finite z = true /\ 0 <= B2R z /\ B2R z * K <= B2R M).
  { intros z HZ. unfold zs, clip0 in HZ. apply in_map_iff in HZ. destruct HZ as (x&<-&HX). destruct (HL x HX) as [F V]. cbn [nltb n0 BNum]. destruct (clip_one x F) as [A B]. cbv zeta in A, B. rewrite B. split; auto. split; [apply Rmax_r|]. unfold Rmax. destruct (Rle_dec (B2R x) 0); lra. }
  rewrite CL. assert (ALL : forall z, In z (M :: zs) -> is_finite z = true /\ 0 <= B2R z <= B2R M). { intros z [<-|HZ]; [split; auto; lra|]. destruct (ZB z HZ) as (A&B&C). split; auto. split; auto. nra. }
  set (u := @sort_desc b64 BNum (M :: zs)). pose proof (sort_perm (M :: zs)) as PE. fold u in PE.
  assert (SO : StronglySorted (fun a b : b64 => B2R b <= B2R a) u) by (apply sort_sorted; intros x HX; apply ALL; auto).
  assert (IU : forall z, In z u -> is_finite z = true /\ 0 <= B2R z <= B2R M) by (intros z HZ; apply ALL; eapply Permutation_in; [apply Permutation_sym; exact PE|exact HZ]).
  assert (LU : length u = S (length l)) by (rewrite <- (Permutation_length PE); cbn; lia).
  destruct u as [|h u'] eqn:EU; [discriminate LU|].
  assert (HV : B2R h = B2R M). { apply Rle_antisym; [apply IU; left; auto|]. assert (IM : In M (h :: u')) by (eapply Permutation_in; [exact PE|left; auto]). destruct IM as [->|IM]; [lra|]. inversion SO; subst. rewrite Forall_forall in H2. auto. }
  assert (FH : is_finite h = true) by (apply IU; left; auto).
  assert (S0 : is_finite (b64_add b64_zero h) = true /\ B2R (b64_add b64_zero h) = B2R M).
  { pose proof (Bplus_correct 53 1024 prec_pos prec_emax mode_NE b64_zero h eq_refl FH) as C. change (B2R b64_zero) with 0 in C. rewrite Rplus_0_l in C. rewrite round_generic in C; [|apply valid_rnd_N|apply generic_format_B2R]. rewrite Rlt_bool_true in C by apply abs_B2R_lt_emax. destruct C as (C1&C2&_). rewrite <- HV. auto. }
  assert (SV : forall s, In s (@cumsum b64 BNum (h :: u')) -> atleast (B2R M) s).
  { apply (cumsum_head (atleast (B2R M))); [|right; split; [apply S0|destruct S0; lra]]. intros a b HA HB. apply add_atleast; auto; apply IU; right; auto. }
  assert (LS : length (@cumsum b64 BNum (h :: u')) = S (length l)) by (unfold cumsum; rewrite cs_length; exact LU).
  cbn [nltb BNum]. rewrite none_at; [reflexivity|].
  assert (TN : forall i, (i < S (length l))%nat -> forall c, fmt c -> c * INR (S i) <= B2R M -> atleast c (nth i (@thresholds b64 BNum (@cumsum b64 BNum (h :: u'))) b64_zero)).
  { intros i LI c FC HC. rewrite thr_nth by (rewrite LS; auto). apply (div_atleast (B2R M)); auto; [|lia|lia]. apply sub_atleast; auto. apply SV. apply nth_In. rewrite LS. auto. }
  assert (LT : length (@thresholds b64 BNum (@cumsum b64 BNum (h :: u'))) = length (M :: zs)) by (rewrite thr_length, LS; cbn; lia).
  set (th := @thresholds b64 BNum (@cumsum b64 BNum (h :: u'))) in *.
  assert (G : forall i, (i < length (M :: zs))%nat -> Bltb (nth i th b64_zero) (nth i (M :: zs) b64_zero) = false).
  { intros i LI. cbn [length] in LI. apply atleast_ltb; [|apply ALL, nth_In; cbn; lia]. apply TN; [lia|apply (generic_format_B2R 53 1024)|]. destruct i as [|i]; [cbn; lra|]. cbn [nth].
    destruct (ZB (nth i zs b64_zero)) as (A&B&C); [apply nth_In; lia|]. assert (INR (S (S i)) <= K) by (apply le_INR; lia). nra. }
  clearbody th. revert LT G. generalize (M :: zs). intros w. clear. revert th. induction w as [|x w IH]; intros [|t th] LT G; try discriminate LT; constructor; [apply (G 0%nat); cbn; lia|]. apply IH; [cbn in LT; lia|]. intros i LI. apply (G (S i)). cbn. lia.
Qed.
