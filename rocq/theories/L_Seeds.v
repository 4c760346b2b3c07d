(** L_Seeds: the uniform draws after a seed. *)
From Verif Require Import Base M_Float M_Start L_Float L_Start.
From Flocq Require Import Core Relative Plus_error BinarySingleNaN.
From Coq Require Import ZArith List Bool Arith Reals Lia Lra Permutation Psatz.
Import ListNotations.
Local Open Scope R_scope.

(** *** the draws after a seed *)
Definition w32 (x : N) : Prop := N.shiftr x 32 = 0%N.
Lemma w32_lt : forall x, w32 x <-> (x < two32)%N.
Proof.
  intros x. unfold w32, two32. rewrite N.shiftr_div_pow2. change (2 ^ 32)%N with 4294967296%N. split; intros H.
  - destruct (N.lt_ge_cases x 4294967296) as [G|G]; auto. exfalso. pose proof (N.div_le_mono _ _ 4294967296 ltac:(lia) G) as D. rewrite H in D. vm_compute in D. apply D. reflexivity.
  - apply N.div_small. auto.
Qed.
Lemma w32_mod : forall x, w32 (N.modulo x two32).
Proof. intros. apply w32_lt. apply N.mod_lt. discriminate. Qed.
Lemma w32_lxor : forall x y, w32 x -> w32 y -> w32 (N.lxor x y).
Proof. unfold w32. intros x y A B. rewrite N.shiftr_lxor, A, B. reflexivity. Qed.
Lemma w32_lor : forall x y, w32 x -> w32 y -> w32 (N.lor x y).
Proof. unfold w32. intros x y A B. rewrite N.shiftr_lor, A, B. reflexivity. Qed.
Lemma w32_land : forall x y, w32 x -> w32 (N.land x y).
Proof. unfold w32. intros x y A. rewrite N.shiftr_land, A. reflexivity. Qed.
Lemma w32_shiftr : forall x k, w32 x -> w32 (N.shiftr x k).
Proof. unfold w32. intros x k A. rewrite N.shiftr_shiftr, N.add_comm, <- N.shiftr_shiftr, A. apply N.shiftr_0_l. Qed.
Lemma w32_nth : forall st i, Forall w32 st -> w32 (nth i st 0%N).
Proof. intros st i H. destruct (Nat.lt_ge_cases i (length st)); [rewrite Forall_forall in H; apply H, nth_In; auto|rewrite nth_overflow by auto; reflexivity]. Qed.
Lemma w32_seed : forall s, Forall w32 (mt_seed s).
Proof.
  intros s. unfold mt_seed. constructor; [apply w32_mod|]. generalize (N.modulo s two32) as x. generalize 1%N as i. generalize 623%nat as n.
  induction n as [|n IH]; intros i x; cbn [mt_words]; constructor; [apply w32_mod|apply IH].
Qed.
Lemma w32_twist : forall st, Forall w32 st -> w32 (mt_twist st).
Proof.
  intros st H. unfold mt_twist. apply w32_lxor; [apply w32_lxor; [apply w32_nth; auto|apply w32_shiftr, w32_lor; apply w32_land, w32_nth; auto]|].
  match goal with |- w32 (if ?b then _ else _) => destruct b; reflexivity end.
Qed.
Lemma w32_temper : forall y, w32 y -> w32 (mt_temper y).
Proof.
  intros y H. unfold mt_temper.
  assert (H1 := w32_lxor _ _ H (w32_shiftr _ 11 H)). set (y1 := N.lxor y (N.shiftr y 11)) in *. clearbody y1.
  assert (H2 := w32_lxor _ _ H1 (w32_land _ 2636928640%N (w32_mod (N.shiftl y1 7)))). set (y2 := N.lxor y1 (N.land (N.modulo (N.shiftl y1 7) two32) 2636928640)) in *. clearbody y2.
  assert (H3 := w32_lxor _ _ H2 (w32_land _ 4022730752%N (w32_mod (N.shiftl y2 15)))). set (y3 := N.lxor y2 (N.land (N.modulo (N.shiftl y2 15) two32) 4022730752)) in *. clearbody y3.
  exact (w32_lxor _ _ H3 (w32_shiftr _ 18 H3)).
Qed.
Lemma w32_next : forall st x st', Forall w32 st -> mt_next st = (x, st') -> w32 x /\ Forall w32 st'.
Proof.
  intros st x st' H E. unfold mt_next in E. injection E as <- <-. pose proof (w32_twist st H). split; [apply w32_temper; auto|]. apply Forall_app. split; [|constructor; auto]. destruct H; cbn; auto.
Qed.
Lemma double_val : forall m, (0 <= m < 2 ^ 53)%Z -> let x := binary_normalize 53 1024 prec_pos prec_emax mode_NE m (-53) false in is_finite x = true /\ B2R x = IZR m * bpow radix2 (-53).
Proof.
  intros m H. cbv zeta. pose proof (binary_normalize_correct 53 1024 prec_pos prec_emax mode_NE m (-53) false) as C. cbv zeta in C.
  assert (G : generic_format radix2 (SpecFloat.fexp 53 1024) (F2R (Float radix2 m (-53)))) by (apply (generic_format_FLT radix2 (-1074) 53); exists (Float radix2 m (-53)); cbn; auto; lia).
  rewrite round_generic in C by (try apply valid_rnd_N; auto).
  rewrite Rlt_bool_true in C; [destruct C as (C1&C2&_); split; auto|].
  unfold F2R. cbn [Fnum Fexp]. rewrite Rabs_pos_eq by (apply Rmult_le_pos; [apply IZR_le; lia|apply bpow_ge_0]).
  apply Rle_lt_trans with (bpow radix2 53 * bpow radix2 (-53)); [apply Rmult_le_compat_r; [apply bpow_ge_0|rewrite <- (IZR_Zpower radix2) by lia; apply IZR_le; change (radix2 ^ 53)%Z with (2 ^ 53)%Z; lia]|].
  rewrite <- bpow_plus. apply bpow_lt. lia.
Qed.
Lemma mantissa_lt : forall a b, w32 a -> w32 b -> (0 <= Z.of_N (N.shiftr a 5 * 67108864 + N.shiftr b 6) < 2 ^ 53)%Z.
Proof.
  intros a b A B. apply w32_lt in A. apply w32_lt in B. unfold two32 in *. rewrite !N.shiftr_div_pow2.
  assert (a / 2 ^ 5 < 134217728)%N by (apply N.div_lt_upper_bound; [discriminate|]; change (2 ^ 5)%N with 32%N; lia).
  assert (b / 2 ^ 6 < 67108864)%N by (apply N.div_lt_upper_bound; [discriminate|]; change (2 ^ 6)%N with 64%N; lia).
  set (p := (a / 2 ^ 5)%N) in *. set (q := (b / 2 ^ 6)%N) in *. lia.
Qed.
Lemma p_draws : forall s n, length (uniform_after_seed s n) = n /\
  forall x, In x (uniform_after_seed s n) -> is_finite x = true /\ exists m, (0 <= m < 2 ^ 53)%Z /\ B2R x = IZR m * bpow radix2 (-53).
Proof.
  intros s n. unfold uniform_after_seed. generalize (w32_seed s). generalize (mt_seed s) as st. induction n as [|n IH]; intros st H; cbn [mt_doubles]; [split; [reflexivity|intros x []]|].
  unfold mt_double. destruct (mt_next st) as [a st1] eqn:E1. destruct (mt_next st1) as [b st2] eqn:E2. destruct (w32_next _ _ _ H E1) as [A H1]. destruct (w32_next _ _ _ H1 E2) as [B H2].
  destruct (IH st2 H2) as [L R]. split; [cbn; rewrite L; reflexivity|]. intros x [<-|HI]; [|apply R; auto].
  pose proof (mantissa_lt a b A B) as M. destruct (double_val _ M) as [F V]. split; auto. eexists. split; [exact M|exact V].
Qed.
Lemma p_draws_range : forall s n x, In x (uniform_after_seed s n) -> is_finite x = true /\ 0 <= B2R x < 1.
Proof.
  intros s n x H. destruct (p_draws s n) as [_ D]. destruct (D x H) as (F&m&M&V). split; auto. rewrite V. split; [apply Rmult_le_pos; [apply IZR_le; lia|apply bpow_ge_0]|].
  apply Rlt_le_trans with (bpow radix2 53 * bpow radix2 (-53)); [|rewrite <- bpow_plus; cbn; lra]. apply Rmult_lt_compat_r; [apply bpow_gt_0|]. rewrite <- (IZR_Zpower radix2) by lia. apply IZR_lt. change (radix2 ^ 53)%Z with (2 ^ 53)%Z. lia.
Qed.
(** one column *)
Lemma p_one_column : forall x : b64, is_finite x = true -> 0 < B2R x -> forall c, sgd_accepts c 1 (normalise [x]) = Ok tt.
Proof.
  intros x F P c. pose proof uu_pos.
  assert (S0 : is_finite (b64_sum [x]) = true /\ B2R (b64_sum [x]) = B2R x).
  { unfold b64_sum, np_sum. cbn [pairwise_sum length Nat.ltb Nat.leb]. unfold seq_sum. cbn [fold_left].
    assert (Z1 : forall y, is_finite y = true -> is_finite (b64_add b64_zero y) = true /\ B2R (b64_add b64_zero y) = B2R y).
    { intros y FY. pose proof (Bplus_correct 53 1024 prec_pos prec_emax mode_NE b64_zero y eq_refl FY) as C. change (B2R b64_zero) with 0 in C. rewrite Rplus_0_l in C.
      rewrite round_generic in C; [|apply valid_rnd_N|apply generic_format_B2R]. rewrite Rlt_bool_true in C by apply abs_B2R_lt_emax. destruct C as (C1&C2&_). auto. }
    destruct (Z1 x F) as [A1 A2]. destruct (Z1 _ A1) as [B1 B2]. rewrite B2, A2. auto. }
  assert (S1 : forall q, is_finite q = true -> B2R q = 1 -> Beqb (b64_sum [q]) b64_one = true).
  { intros q FQ VQ. unfold b64_sum, np_sum. cbn [pairwise_sum length Nat.ltb Nat.leb]. unfold seq_sum. cbn [fold_left].
    assert (Z1 : forall y, is_finite y = true -> is_finite (b64_add b64_zero y) = true /\ B2R (b64_add b64_zero y) = B2R y).
    { intros y FY. pose proof (Bplus_correct 53 1024 prec_pos prec_emax mode_NE b64_zero y eq_refl FY) as C. change (B2R b64_zero) with 0 in C. rewrite Rplus_0_l in C.
      rewrite round_generic in C; [|apply valid_rnd_N|apply generic_format_B2R]. rewrite Rlt_bool_true in C by apply abs_B2R_lt_emax. destruct C as (C1&C2&_). auto. }
    destruct (Z1 q FQ) as [A1 A2]. destruct (Z1 _ A1) as [B1 B2]. pose proof (eq_one _ B1) as E. change (b64_of_nat 1) with b64_one in E. rewrite E. apply Req_bool_true. congruence. }
  destruct S0 as [FS VS]. unfold normalise. cbn [map]. set (s := b64_sum [x]) in *.
  assert (D : is_finite (b64_div x s) = true /\ B2R (b64_div x s) = 1).
  { pose proof (Bdiv_correct 53 1024 prec_pos prec_emax mode_NE x s ltac:(lra)) as C. rewrite VS in C. unfold Rdiv in C. rewrite Rinv_r in C by lra. destruct one_val as [F1 V1].
    rewrite round_generic in C; [|apply valid_rnd_N|rewrite <- V1; apply generic_format_B2R]. rewrite Rlt_bool_true in C; [|rewrite Rabs_R1; change 1 with (bpow radix2 0); apply bpow_lt; lia].
    destruct C as (C1&C2&_). split; [unfold b64_div; rewrite C2; auto|exact C1]. }
  destruct D as [D1 D2]. unfold sgd_accepts. cbn [length Nat.eqb negb]. rewrite S1 by auto. rewrite no_negative by (constructor; [split; auto; lra|constructor]). cbn. rewrite andb_false_r. reflexivity.
Qed.
