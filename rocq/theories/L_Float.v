(** L_Float: exactness of the floating point weights. *)
From Verif Require Import M_Float.
From Flocq Require Import Core IEEE754.BinarySingleNaN.
From Coq Require Import ZArith List Bool Arith Reals Lia Lra.
Import ListNotations.
Local Open Scope R_scope.

(** *** any invariant that is additive below a bound goes through numpy's sum *)
Section Additive.
Context {F : Type} (add : F -> F -> F) (zero : F) (Inv : F -> Z -> Prop) (N : Z).
Hypothesis I0 : Inv zero 0%Z.
Hypothesis IA : forall x y a b, Inv x a -> Inv y b -> (0 <= a)%Z -> (0 <= b)%Z -> (a + b <= N)%Z -> Inv (add x y) (a + b)%Z.

Definition zsum (zs : list Z) : Z := fold_right Z.add 0%Z zs.
Definition all_pos (zs : list Z) : Prop := Forall (fun z => 0 <= z)%Z zs.
Lemma zsum_pos : forall zs, all_pos zs -> (0 <= zsum zs)%Z.
Proof. unfold zsum. induction zs as [|z zs IH]; intros H; cbn [fold_right]; [lia|]. inversion H; subst. specialize (IH H3). lia. Qed.
Lemma zsum_app : forall a b, zsum (a ++ b) = (zsum a + zsum b)%Z.
Proof. unfold zsum. induction a as [|x a IH]; intros b; cbn [app fold_right]; [lia|]. rewrite IH. lia. Qed.
Lemma pos_app : forall a b, all_pos (a ++ b) <-> all_pos a /\ all_pos b.
Proof. intros. apply Forall_app. Qed.
Lemma split_zs : forall n (zs : list Z), zsum zs = (zsum (firstn n zs) + zsum (skipn n zs))%Z.
Proof. intros. rewrite <- (firstn_skipn n zs) at 1. apply zsum_app. Qed.
Lemma split_pos : forall n (zs : list Z), all_pos zs -> all_pos (firstn n zs) /\ all_pos (skipn n zs).
Proof. intros n zs H. rewrite <- (firstn_skipn n zs) in H. apply pos_app in H. auto. Qed.
Lemma F2_length : forall l zs, Forall2 Inv l zs -> length l = length zs.
Proof. intros l zs H. induction H; cbn; auto. Qed.
Lemma F2_firstn : forall n l zs, Forall2 Inv l zs -> Forall2 Inv (firstn n l) (firstn n zs).
Proof. induction n; intros l zs H; [constructor|]. destruct H; cbn; constructor; auto. Qed.
Lemma F2_skipn : forall n l zs, Forall2 Inv l zs -> Forall2 Inv (skipn n l) (skipn n zs).
Proof. induction n; intros l zs H; auto. destruct H; cbn; [constructor|auto]. Qed.

Lemma seq_sum_inv : forall l zs acc a, Forall2 Inv l zs -> all_pos zs -> Inv acc a -> (0 <= a)%Z -> (a + zsum zs <= N)%Z ->
  Inv (seq_sum add acc l) (a + zsum zs)%Z.
Proof.
  intros l zs acc a H. revert acc a. induction H as [|x z l zs HX HL IH]; intros acc a P HA PA LN; unfold seq_sum in *; cbn [fold_left].
  - change (zsum []) with 0%Z. rewrite Z.add_0_r. auto.
  - inversion P; subst. pose proof (zsum_pos zs H2). change (zsum (z :: zs)) with (z + zsum zs)%Z in LN |- *. rewrite Z.add_assoc. apply IH; auto; try lia. apply IA; auto; lia.
Qed.
Lemma add_lanes_inv : forall r b zr zb, Forall2 Inv r zr -> Forall2 Inv b zb -> length r = length b -> all_pos zr -> all_pos zb -> (zsum zr + zsum zb <= N)%Z ->
  exists zs, Forall2 Inv (add_lanes add r b) zs /\ all_pos zs /\ zsum zs = (zsum zr + zsum zb)%Z /\ length (add_lanes add r b) = length r.
Proof.
  intros r b zr zb HR. revert b zb. induction HR as [|x z r zr HX HR IH]; intros b zb HB L PR PB LN; destruct HB as [|y v b zb HY HB]; try discriminate L.
  - exists []. repeat split; constructor.
  - inversion PR; subst. inversion PB; subst. change (zsum (z :: zr)) with (z + zsum zr)%Z in LN |- *. change (zsum (v :: zb)) with (v + zsum zb)%Z in LN |- *.
    pose proof (zsum_pos zr H2). pose proof (zsum_pos zb H4).
    destruct (IH b zb HB ltac:(cbn in L; lia) H2 H4 ltac:(lia)) as (zs&A1&A2&A3&A4).
    exists ((z + v)%Z :: zs). cbn [add_lanes]. split; [constructor; auto; apply IA; auto; lia|]. split; [constructor; auto; lia|].
    split; [change (zsum ((z + v)%Z :: zs)) with (z + v + zsum zs)%Z; lia|cbn; lia].
Qed.
Lemma lanes_inv : forall fuel r l zr zl, Forall2 Inv r zr -> Forall2 Inv l zl -> length r = 8%nat -> all_pos zr -> all_pos zl -> (zsum zr + zsum zl <= N)%Z ->
  exists zr' zl', Forall2 Inv (fst (lanes add fuel r l)) zr' /\ Forall2 Inv (snd (lanes add fuel r l)) zl' /\ length (fst (lanes add fuel r l)) = 8%nat /\
    all_pos zr' /\ all_pos zl' /\ (zsum zr' + zsum zl' = zsum zr + zsum zl)%Z.
Proof.
  induction fuel as [|fuel IH]; intros r l zr zl HR HL L PR PL LN; cbn [lanes]; [exists zr, zl; cbn; auto 10|].
  destruct (Nat.leb_spec 8 (length l)) as [G|G]; [|exists zr, zl; cbn; auto 10].
  destruct (split_pos 8 zl PL) as [P1 P2]. rewrite (split_zs 8 zl) in LN |- *. pose proof (zsum_pos _ P2).
  destruct (add_lanes_inv r (firstn 8 l) zr (firstn 8 zl) HR (F2_firstn 8 _ _ HL)) as (zs&A1&A2&A3&A4); auto.
  - rewrite firstn_length. lia.
  - lia.
  - destruct (IH _ (skipn 8 l) zs (skipn 8 zl) A1 (F2_skipn 8 _ _ HL)) as (zr'&zl'&B1&B2&B3&B4&B5&B6); auto; try lia.
    exists zr', zl'. rewrite B6, A3. repeat (split; auto). lia.
Qed.
Lemma join_inv : forall r zr, Forall2 Inv r zr -> length r = 8%nat -> all_pos zr -> (zsum zr <= N)%Z -> Inv (join_lanes add zero r) (zsum zr).
Proof.
  intros r zr H L P LN. pose proof (F2_length _ _ H) as L2. rewrite L in L2.
  destruct zr as [|z0 [|z1 [|z2 [|z3 [|z4 [|z5 [|z6 [|z7 [|? ?]]]]]]]]]; try discriminate L2. clear L2 L.
  repeat match goal with H : Forall2 _ _ (_ :: _) |- _ => inversion H; clear H; subst | H : Forall2 _ _ [] |- _ => inversion H; clear H; subst
    | H : all_pos (_ :: _) |- _ => inversion H; clear H; subst | H : Forall _ (_ :: _) |- _ => inversion H; clear H; subst end.
  unfold join_lanes. cbn [nth zsum fold_right] in *.
  replace (z0 + (z1 + (z2 + (z3 + (z4 + (z5 + (z6 + (z7 + 0))))))))%Z with (((z0 + z1) + (z2 + z3)) + ((z4 + z5) + (z6 + z7)))%Z by lia.
  repeat (apply IA; try assumption; try lia).
Qed.
Lemma pairwise_inv : forall fuel l zs, Forall2 Inv l zs -> all_pos zs -> (zsum zs <= N)%Z -> Inv (pairwise_sum add zero fuel l) (zsum zs).
Proof.
  assert (SQ : forall l zs, Forall2 Inv l zs -> all_pos zs -> (zsum zs <= N)%Z -> Inv (seq_sum add zero l) (zsum zs)).
  { intros l zs H P LN. rewrite <- (Z.add_0_l (zsum zs)). apply seq_sum_inv; auto; lia. }
  assert (MID : forall l zs, Forall2 Inv l zs -> all_pos zs -> (zsum zs <= N)%Z -> (8 <= length l)%nat ->
    Inv (let '(r, rest) := lanes add (length l) (firstn 8 l) (skipn 8 l) in seq_sum add (join_lanes add zero r) rest) (zsum zs)).
  { intros l zs H P LN L8. destruct (split_pos 8 zs P) as [P1 P2]. rewrite (split_zs 8 zs) in LN |- *.
    destruct (lanes_inv (length l) (firstn 8 l) (skipn 8 l) _ _ (F2_firstn 8 _ _ H) (F2_skipn 8 _ _ H)) as (zr&zl&A1&A2&A3&A4&A5&A6); auto.
    - rewrite firstn_length. lia.
    - destruct (lanes add (length l) (firstn 8 l) (skipn 8 l)) as [r rest]. cbn [fst snd] in *. rewrite <- A6. pose proof (zsum_pos _ A4). pose proof (zsum_pos _ A5).
      apply seq_sum_inv; auto; try lia. apply join_inv; auto. lia. }
  induction fuel as [|fuel IH]; intros l zs H P LN; cbn [pairwise_sum];
    (destruct (Nat.ltb_spec (length l) 8) as [|G]; [apply SQ; auto|]; destruct (Nat.leb (length l) 128); [apply MID; auto|]).
  - apply SQ; auto.
  - set (n2 := (length l / 2 - (length l / 2) mod 8)%nat). destruct (split_pos n2 zs P) as [P1 P2]. rewrite (split_zs n2 zs) in LN |- *.
    pose proof (zsum_pos _ P1). pose proof (zsum_pos _ P2). apply IA; auto; apply IH; auto; try lia; [apply F2_firstn|apply F2_skipn]; auto.
Qed.
Lemma np_sum_inv : forall l zs, Forall2 Inv l zs -> all_pos zs -> (zsum zs <= N)%Z -> Inv (np_sum add zero l) (zsum zs).
Proof.
  intros l zs H P LN. unfold np_sum. rewrite <- (Z.add_0_l (zsum zs)). pose proof (zsum_pos _ P). apply IA; auto; try lia. apply pairwise_inv; auto.
Qed.
End Additive.

(** *** multiples of 2^-k *)
Notation fe := (FLT_exp (-1074) 53).
Lemma fe_eq : forall e, SpecFloat.fexp 53 1024 e = fe e. Proof. reflexivity. Qed.
Definition mult_of (k : Z) (x : b64) (a : Z) : Prop := is_finite x = true /\ B2R x = IZR a * bpow radix2 (- k).

Lemma format_mult : forall k a, (0 <= k <= 52)%Z -> (0 <= a <= 2 ^ 52)%Z -> generic_format radix2 (SpecFloat.fexp 53 1024) (IZR a * bpow radix2 (- k)).
Proof.
  intros k a Hk Ha. apply (generic_format_FLT radix2 (-1074) 53). exists (Float radix2 a (- k)); cbn; auto; try lia.
Qed.
Lemma round_mult : forall k a, (0 <= k <= 52)%Z -> (0 <= a <= 2 ^ 52)%Z ->
  round radix2 (SpecFloat.fexp 53 1024) (round_mode mode_NE) (IZR a * bpow radix2 (- k)) = IZR a * bpow radix2 (- k).
Proof. intros. apply round_generic; [apply valid_rnd_N|]. apply format_mult; auto. Qed.
Lemma small_mult : forall k a, (0 <= k <= 52)%Z -> (0 <= a <= 2 ^ 52)%Z -> Rabs (IZR a * bpow radix2 (- k)) < bpow radix2 1024.
Proof.
  intros k a Hk Ha. rewrite Rabs_pos_eq by (apply Rmult_le_pos; [apply IZR_le; lia|apply bpow_ge_0]).
  apply Rle_lt_trans with (IZR (2 ^ 52) * bpow radix2 0).
  - apply Rmult_le_compat; [apply IZR_le; lia|apply bpow_ge_0|apply IZR_le; lia|apply bpow_le; lia].
  - change (IZR (2 ^ 52)) with (bpow radix2 52). rewrite <- bpow_plus. apply bpow_lt. lia.
Qed.
Lemma add_mult : forall k x y a b, (0 <= k <= 52)%Z -> mult_of k x a -> mult_of k y b -> (0 <= a)%Z -> (0 <= b)%Z -> (a + b <= 2 ^ 52)%Z -> mult_of k (b64_add x y) (a + b).
Proof.
  intros k x y a b Hk [FX BX] [FY BY] Pa Pb LN. unfold b64_add.
  pose proof (Bplus_correct 53 1024 prec_pos prec_emax mode_NE x y FX FY) as C. rewrite BX, BY in C.
  rewrite <- Rmult_plus_distr_r, <- plus_IZR in C. rewrite round_mult in C by lia. rewrite Rlt_bool_true in C by (apply small_mult; lia).
  destruct C as (C1&C2&_). split; auto.
Qed.
Lemma of_nat_val : forall n, (Z.of_nat n <= 2 ^ 52)%Z -> is_finite (b64_of_nat n) = true /\ B2R (b64_of_nat n) = IZR (Z.of_nat n).
Proof.
  intros n L. unfold b64_of_nat. pose proof (binary_normalize_correct 53 1024 prec_pos prec_emax mode_NE (Z.of_nat n) 0 false) as C.
  assert (E : F2R (Float radix2 (Z.of_nat n) 0) = IZR (Z.of_nat n) * bpow radix2 (- 0)) by reflexivity. cbv zeta in C. rewrite E in C.
  rewrite round_mult in C by lia. rewrite Rlt_bool_true in C by (apply small_mult; lia). destruct C as (C1&C2&_). split; auto. rewrite C1. cbn. ring.
Qed.
Lemma div_val : forall (a : nat) k, (0 <= k <= 52)%Z -> (a <= 1)%nat -> mult_of k (b64_div (b64_of_nat a) (b64_of_nat (Z.to_nat (2 ^ k)))) (Z.of_nat a).
Proof.
  intros a k Hk Ha. destruct (of_nat_val a) as [F1 V1]; [lia|].
  assert (PB : (0 < 2 ^ k <= 2 ^ 52)%Z) by (split; [apply Z.pow_pos_nonneg; lia|apply Z.pow_le_mono_r; lia]).
  destruct (of_nat_val (Z.to_nat (2 ^ k))) as [F2 V2]; [lia|]. rewrite Z2Nat.id in V2 by lia.
  pose proof (Bdiv_correct 53 1024 prec_pos prec_emax mode_NE (b64_of_nat a) (b64_of_nat (Z.to_nat (2 ^ k)))) as C.
  rewrite V1, V2 in C. assert (NZ : IZR (2 ^ k) <> 0) by (apply IZR_neq; lia). specialize (C NZ).
  assert (E : IZR (Z.of_nat a) / IZR (2 ^ k) = IZR (Z.of_nat a) * bpow radix2 (- k)).
  { unfold Rdiv. f_equal. rewrite bpow_opp. f_equal. rewrite <- (IZR_Zpower radix2) by lia. reflexivity. }
  rewrite E in C. assert (A2 : (0 <= Z.of_nat a <= 2 ^ 52)%Z) by lia. rewrite round_mult in C by auto.
  rewrite Rlt_bool_true in C by (apply small_mult; auto). destruct C as (C1&C2&_). split; [unfold b64_div; rewrite C2; auto|exact C1].
Qed.
Lemma zsum_mask : forall mask : list bool, zsum (map (fun b : bool => if b then 1%Z else 0%Z) mask) = Z.of_nat (mask_count mask).
Proof. induction mask as [|b m IH]; [reflexivity|]. unfold mask_count in *. destruct b; cbn [map zsum fold_right filter length]; unfold zsum in IH; lia. Qed.
Lemma weights_sum : forall mask k, (0 <= k <= 52)%Z -> (Z.of_nat (mask_count mask) <= 2 ^ k)%Z ->
  (mask_count mask = Z.to_nat (2 ^ k) \/ (mask_count mask = 0%nat /\ k = 0%Z)) ->
  mult_of k (np_sum b64_add b64_zero (float_weights mask)) (Z.of_nat (mask_count mask)).
Proof.
  intros mask k Hk LE HC. rewrite <- zsum_mask. assert (PB : (0 < 2 ^ k <= 2 ^ 52)%Z) by (split; [apply Z.pow_pos_nonneg; lia|apply Z.pow_le_mono_r; lia]).
  apply (np_sum_inv b64_add b64_zero (mult_of k) (2 ^ 52)).
  - split; [reflexivity|]. cbn. ring.
  - intros. apply add_mult; auto.
  - unfold float_weights. assert (DD : (if Nat.eqb (mask_count mask) 0 then 1%nat else mask_count mask) = Z.to_nat (2 ^ k)).
    { destruct HC as [->|[-> ->]]; [|reflexivity]. destruct (Nat.eqb_spec (Z.to_nat (2 ^ k)) 0); lia. }
    rewrite DD. clear - Hk. induction mask as [|b m IH]; constructor; auto.
    destruct b; [apply (div_val 1 k)|apply (div_val 0 k)]; auto; lia.
  - clear. induction mask as [|b m IH]; constructor; auto. destruct b; lia.
  - rewrite zsum_mask. lia.
Qed.
Lemma eq_one : forall x, is_finite x = true -> Beqb x (b64_of_nat 1) = Req_bool (B2R x) 1.
Proof.
  intros x FX. destruct (of_nat_val 1) as [F1 V1]; [lia|]. rewrite Beqb_correct by auto. rewrite V1. reflexivity.
Qed.
Lemma p_C36_pow : forall mask k, (k <= 52)%nat -> mask_count mask = (2 ^ k)%nat -> float_ever_oob mask = true.
Proof.
  intros mask k Hk HC. assert (HC2 : mask_count mask = Z.to_nat (2 ^ Z.of_nat k)).
  { rewrite HC. apply Nat2Z.inj. rewrite Nat2Z.inj_pow. rewrite Z2Nat.id by (apply Z.pow_nonneg; lia). reflexivity. }
  assert (PB : (0 < 2 ^ Z.of_nat k)%Z) by (apply Z.pow_pos_nonneg; lia).
  destruct (weights_sum mask (Z.of_nat k)) as [FX VX]; [lia|rewrite HC2, Z2Nat.id; lia|auto|].
  unfold float_ever_oob. rewrite eq_one by auto. apply Req_bool_true. rewrite VX, HC2, Z2Nat.id by lia.
  rewrite bpow_opp, <- (IZR_Zpower radix2) by lia. cbn [radix_val radix2]. apply Rinv_r. apply IZR_neq. lia.
Qed.
Lemma p_C36_none : forall mask, mask_count mask = 0%nat -> float_ever_oob mask = false.
Proof.
  intros mask HC. destruct (weights_sum mask 0) as [FX VX]; [lia|lia|auto|].
  unfold float_ever_oob. rewrite eq_one by auto. apply Req_bool_false. rewrite VX, HC. cbn. lra.
Qed.

(** *** few trees: by enumeration *)
Fixpoint masks (n : nat) : list (list bool) := match n with O => [[]] | S n => map (cons true) (masks n) ++ map (cons false) (masks n) end.
Lemma masks_all : forall mask, In mask (masks (length mask)).
Proof. induction mask as [|b m IH]; cbn; auto. apply in_app_iff. destruct b; [left|right]; apply in_map; auto. Qed.
Definition small_ok (n : nat) : bool := forallb (fun mk => eqb (float_ever_oob mk) (Nat.leb 1 (mask_count mk) && Nat.leb (mask_count mk) 5)) (masks n).
Lemma small_all : forallb small_ok (seq 0 8) = true.
Proof. vm_compute. reflexivity. Qed.
Lemma p_C36_small : forall mask, (length mask <= 7)%nat -> (float_ever_oob mask = true <-> (1 <= mask_count mask <= 5)%nat).
Proof.
  intros mask L. pose proof small_all as A. rewrite forallb_forall in A. specialize (A (length mask) ltac:(apply in_seq; lia)).
  unfold small_ok in A. rewrite forallb_forall in A. specialize (A mask (masks_all mask)). apply eqb_prop in A. rewrite A.
  rewrite andb_true_iff, !Nat.leb_le. tauto.
Qed.
