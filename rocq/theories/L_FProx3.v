(** L_FProx3: the number that prox_project subtracts in double arithmetic. *)
From Verif Require Import Base M_Float M_Start M_Prox M_FProx L_Float L_Start L_FProx L_FProx2.
From Flocq Require Import Core Relative Plus_error BinarySingleNaN.
From Coq Require Import ZArith List Bool Arith Reals Lia Lra Permutation Psatz Sorted.
Import ListNotations.
Local Open Scope R_scope.

Lemma sort_sorted : forall l : list b64, (forall x, In x l -> is_finite x = true) -> StronglySorted (fun a b => B2R b <= B2R a) (@sort_desc b64 BNum l).
Proof.
  assert (I : forall a l, is_finite a = true -> (forall x, In x l -> is_finite x = true) -> StronglySorted (fun a b => B2R b <= B2R a) l -> StronglySorted (fun a b => B2R b <= B2R a) (@insert_desc b64 BNum a l)).
  { intros a l FA. induction l as [|b l IH]; intros F S; cbn [insert_desc nltb BNum]; [repeat constructor|]. inversion S; subst. rewrite Bltb_correct by (auto; apply F; left; auto). destruct (Rlt_bool_spec (B2R a) (B2R b)) as [C|C].
    - constructor; [apply IH; auto; intros; apply F; right; auto|]. apply Forall_forall. intros x HX. assert (a = x \/ In x l).
      { clear - HX. induction l as [|y l IH]; cbn in HX; [tauto|]. destruct (Bltb a y); cbn in *; tauto. } destruct H as [<-|H]; [lra|]. rewrite Forall_forall in H2. auto.
    - constructor; auto. constructor; auto. rewrite Forall_forall in *. intros x HX. specialize (H2 x HX). lra. }
  induction l as [|a l IH]; intros F; cbn [sort_desc fold_right]; [constructor|]. change (fold_right insert_desc [] l) with (@sort_desc b64 BNum l). apply I.
  - apply F; left; auto.
  - intros x H. apply (proj1 (sort_in _ _)) in H. apply F. right. auto.
  - apply IH. intros. apply F. right. auto.
Qed.
Lemma nmax_ge : forall (l : list b64) x, (forall z, In z (x :: l) -> is_finite z = true) -> forall z, In z (x :: l) -> B2R z <= B2R (fold_left (@nmax b64 BNum) l x).
Proof.
  induction l as [|y l IH]; intros x F z H; cbn [fold_left]; [destruct H as [<-|[]]; lra|].
  change (@nmax b64 BNum x y) with (if Bltb x y then y else x). rewrite Bltb_correct by (apply F; cbn; auto). destruct (Rlt_bool_spec (B2R x) (B2R y)) as [C|C].
  - assert (IY : B2R y <= B2R (fold_left (@nmax b64 BNum) l y)) by (apply IH; [intros w W; apply F; right; auto|left; auto]). destruct H as [<-|[<-|H]]; [lra|lra|]. apply IH; [intros w W; apply F; right; auto|right; auto].
  - assert (IX : B2R x <= B2R (fold_left (@nmax b64 BNum) l x)) by (apply IH; [intros w [<-|W]; apply F; cbn; auto|left; auto]). destruct H as [<-|[<-|H]]; [lra|lra|]. apply IH; [intros w [<-|W]; apply F; cbn; auto|right; auto].
Qed.
Lemma select_iff : forall (y th : list b64) x, length th = length y -> (In x (mask_select (map2 (fun yi ti => Bltb ti yi) y th) th) <-> exists j, (j < length y)%nat /\ x = nth j th b64_zero /\ Bltb (nth j th b64_zero) (nth j y b64_zero) = true).
Proof.
  induction y as [|a y IH]; intros [|t th] x L; try discriminate L; cbn [map2 mask_select].
  - split; [intros []|intros (j&H&_); cbn in H; lia].
  - injection L as L. assert (E : In x (mask_select (map2 (fun yi ti => Bltb ti yi) y th) th) <-> exists j, (S j < length (a :: y))%nat /\ x = nth (S j) (t :: th) b64_zero /\ Bltb (nth (S j) (t :: th) b64_zero) (nth (S j) (a :: y) b64_zero) = true).
    { rewrite (IH th x L). split; intros (j&A&B); exists j; cbn in *; (split; [lia|exact B]). }
    destruct (Bltb t a) eqn:C; cbn [In].
    + rewrite E. split.
      * intros [<-|(j&H)]; [exists 0%nat; cbn; auto with arith|exists (S j); exact H].
      * intros ([|j]&H); [left; destruct H as (_&->&_); reflexivity|right; exists j; exact H].
    + rewrite E. split; [intros (j&H); exists (S j); exact H|]. intros ([|j]&H); [destruct H as (_&_&H); cbn in H; congruence|exists j; exact H].
Qed.
Lemma thr_error : forall (u : list b64) i, Forall L_Start.nonneg u -> (i < length u)%nat -> (Z.of_nat (length u) <= 2 ^ 40)%Z -> rsum (firstn (S i) u) <= bpow radix2 50 ->
  let t := nth i (@thresholds b64 BNum (@cumsum b64 BNum u)) b64_zero in is_finite t = true /\
  Rabs (B2R t - (rsum (firstn (S i) u) - 1) / INR (S i)) <= 6 * ((rsum (firstn (S i) u) + 1) * uu).
Proof.
  intros u i NU L LK RB. cbv zeta. set (n := S i) in *. assert (N1 : 1 <= INR n) by (unfold n; rewrite S_INR; pose proof (pos_INR i); lra). pose proof uu_pos as UP. pose proof uu_le as UL.
  assert (KN : INR n <= bpow radix2 40) by (rewrite INR_IZR_INZ, <- (IZR_Zpower radix2) by lia; apply IZR_le; change (radix2 ^ 40)%Z with (2 ^ 40)%Z; unfold n; lia).
  pose proof bp40 as B4. assert (NW : INR n * uu <= 1 / 1024) by nra.
  assert (FU : Forall L_Start.nonneg (firstn n u)) by (rewrite <- (firstn_skipn n u) in NU; apply Forall_app in NU; tauto).
  pose proof (L_Start.rsum_pos _ FU) as RP. assert (LF : length (firstn n u) = n) by (apply firstn_length_le; unfold n; lia). set (S := rsum (firstn n u)) in *.
  set (s := nth i (@cumsum b64 BNum u) b64_zero). pose proof (pow_up_lin n ltac:(lra)) as PU. pose proof (pow_down_lin n) as PL.
  pose proof (cumsum_sums u b64_zero [] i (sum_nil _ _) L) as SS. cbn [app] in SS. fold n in SS. change (nth i (cumsum_from b64_zero u) b64_zero) with s in SS.
  assert (P50 : bpow radix2 50 * 4 < bpow radix2 1024). { change 4 with (bpow radix2 2). rewrite <- bpow_plus. apply bpow_lt. lia. }
  pose proof (L_Start.pow_up n) as PW. pose proof (L_Start.pow_down n) as PD. destruct (sums_bound s (firstn n u) SS FU) as (FS&SL&SU). { rewrite LF. fold S. eapply Rle_lt_trans; [|exact P50]. nra. }
  rewrite LF in SL, SU. fold S in SL, SU. set (w := INR n * uu) in *. assert (S0 : 0 <= B2R s) by nra.
  assert (S1 : S * (1 - w) <= B2R s <= S * (1 + 2 * w)) by nra.
  assert (S2 : B2R s <= bpow radix2 51). { change (bpow radix2 51) with (bpow radix2 (1 + 50)). rewrite bpow_plus. change (bpow radix2 1) with 2. nra. }
  assert (P100 : bpow radix2 51 <= bpow radix2 100) by (apply bpow_le; lia).
  destruct (sub_error s FS) as (FD&e1&E1&VD); [lra|]. apply Rabs_le_inv in E1.
  destruct (of_nat_val n) as [FN VN]; [unfold n; lia|]. assert (VN' : B2R (b64_of_nat n) = INR n) by (rewrite VN; symmetry; apply INR_IZR_INZ).
  assert (P1 : 1 <= bpow radix2 51) by (change 1 with (bpow radix2 0); apply bpow_le; lia).
  destruct (div_error2 (b64_sub s b64_one) (b64_of_nat n) FD FN) as (FT&_&e2&h&E2&HH&VT).
  { rewrite VN'. exact N1. }
  { rewrite VD. apply Rle_trans with (bpow radix2 51 * 2); [apply Rabs_le; split; nra|]. change 2 with (bpow radix2 1). rewrite <- bpow_plus. apply bpow_le. lia. }
  rewrite thr_nth by (unfold cumsum; rewrite cs_length; auto). fold s n. split; [exact FT|].
  apply Rabs_le_inv in E2. apply Rabs_le_inv in HH. rewrite VT, VD, VN'.
  set (iv := / INR n). assert (IV : 0 < iv <= 1) by (unfold iv; split; [apply Rinv_0_lt_compat; lra|rewrite <- Rinv_1; apply Rinv_le; lra]). assert (IN : iv * w = uu) by (unfold iv, w; field; lra).
  unfold Rdiv. fold iv. set (d := B2R s - S). assert (DD : - (S * w) <= d <= 2 * (S * w)) by (unfold d; lra).
  set (g := e1 + e2 + e1 * e2). assert (U2 : uu * uu <= uu * (1 / 1024)) by (apply Rmult_le_compat_l; lra). assert (GG : - (21 / 10 * uu) <= g <= 21 / 10 * uu) by (unfold g; nra).
  assert (EX : (B2R s - 1) * (1 + e1) * iv * (1 + e2) + h - (S - 1) * iv = iv * d * (1 + g) + (S - 1) * iv * g + h) by (unfold d, g; ring). rewrite EX.
  assert (A1 : Rabs (iv * d * (1 + g)) <= 3 * (S * uu)).
  { assert (X : - (S * uu) <= iv * d <= 2 * (S * uu)) by (rewrite <- IN; nra). assert (G1 : 0 <= 1 + g <= 11 / 10) by lra. assert (SU0 : 0 <= S * uu) by nra. apply Rabs_le. split; nra. }
  assert (A2 : Rabs ((S - 1) * iv * g) <= 21 / 10 * ((S + 1) * uu)).
  { rewrite !Rabs_mult. rewrite (Rabs_pos_eq iv) by lra. assert (Rabs (S - 1) <= S + 1) by (apply Rabs_le; lra). assert (Rabs g <= 21 / 10 * uu) by (apply Rabs_le; lra). pose proof (Rabs_pos (S - 1)). pose proof (Rabs_pos g).
    apply Rle_trans with ((S + 1) * 1 * (21 / 10 * uu)); [|lra]. apply Rmult_le_compat; auto; [apply Rmult_le_pos; lra|]. apply Rmult_le_compat; lra. }
  assert (A3 : Rabs h <= uu * (1 / 1024)) by (apply Rabs_le; lra).
  eapply Rle_trans; [apply Rabs_triang|]. eapply Rle_trans; [apply Rplus_le_compat_r, Rabs_triang|]. assert (0 <= S * uu) by nra. lra.
Qed.
Lemma Forall2_nth2 : forall (P : b64 -> b64 -> Prop) l l', Forall2 P l l' -> forall j, (j < length l)%nat -> P (nth j l b64_zero) (nth j l' b64_zero).
Proof. intros P l l' H. induction H; intros [|j] L; cbn in *; try lia; auto. apply IHForall2. lia. Qed.
(** the statement of the property *)
Definition top (n : nat) (u : list R) : R := fold_right Rplus 0 (firstn n u).
Definition cuts_at (y : list b64) (u : list R) (ts : nat -> R) (theta : R) : Prop :=
  Permutation (map (fun x => Rmax (B2R x) 0) y) u /\ StronglySorted Rge u /\
  (forall j, (j < length y)%nat -> Rabs (ts j - (top (S j) u - 1) / INR (S j)) <= 6 * ((top (S j) u + 1) * uu)) /\
  0 <= theta /\ (theta = 0 \/ exists j, (j < length y)%nat /\ ts j < Rmax (B2R (nth j y b64_zero)) 0 /\ theta = ts j) /\
  (exists j, (j < length y)%nat /\ ts j < Rmax (B2R (nth j y b64_zero)) 0) /\
  forall j, (j < length y)%nat -> ts j < Rmax (B2R (nth j y b64_zero)) 0 -> ts j <= theta.
Lemma top_rsum : forall n l, rsum (firstn n l) = top n (map B2R l).
Proof. intros n l. unfold top. rewrite firstn_map. unfold rsum. generalize (firstn n l). induction l0 as [|x l0 IH]; cbn in *; lra. Qed.
Lemma p_theta : forall y, moderate y -> exists r y' theta u ts, prox_project64 y = Ok (r, y') /\ shifted y r y' theta /\ cuts_at y u ts theta.
Proof.
  intros y (NE&HK&HF). rewrite p_same by (intros x H; destruct (HF x H) as [F _]; destruct x; auto; discriminate F).
  assert (CF : Forall2 (fun x z => is_finite z = true /\ B2R z = Rmax (B2R x) 0) y (@clip0 b64 BNum y)).
  { unfold clip0. cbn [nltb n0 BNum]. assert (G : forall l, (forall x, In x l -> is_finite x = true) -> Forall2 (fun x z : b64 => is_finite z = true /\ B2R z = Rmax (B2R x) 0) l (map (fun x => if Bltb x b64_zero then b64_zero else x) l)).
    { induction l as [|x l IH]; intros H; constructor; [apply clip_one, H; left; auto|apply IH; intros; apply H; right; auto]. } apply G. intros x H. apply HF; auto. }
  set (c := @clip0 b64 BNum y) in *. assert (LC : length c = length y) by (unfold c, clip0; apply map_length).
  assert (CN : c <> []). { destruct c; [destruct y; [congruence|discriminate LC]|discriminate]. }
  assert (CB : forall z, In z c -> is_finite z = true /\ 0 <= B2R z /\ (B2R z = 0 \/ exists x, In x y /\ B2R x = B2R z)).
  { intros z HZ. clear - CF HZ. induction CF as [|x z0 y c [F V] H IH]; [destruct HZ|]. destruct HZ as [<-|HZ].
    - split; auto. rewrite V. split; [apply Rmax_r|]. destruct (Rle_or_lt (B2R x) 0) as [C|C]; [left; rewrite Rmax_right by lra; auto|right; exists x; split; [left; auto|rewrite Rmax_left by lra; auto]].
    - destruct (IH HZ) as (A&B&[D|(x'&D&E)]); split; auto; split; auto. right. exists x'. split; auto. right. auto. }
  destruct (max_index c CN) as (i&L&HM). set (M := nth i c b64_zero) in *. assert (IM : In M c) by (apply nth_In; auto). destruct (CB M IM) as (FM&PM&OM).
  assert (MB : B2R M * (INR (length y) * INR (length y)) <= bpow radix2 50). { destruct OM as [->|(x&HX&<-)]; [rewrite Rmult_0_l; apply bpow_ge_0|apply HF; auto]. }
  assert (TH : forall j, (j < length c)%nat -> let t := nth j (@thresholds b64 BNum (@cumsum b64 BNum (@sort_desc b64 BNum c))) b64_zero in is_finite t = true /\ B2R t < B2R M).
  { intros j LJ. cbv zeta. apply (safe_th c (B2R M)); auto; try (rewrite LC; auto); try lra. intros x HX. destruct (CB x HX) as (A&B&_). split; [split; auto|auto]. }
  unfold prox_project. fold c. cbn [nltb BNum].
  set (th := @thresholds b64 BNum (@cumsum b64 BNum (@sort_desc b64 BNum c))) in *.
  assert (LT : length th = length c). { unfold th. rewrite thr_length. unfold cumsum. rewrite cs_length. symmetry. apply Permutation_length, sort_perm. }
  set (sel := mask_select (map2 (fun yi ti => Bltb ti yi) c th) th) in *. destruct (nmaximum_in sel) as (m&EM&HI).
  { apply (select_in c th i); auto. destruct (TH i L) as [A B]. rewrite Bltb_correct by auto. apply Rlt_bool_true. exact B. }
  assert (SF : forall z, In z sel -> is_finite z = true). { intros z HZ. apply (proj1 (select_iff c th z LT)) in HZ. destruct HZ as (j&LJ&->&_). apply TH; auto. }
  assert (MG : forall z, In z sel -> B2R z <= B2R m). { intros z HZ. destruct sel as [|x l]; [destruct HZ|]. cbn [nmaximum] in EM. injection EM as <-. apply nmax_ge; auto. }
  assert (MJ : exists j, (j < length c)%nat /\ m = nth j th b64_zero /\ Bltb (nth j th b64_zero) (nth j c b64_zero) = true) by (apply (proj1 (select_iff c th m LT)); exact HI).
  destruct MJ as (j&LJ&EJ&HJ). destruct (TH j LJ) as [Fm Lm]. rewrite <- EJ in Fm, Lm.
  rewrite EM. cbn [bind]. set (theta := @nmax b64 BNum m (@n0 b64 BNum)).
  assert (T : is_finite theta = true /\ 0 <= B2R theta /\ (B2R theta = 0 \/ B2R theta < B2R M) /\ B2R theta = Rmax (B2R m) 0).
  { unfold theta, nmax. cbn [nltb n0 BNum]. rewrite Bltb_correct by (auto; reflexivity). change (B2R b64_zero) with 0. destruct (Rlt_bool_spec (B2R m) 0); [rewrite Rmax_right by lra; split; [reflexivity|cbn; lra]|rewrite Rmax_left by lra; split; [auto|lra]]. }
  destruct T as (FT&PT&OT&MX).
  assert (CJ : forall i0, (i0 < length y)%nat -> is_finite (nth i0 c b64_zero) = true /\ B2R (nth i0 c b64_zero) = Rmax (B2R (nth i0 y b64_zero)) 0) by (apply (Forall2_nth2 _ _ _ CF)).
  assert (BJ : forall i0, (i0 < length y)%nat -> (Bltb (nth i0 th b64_zero) (nth i0 c b64_zero) = true <-> B2R (nth i0 th b64_zero) < Rmax (B2R (nth i0 y b64_zero)) 0)).
  { intros i0 L0. destruct (CJ i0 L0) as [A B]. destruct (TH i0 ltac:(rewrite LC; auto)) as [D _]. rewrite Bltb_correct by auto. rewrite B. destruct (Rlt_bool_spec (B2R (nth i0 th b64_zero)) (Rmax (B2R (nth i0 y b64_zero)) 0)); split; intros; auto; try discriminate; lra. }
  eexists. exists c, (B2R theta), (map B2R (@sort_desc b64 BNum c)), (fun i0 => B2R (nth i0 th b64_zero)). split; [reflexivity|]. split.
  - split; [exact CF|]. clear - CF FT PT. unfold clip0. cbn [nsub nltb n0 BNum]. rewrite map_map. induction CF as [|x z y c [F V] H IH]; cbn [map]; constructor; [|exact IH].
    assert (PZ : 0 <= B2R z) by (rewrite V; apply Rmax_r). destruct (sub_shrink z theta F FT PZ PT) as (A&B&C). destruct (clip_one _ A) as [D E]. cbv zeta in D, E. split; [exact D|]. rewrite E. split; [rewrite B, V; reflexivity|]. rewrite <- V. apply Rmax_lub; auto.
  - split; [|split; [|split; [|split; [exact PT|split; [|split]]]]].
    + eapply Permutation_trans; [|apply Permutation_map, sort_perm]. replace (map (fun x : b64 => Rmax (B2R x) 0) y) with (map B2R c); [apply Permutation_refl|]. clear - CF. induction CF as [|x z y c [F V] H IH]; [reflexivity|]. cbn [map]. rewrite V, IH. reflexivity.
    + assert (SO : StronglySorted (fun a b : b64 => B2R b <= B2R a) (@sort_desc b64 BNum c)) by (apply sort_sorted; intros x HX; apply CB; auto). clear - SO. induction SO as [|x l H IH F]; cbn [map]; constructor; auto. apply Forall_forall. intros z HZ. apply in_map_iff in HZ. destruct HZ as (w&<-&HW). rewrite Forall_forall in F. apply Rle_ge. auto.
    + intros i0 L0. rewrite <- top_rsum. apply thr_error.
      * eapply Permutation_Forall; [apply sort_perm|]. apply Forall_forall. intros x HX. destruct (CB x HX) as (A&B&_). split; auto.
      * rewrite <- (Permutation_length (sort_perm c)), LC. exact L0.
      * rewrite <- (Permutation_length (sort_perm c)), LC. exact HK.
      * assert (L1 : (S i0 <= length (@sort_desc b64 BNum c))%nat) by (rewrite <- (Permutation_length (sort_perm c)), LC; lia). eapply Rle_trans; [apply (rsum_firstn (S i0) (@sort_desc b64 BNum c) (B2R M)); auto|].
        -- intros x HX. apply HM. apply (proj1 (sort_in _ _)) in HX. exact HX.
        -- eapply Rle_trans; [|exact MB]. assert (INR (S i0) <= INR (length y)) by (apply le_INR; lia). assert (1 <= INR (length y)) by (change 1 with (INR 1); apply le_INR; lia). rewrite Rmult_comm. apply Rmult_le_compat_l; [exact PM|]. nra.
    + destruct (Rle_or_lt (B2R m) 0) as [C|C]; [left; rewrite MX; apply Rmax_right; lra|right]. exists j. rewrite LC in LJ. split; auto. split; [apply BJ; auto|]. rewrite MX, Rmax_left by lra. rewrite EJ. reflexivity.
    + exists j. rewrite LC in LJ. split; auto. apply BJ; auto.
    + intros i0 L0 H0. rewrite MX. eapply Rle_trans; [|apply Rmax_l]. apply MG. apply (proj2 (select_iff c th _ LT)). exists i0. rewrite LC. split; auto. split; auto. apply BJ; auto.
Qed.
