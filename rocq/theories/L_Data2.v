(** L_Data2: the statements about generate_data, spirals and generate_data_knn. *)
From Coq Require Import Reals Lra Lia.
From Verif Require Import Base Spec M_Data SpecData L_Base L_Data.
Local Open Scope R_scope.

Lemma p_C78 : forall large_n zs us us2, (forall k, unit_draws (us k)) -> unit_draws (fun i => fst (us2 i)) -> unit_draws (fun i => snd (us2 i)) ->
  let n := (3 * large_n / 13)%nat in
  exists d n2 n3 n1, generate_data cos sin PI large_n zs us us2 = (d, repeat 2%nat n2 ++ repeat 3%nat n3 ++ repeat 0%nat n ++ repeat 1%nat n1) /\
    length d = (n2 + n3 + n + n1)%nat /\ (65 * length d <= 67 * large_n)%nat /\
    (forall p, In p d -> within (-0.05) 1.05 (fst p) /\ within (-0.05) 1.05 (snd p)) /\
    (forall i, (i < n)%nat -> nth_error d (n2 + n3 + i) = Some (turned (us2 i))) /\
    (3 * n / 5 <= n2 <= 2 * n / 5 + 3 * n / 5)%nat /\ (3 * n / 5 <= n3 <= 2 * n / 5 + 3 * n / 5)%nat /\
    (2 * (2 * n / 5) <= n1 <= 4 * n / 15 + 3 * (2 * n / 5))%nat.
Proof.
  intros large_n zs us us2 U U1 U2 n.
  destruct (data_eq large_n zs us us2 U U1 U2) as (a1&a2&a3&a4&b1&b2&b3&b4&L1&L2&L3&L4&M1&M2&M3&M4&K&_&E). change (gd_n large_n) with n in L1, L2, L3, L4, M1, M2, M3, M4, K, E.
  assert (E23 : gd_unif23 n = (2 * n / 5)%nat).
  { unfold gd_unif23. replace (6 * n)%nat with (2 * n * 3)%nat by lia. change 15%nat with (5 * 3)%nat. apply Nat.div_mul_cancel_r; lia. }
  rewrite E23 in M3, M4. unfold gd_norm, gd_norm23, gd_unif in *.
  exists (a1 ++ b1 ++ a2 ++ b2 ++ map (fun i => turned (us2 i)) (seq 0 n) ++ a3 ++ b3 ++ a4 ++ b4),
    (length a1 + length b1)%nat, (length a2 + length b2)%nat, (length a3 + length b3 + length a4 + length b4)%nat.
  assert (LD : length (a1 ++ b1 ++ a2 ++ b2 ++ map (fun i => turned (us2 i)) (seq 0 n) ++ a3 ++ b3 ++ a4 ++ b4) =
     (length a1 + length b1 + (length a2 + length b2) + n + (length a3 + length b3 + length a4 + length b4))%nat).
  { rewrite !app_length, map_length, seq_length. lia. }
  split; [exact E|]. split; [exact LD|]. split.
  { rewrite LD.
    pose proof (Nat.mul_div_le (3 * large_n) 13 ltac:(lia)) as Q0. fold n in Q0.
    pose proof (Nat.mul_div_le (2 * n) 5 ltac:(lia)) as Q1. pose proof (Nat.mul_div_le (3 * n) 5 ltac:(lia)) as Q2. pose proof (Nat.mul_div_le (4 * n) 15 ltac:(lia)) as Q3.
    lia. }
  split; [intros p Hp; apply keep_iff, K, Hp|]. split.
  { intros i Hi. rewrite nth_error_app2 by lia. rewrite nth_error_app2 by lia. rewrite nth_error_app2 by lia. rewrite nth_error_app2 by lia.
    rewrite nth_error_app1 by (rewrite map_length, seq_length; lia).
    replace (length a1 + length b1 + (length a2 + length b2) + i - length a1 - length b1 - length a2 - length b2)%nat with i by lia.
    apply (map_nth_error (fun i => turned (us2 i))). rewrite (nth_error_nth' _ 0%nat) by (rewrite seq_length; lia). rewrite seq_nth by lia. reflexivity. }
  lia.
Qed.

(** nothing removed *)
Lemma p_C78_sizes : forall large_n zs us us2, (forall k, unit_draws (us k)) -> unit_draws (fun i => fst (us2 i)) -> unit_draws (fun i => snd (us2 i)) ->
  (forall p, In p (normals large_n zs) -> within (-0.05) 1.05 (fst p) /\ within (-0.05) 1.05 (snd p)) ->
  let n := (3 * large_n / 13)%nat in
  snd (generate_data cos sin PI large_n zs us us2) =
    repeat 2%nat (2 * n / 5 + 3 * n / 5) ++ repeat 3%nat (2 * n / 5 + 3 * n / 5) ++ repeat 0%nat n ++ repeat 1%nat (4 * n / 15 + 3 * (2 * n / 5)).
Proof.
  intros large_n zs us us2 U U1 U2 H n.
  destruct (data_eq large_n zs us us2 U U1 U2) as (a1&a2&a3&a4&b1&b2&b3&b4&L1&L2&L3&L4&M1&M2&M3&M4&K&F&E). change (gd_n large_n) with n in L1, L2, L3, L4, M1, M2, M3, M4, K, F, E.
  assert (E23 : gd_unif23 n = (2 * n / 5)%nat).
  { unfold gd_unif23. replace (6 * n)%nat with (2 * n * 3)%nat by lia. change 15%nat with (5 * 3)%nat. apply Nat.div_mul_cancel_r; lia. }
  destruct F as (F1&F2&F3&F4). { intros p Hp. apply keep_iff. auto. }
  rewrite E. cbn [snd]. rewrite F1, F2, F3, F4, M1, M2, M3, M4, E23. unfold gd_norm, gd_norm23, gd_unif. do 4 f_equal. lia.
Qed.

(** ** spirals *)
Lemma fold_app : forall (A B : Type) (f : B -> list A) l acc, fold_left (fun a c => a ++ f c) l acc = acc ++ concat (map f l).
Proof. induction l; intros acc; cbn; [rewrite app_nil_r; auto|]. rewrite IHl, app_assoc. auto. Qed.

Lemma concat_len : forall (A : Type) m (L : list (list A)), (forall b, In b L -> length b = m) -> length (concat L) = (length L * m)%nat.
Proof. induction L; intros H; cbn; auto. rewrite app_length, IHL by (intros; apply H; right; auto). rewrite (H a) by (left; auto). auto. Qed.

Lemma concat_nth : forall (A : Type) m (L : list (list A)) c i b, (forall b, In b L -> length b = m) -> nth_error L c = Some b -> (i < m)%nat ->
  nth_error (concat L) (c * m + i) = nth_error b i.
Proof.
  induction L as [|x L IH]; intros c i b H N Hi; [destruct c; discriminate|]. assert (LX : length x = m) by (apply H; left; auto). destruct c as [|c]; cbn [concat].
  - cbn in N. injection N as ->. rewrite nth_error_app1 by lia. f_equal.
  - cbn in N. rewrite nth_error_app2 by lia. replace (S c * m + i - length x)%nat with (c * m + i)%nat by lia. apply IH; auto. intros. apply H. right; auto.
Qed.

Lemma seq_error : forall s k i, (i < k)%nat -> nth_error (seq s k) i = Some (s + i)%nat.
Proof. intros. rewrite (nth_error_nth' _ 0%nat) by (rewrite seq_length; lia). rewrite seq_nth by lia. auto. Qed.

Lemma class_row : forall noise ts m c sh u e1 e2 i, (i < m)%nat ->
  nth_error (@spiral_class R _ cos sin PI noise ts m c sh u e1 e2) i =
  Some (let t := 2 * PI * u i + sh + ts in
   {| sr_index := i; sr_t := t; sr_x := sqrt (t - sh) * cos t + noise * e1 i; sr_y := sqrt (t - sh) * sin t + noise * e2 i; sr_class := c |}).
Proof.
  intros. unfold spiral_class. erewrite map_nth_error; [|apply seq_error; auto]. cbn [Nat.add]. cbn zeta.
  unfold uniform. rewrite map_map. rewrite nth_map_seq by auto. cbn [Nat.add]. rewrite npos_R. rn.
  replace (0 + (2 * PI - 0) * u i) with (2 * PI * u i) by ring. reflexivity.
Qed.

Lemma p_C63_rows : forall n k noise ts us es1 es2, (0 <= n)%Z -> (0 < k)%Z -> 0 <= ts -> (forall c, unit_draws (us c)) ->
  let K := Z.to_nat k in let m := Z.to_nat (n / k) in
  exists d, spirals cos sin PI n k noise ts us es1 es2 = Ok d /\ length d = (K * m)%nat /\
  forall c i, (c < K)%nat -> (i < m)%nat -> exists r, nth_error d (c * m + i) = Some r /\ sr_class r = c /\ sr_index r = i /\
    sr_t r = 2 * PI * us c i + INR c * (2 * PI / INR K) + ts /\
    sr_x r = sqrt (2 * PI * us c i + ts) * cos (sr_t r) + noise * es1 c i /\ sr_y r = sqrt (2 * PI * us c i + ts) * sin (sr_t r) + noise * es2 c i.
Proof.
  intros n k noise ts us es1 es2 Hn Hk Ht U K m. unfold spirals. destruct (Z.ltb_spec k 0); [lia|]. destruct (Z.eqb_spec k 0) as [|KN]; [lia|].
  assert (Q : Z.quot n k = (n / k)%Z) by (apply Z.quot_div_nonneg; lia). rewrite Q. assert (0 <= n / k)%Z by (apply Z.div_pos; lia).
  destruct (Z.ltb_spec (n / k) 0); [lia|]. fold K m. rewrite fold_app. cbn [app].
  set (F := fun c => spiral_class cos sin PI noise ts m c (nth c (map (fun i => (nof i * (npos 2 * PI / nof K))%num) (seq 0 K)) n0) (us c) (es1 c) (es2 c)).
  assert (LF : forall b, In b (map F (seq 0 K)) -> length b = m).
  { intros b Hb. apply in_map_iff in Hb. destruct Hb as (c&<-&_). unfold F, spiral_class. rewrite map_length, seq_length. auto. }
  exists (concat (map F (seq 0 K))). split; [reflexivity|]. split; [rewrite (concat_len _ m) by auto; rewrite map_length, seq_length; auto|].
  intros c i Hc Hi. eexists. split.
  - rewrite (concat_nth _ m _ c i (F c)); auto. { unfold F. rewrite class_row by auto. reflexivity. }
    apply (map_nth_error F). rewrite seq_error by auto. auto.
  - cbn [sr_class sr_index sr_t sr_x sr_y]. split; [auto|]. split; [auto|].
    rewrite nth_map_seq by auto. cbn [Nat.add]. rewrite npos_R. rn.
    split; [reflexivity|]. replace (2 * PI * us c i + INR c * (2 * PI / INR K) + ts - INR c * (2 * PI / INR K)) with (2 * PI * us c i + ts) by ring. auto.
Qed.

Lemma p_C63_errors : forall n k noise ts us es1 es2,
  ((k < 0)%Z -> @spirals R _ cos sin PI n k noise ts us es1 es2 = Err ValueError) /\
  (k = 0%Z -> @spirals R _ cos sin PI n k noise ts us es1 es2 = Err ZeroDivisionError) /\
  ((0 < k)%Z -> (n <= - k)%Z -> @spirals R _ cos sin PI n k noise ts us es1 es2 = Err ValueError).
Proof.
  intros. unfold spirals. split; [|split].
  - intros H. destruct (Z.ltb_spec k 0); auto; lia.
  - intros ->. reflexivity.
  - intros H H2. destruct (Z.ltb_spec k 0); [lia|]. destruct (Z.eqb_spec k 0); [lia|]. destruct (Z.ltb_spec (Z.quot n k) 0) as [|G]; auto. exfalso.
    assert (QL : (Z.quot n k <= Z.quot (- k) k)%Z) by (apply Z.quot_le_mono; lia). rewrite Z.quot_opp_l, Z.quot_same in QL by lia. lia.
Qed.

(** a full turn is needed to come back *)
Lemma cos_one : forall a, - (2 * PI) < a < 2 * PI -> cos a = 1 -> a = 0.
Proof.
  assert (P : forall a, 0 < a < 2 * PI -> cos a <> 1).
  { intros a H C. replace a with (2 * (a / 2)) in C by field. rewrite cos_2a_sin in C.
    assert (0 < sin (a / 2)) by (apply sin_gt_0; lra). assert (0 < sin (a / 2) * sin (a / 2)) by (apply Rmult_lt_0_compat; auto). lra. }
  intros a H C. destruct (Rtotal_order a 0) as [L|[E|G]]; auto.
  - exfalso. apply (P (- a)); [lra|]. rewrite cos_neg. auto.
  - exfalso. apply (P a); [lra|auto].
Qed.

(** without noise, two points of different classes only meet in the origin *)
Lemma p_C63_apart : forall n k ts us es1 es2 d, (0 <= n)%Z -> (0 < k)%Z -> 0 <= ts -> (forall c, unit_draws (us c)) ->
  spirals cos sin PI n k 0 ts us es1 es2 = Ok d ->
  forall r r', In r d -> In r' d -> sr_x r = sr_x r' -> sr_y r = sr_y r' -> sr_class r = sr_class r' \/ (ts = 0 /\ sr_x r = 0 /\ sr_y r = 0).
Proof.
  intros n k ts us es1 es2 d Hn Hk Ht U E r r' I0 I1 EX EY.
  destruct (p_C63_rows n k 0 ts us es1 es2 Hn Hk Ht U) as (d'&E'&LD&R). rewrite E in E'. injection E' as <-.
  set (K := Z.to_nat k) in *. set (m := Z.to_nat (n / k)) in *.
  assert (POS : forall x, In x d -> exists c i, (c < K)%nat /\ (i < m)%nat /\ nth_error d (c * m + i) = Some x).
  { intros x Hx. apply In_nth_error in Hx. destruct Hx as (j&Hj). assert (j < K * m)%nat by (rewrite <- LD; apply nth_error_Some; congruence).
    assert (m <> 0)%nat by lia. exists (j / m)%nat, (j mod m)%nat. split; [apply Nat.div_lt_upper_bound; lia|]. split; [apply Nat.mod_upper_bound; auto|].
    rewrite (Nat.mul_comm (j / m)), <- Nat.div_mod; auto. }
  destruct (POS r I0) as (c&i&Hc&Hi&N). destruct (POS r' I1) as (c'&i'&Hc'&Hi'&N').
  destruct (R c i Hc Hi) as (q&N2&C1&_&T1&X1&Y1). rewrite N in N2. injection N2 as <-.
  destruct (R c' i' Hc' Hi') as (q&N2&C2&_&T2&X2&Y2). rewrite N' in N2. injection N2 as <-.
  rewrite Rmult_0_l, Rplus_0_r in X1, Y1, X2, Y2.
  set (a := 2 * PI * us c i + ts) in *. set (b := 2 * PI * us c' i' + ts) in *. pose proof PI_RGT_0 as PP. pose proof (U c i) as U1. pose proof (U c' i') as U2.
  assert (A0 : 0 <= a) by (unfold a; assert (0 <= 2 * PI * us c i) by (apply Rmult_le_pos; lra); lra).
  assert (B0 : 0 <= b) by (unfold b; assert (0 <= 2 * PI * us c' i') by (apply Rmult_le_pos; lra); lra).
  assert (RA : sr_x r * sr_x r + sr_y r * sr_y r = a).
  { rewrite X1, Y1. pose proof (sin2_cos2 (sr_t r)) as SC. unfold Rsqr in SC.
    replace (sqrt a * cos (sr_t r) * (sqrt a * cos (sr_t r)) + sqrt a * sin (sr_t r) * (sqrt a * sin (sr_t r)))
      with ((sqrt a * sqrt a) * (sin (sr_t r) * sin (sr_t r) + cos (sr_t r) * cos (sr_t r))) by ring. rewrite SC, sqrt_sqrt by auto. ring. }
  assert (RB : sr_x r' * sr_x r' + sr_y r' * sr_y r' = b).
  { rewrite X2, Y2. pose proof (sin2_cos2 (sr_t r')) as SC. unfold Rsqr in SC.
    replace (sqrt b * cos (sr_t r') * (sqrt b * cos (sr_t r')) + sqrt b * sin (sr_t r') * (sqrt b * sin (sr_t r')))
      with ((sqrt b * sqrt b) * (sin (sr_t r') * sin (sr_t r') + cos (sr_t r') * cos (sr_t r'))) by ring. rewrite SC, sqrt_sqrt by auto. ring. }
  assert (AB : a = b) by (rewrite <- RA, <- RB, EX, EY; auto).
  destruct (Req_dec a 0) as [Z|NZ].
  - right. rewrite X1, Y1, Z, sqrt_0. split; [|lra]. unfold a in Z. assert (0 <= 2 * PI * us c i) by (apply Rmult_le_pos; lra). lra.
  - left. rewrite C1, C2. assert (SA : 0 < sqrt a) by (apply sqrt_lt_R0; lra).
    assert (CE : cos (sr_t r) = cos (sr_t r')) by (apply (Rmult_eq_reg_l (sqrt a)); [|lra]; rewrite <- X1, EX, X2, AB; auto).
    assert (SE : sin (sr_t r) = sin (sr_t r')) by (apply (Rmult_eq_reg_l (sqrt a)); [|lra]; rewrite <- Y1, EY, Y2, AB; auto).
    assert (ONE : cos (sr_t r - sr_t r') = 1).
    { rewrite cos_minus, CE, SE. pose proof (sin2_cos2 (sr_t r')) as SC. unfold Rsqr in SC. lra. }
    assert (D : sr_t r - sr_t r' = (INR c - INR c') * (2 * PI / INR K)).
    { rewrite T1, T2. replace (2 * PI * us c i) with (2 * PI * us c' i') by (unfold a, b in AB; lra). ring. }
    assert (KP : 0 < INR K) by (apply lt_0_INR; lia).
    assert (W : (INR c - INR c') * (2 * PI / INR K) = (INR c - INR c') / INR K * (2 * PI)) by (field; lra).
    assert (BB : -1 < (INR c - INR c') / INR K < 1).
    { apply lt_INR in Hc. apply lt_INR in Hc'. pose proof (pos_INR c). pose proof (pos_INR c').
      split; apply (Rmult_lt_reg_r (INR K)); auto; unfold Rdiv; rewrite Rmult_assoc, Rinv_l by lra; lra. }
    apply cos_one in ONE.
    + rewrite D, W in ONE. apply Rmult_integral in ONE. destruct ONE as [O|O]; [|lra]. apply INR_eq.
      apply (Rmult_eq_compat_r (INR K)) in O. unfold Rdiv in O. rewrite Rmult_assoc, Rinv_l in O by lra. lra.
    + rewrite D, W. destruct BB as [B1 B2]. split; [replace (- (2 * PI)) with (-1 * (2 * PI)) by ring|replace (2 * PI) with (1 * (2 * PI)) at 2 by ring];
        apply Rmult_lt_compat_r; lra.
Qed.

Lemma p_C63_radius : forall n k ts us es1 es2 d, (0 <= n)%Z -> (0 < k)%Z -> 0 <= ts -> (forall c, unit_draws (us c)) ->
  spirals cos sin PI n k 0 ts us es1 es2 = Ok d -> forall r, In r d -> (sr_class r < Z.to_nat k)%nat /\ ts <= (sr_x r) ^ 2 + (sr_y r) ^ 2 < 2 * PI + ts.
Proof.
  intros n k ts us es1 es2 d Hn Hk Ht U E r I0.
  destruct (p_C63_rows n k 0 ts us es1 es2 Hn Hk Ht U) as (d'&E'&LD&R). rewrite E in E'. injection E' as <-.
  set (K := Z.to_nat k) in *. set (m := Z.to_nat (n / k)) in *.
  apply In_nth_error in I0. destruct I0 as (j&Hj). assert (JB : (j < K * m)%nat) by (rewrite <- LD; apply nth_error_Some; congruence).
  assert (M0 : (m <> 0)%nat) by lia. assert (CB : (j / m < K)%nat) by (apply Nat.div_lt_upper_bound; lia).
  destruct (R (j / m)%nat (j mod m)%nat CB (Nat.mod_upper_bound _ _ M0)) as (q&N&C1&_&T1&X1&Y1).
  rewrite (Nat.mul_comm (j / m)), <- Nat.div_mod in N by auto. rewrite Hj in N. injection N as <-. rewrite Rmult_0_l, Rplus_0_r in X1, Y1.
  split; [lia|]. pose proof PI_RGT_0 as PP. pose proof (U (j / m)%nat (j mod m)%nat) as U1. set (u := us (j / m)%nat (j mod m)%nat) in *.
  assert (A0 : 0 <= 2 * PI * u) by (apply Rmult_le_pos; lra).
  assert (A1 : 2 * PI * u < 2 * PI * 1) by (apply Rmult_lt_compat_l; lra).
  replace (sr_x r ^ 2 + sr_y r ^ 2) with (2 * PI * u + ts); [lra|].
  rewrite X1, Y1. pose proof (sin2_cos2 (sr_t r)) as SC. unfold Rsqr in SC. set (s := sqrt (2 * PI * u + ts)).
  replace ((s * cos (sr_t r)) ^ 2 + (s * sin (sr_t r)) ^ 2) with ((s * s) * (sin (sr_t r) * sin (sr_t r) + cos (sr_t r) * cos (sr_t r))) by ring.
  rewrite SC. unfold s. rewrite sqrt_sqrt by lra. ring.
Qed.
