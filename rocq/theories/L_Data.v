(** L_Data: lemmas about the data generators. *)
From Coq Require Import Reals Lra Lia.
From Verif Require Import Base Spec M_Data SpecData L_Base.
Local Open Scope R_scope.

(** ** numbers *)
Lemma npos_R : forall p, @npos R _ p = IZR (Zpos p).
Proof.
  induction p; cbn [npos].
  - rewrite IHp. rn. rewrite Pos2Z.inj_xI, plus_IZR, mult_IZR. lra.
  - rewrite IHp. rn. rewrite Pos2Z.inj_xO, mult_IZR. lra.
  - reflexivity.
Qed.
Lemma nofz_R : forall z, @nofz R _ z = IZR z.
Proof. intros [|p|p]; cbn [nofz]; auto; rewrite npos_R; auto. Qed.
Lemma dec_R : forall a b, @dec R _ a b = IZR (Zpos a) / IZR (Zpos b).
Proof. intros. unfold dec. rewrite !npos_R. reflexivity. Qed.

(** ** masks *)
Lemma mask_select_filter : forall (A : Type) (f : A -> bool) l, mask_select (map f l) l = filter f l.
Proof. induction l; cbn [map mask_select filter]; auto. destruct (f a); rewrite IHl; auto. Qed.

Lemma mask_select_app : forall (A B : Type) (f : B -> bool) (b b' : list B) (l l' : list A), length l = length b ->
  mask_select (map f (b ++ b')) (l ++ l') = mask_select (map f b) l ++ mask_select (map f b') l'.
Proof.
  induction b as [|x b IH]; intros b' l l' H; destruct l; try discriminate H; cbn; auto. destruct (f x); cbn; rewrite IH; auto.
Qed.

Lemma mask_select_repeat : forall (A B : Type) (f : B -> bool) (b : list B) (c : A) n, n = length b ->
  mask_select (map f b) (repeat c n) = repeat c (length (filter f b)).
Proof. induction b as [|x b IH]; intros c n ->; cbn; auto. destruct (f x); cbn; rewrite IH; auto. Qed.

Lemma filter_all : forall (A : Type) (f : A -> bool) l, (forall x, In x l -> f x = true) -> filter f l = l.
Proof. induction l; intros H; cbn; auto. rewrite (H a) by (left; auto). f_equal. apply IHl. intros. apply H. right; auto. Qed.

Lemma filter_le : forall (A : Type) (f : A -> bool) l, (length (filter f l) <= length l)%nat.
Proof. induction l; cbn; auto. destruct (f a); cbn; lia. Qed.

(** ** generate_data *)
Lemma keep_iff : forall p : R * R, gd_keep p = true <-> within (-0.05) 1.05 (fst p) /\ within (-0.05) 1.05 (snd p).
Proof.
  intros [a b]. unfold gd_keep, within. cbn [fst snd]. rewrite !dec_R. rn.
  destruct (Rltb_spec (1 + 5 / 100) a); destruct (Rltb_spec a (0 - 5 / 100)); destruct (Rltb_spec (1 + 5 / 100) b); destruct (Rltb_spec b (0 - 5 / 100));
    cbn [orb negb]; split; intros; try discriminate; try split; try lra; auto.
Qed.

Lemma in_uniform : forall lo hi m u x, lo <= hi -> unit_draws u -> In x (@uniform R _ lo hi m u) -> lo <= x <= hi.
Proof.
  intros lo hi m u x L U H. apply in_map_iff in H. destruct H as (i&<-&_). rn. specialize (U i).
  assert (0 <= (hi - lo) * u i) by (apply Rmult_le_pos; lra). assert ((hi - lo) * u i <= (hi - lo) * 1) by (apply Rmult_le_compat_l; lra). lra.
Qed.

Lemma in_uniform_pair : forall lo hi lo' hi' m u u' p, lo <= hi -> lo' <= hi' -> unit_draws u -> unit_draws u' ->
  In p (combine (@uniform R _ lo hi m u) (uniform lo' hi' m u')) -> lo <= fst p <= hi /\ lo' <= snd p <= hi'.
Proof.
  intros lo hi lo' hi' m u u' [a b] L L' U U' H. split.
  - apply in_combine_l in H. apply (in_uniform _ _ _ _ _ L U H).
  - apply in_combine_r in H. apply (in_uniform _ _ _ _ _ L' U' H).
Qed.

Lemma len_uniform : forall lo hi m u, length (@uniform R _ lo hi m u) = m.
Proof. intros. unfold uniform. rewrite map_length, seq_length. auto. Qed.
Lemma len_pair : forall lo hi lo' hi' m u u', length (combine (@uniform R _ lo hi m u) (@uniform R _ lo' hi' m u')) = m.
Proof. intros. rewrite combine_length, !len_uniform. lia. Qed.
Lemma len_normal : forall a b c d m z, length (@normal2 R _ a b c d m z) = m.
Proof. intros. unfold normal2. rewrite map_length, seq_length. auto. Qed.

Lemma rotate_turned : forall p : R * R, gd_rotate cos sin PI (1 / 2 * fst p, 1 / 2 * snd p) = turned p.
Proof.
  intros [a b]. unfold gd_rotate, turned. cbn [fst snd]. rewrite !dec_R, !npos_R. rn.
  replace (- (10) * (PI / 180)) with (- (PI / 18)) by field. rewrite cos_neg, sin_neg. f_equal; lra.
Qed.

Lemma turned_keep : forall p, 0 <= fst p < 1 -> 0 <= snd p < 1 -> gd_keep (turned p) = true.
Proof.
  intros [a b] A B. cbn [fst snd] in *. apply keep_iff. unfold turned, within. cbn [fst snd]. set (t := PI / 18).
  pose proof PI_RGT_0. pose proof PI_4. assert (T0 : 0 < t) by (unfold t; lra). assert (T1 : t <= 2 / 9) by (unfold t; lra).
  pose proof (sin_lt_x t T0) as S1. assert (S0 : 0 < sin t) by (apply sin_gt_0; unfold t; lra).
  assert (C0 : 0 < cos t) by (apply cos_gt_0; unfold t; lra). pose proof (COS_bound t) as [_ C1].
  assert (X1 : 0 <= a / 2 * cos t <= 1 / 2 * 1) by (split; [apply Rmult_le_pos; lra|apply Rmult_le_compat; lra]).
  assert (X2 : 0 <= b / 2 * cos t <= 1 / 2 * 1) by (split; [apply Rmult_le_pos; lra|apply Rmult_le_compat; lra]).
  assert (X3 : 0 <= a / 2 * sin t <= 1 / 2 * (2 / 9)) by (split; [apply Rmult_le_pos; lra|apply Rmult_le_compat; lra]).
  assert (X4 : 0 <= b / 2 * sin t <= 1 / 2 * (2 / 9)) by (split; [apply Rmult_le_pos; lra|apply Rmult_le_compat; lra]).
  lra.
Qed.

(** the normal parts *)
Definition normals (large_n : nat) (zs : nat -> nat -> R * R) : list (R * R) :=
  let n := gd_n large_n in
  normal2 (dec 5 10) (dec 9 10) (dec 33 100) (dec 5 100) (gd_norm n) (zs 0%nat) ++
  normal2 (dec 9 10) (dec 5 10) (dec 5 100) (dec 33 100) (gd_norm n) (zs 1%nat) ++
  normal2 (dec 5 10) (dec 1 10) (dec 33 100) (dec 5 100) (gd_norm23 n) (zs 2%nat) ++
  normal2 (dec 1 10) (dec 5 10) (dec 5 100) (dec 33 100) (gd_norm n) (zs 3%nat).

Lemma keep_pair : forall lo hi lo' hi' m u u', 0 <= lo -> lo <= hi -> hi <= 1 -> 0 <= lo' -> lo' <= hi' -> hi' <= 1 -> unit_draws u -> unit_draws u' ->
  filter gd_keep (combine (@uniform R _ lo hi m u) (uniform lo' hi' m u')) = combine (uniform lo hi m u) (uniform lo' hi' m u').
Proof.
  intros. apply filter_all. intros p Hp. apply in_uniform_pair in Hp; auto. apply keep_iff. unfold within. lra.
Qed.

Lemma data_eq : forall large_n zs us us2, (forall k, unit_draws (us k)) -> unit_draws (fun i => fst (us2 i)) -> unit_draws (fun i => snd (us2 i)) ->
  let n := gd_n large_n in
  exists a1 a2 a3 a4 b1 b2 b3 b4,
    (length a1 <= gd_norm n)%nat /\ (length a2 <= gd_norm n)%nat /\ (length a3 <= gd_norm23 n)%nat /\ (length a4 <= gd_norm n)%nat /\
    length b1 = gd_unif n /\ length b2 = gd_unif n /\ length b3 = gd_unif23 n /\ length b4 = gd_unif23 n /\
    (forall p, In p (a1 ++ b1 ++ a2 ++ b2 ++ map (fun i => turned (us2 i)) (seq 0 n) ++ a3 ++ b3 ++ a4 ++ b4) -> gd_keep p = true) /\
    ((forall p, In p (normals large_n zs) -> gd_keep p = true) ->
       length a1 = gd_norm n /\ length a2 = gd_norm n /\ length a3 = gd_norm23 n /\ length a4 = gd_norm n) /\
    generate_data cos sin PI large_n zs us us2 =
      (a1 ++ b1 ++ a2 ++ b2 ++ map (fun i => turned (us2 i)) (seq 0 n) ++ a3 ++ b3 ++ a4 ++ b4,
       repeat 2%nat (length a1 + length b1) ++ repeat 3%nat (length a2 + length b2) ++ repeat 0%nat n ++
       repeat 1%nat (length a3 + length b3 + length a4 + length b4)).
Proof.
  intros large_n zs us us2 U U1 U2 n.
  assert (E3 : map (gd_rotate cos sin PI) (map (fun i => (dec 5 10 * fst (us2 i), dec 5 10 * snd (us2 i))%num) (seq 0 n)) = map (fun i => turned (us2 i)) (seq 0 n)).
  { rewrite map_map. apply map_ext. intros i. rewrite <- rotate_turned. f_equal. rewrite dec_R. rn. f_equal; lra. }
  assert (K3 : filter gd_keep (map (fun i => turned (us2 i)) (seq 0 n)) = map (fun i => turned (us2 i)) (seq 0 n)).
  { apply filter_all. intros p Hp. apply in_map_iff in Hp. destruct Hp as (i&<-&_). apply turned_keep; [apply (U1 i)|apply (U2 i)]. }
  set (A1 := normal2 (dec 5 10) (dec 9 10) (dec 33 100) (dec 5 100) (gd_norm n) (zs 0%nat)).
  set (A2 := normal2 (dec 9 10) (dec 5 10) (dec 5 100) (dec 33 100) (gd_norm n) (zs 1%nat)).
  set (A3 := normal2 (dec 5 10) (dec 1 10) (dec 33 100) (dec 5 100) (gd_norm23 n) (zs 2%nat)).
  set (A4 := normal2 (dec 1 10) (dec 5 10) (dec 5 100) (dec 33 100) (gd_norm n) (zs 3%nat)).
  set (B1 := combine (uniform n0 n1 (gd_unif n) (us 0%nat)) (uniform (dec 8 10) n1 (gd_unif n) (us 1%nat))).
  set (B2 := combine (uniform (dec 8 10) n1 (gd_unif n) (us 2%nat)) (uniform n0 n1 (gd_unif n) (us 3%nat))).
  set (B3 := combine (uniform n0 n1 (gd_unif23 n) (us 4%nat)) (uniform n0 (dec 2 10) (gd_unif23 n) (us 5%nat))).
  set (B4 := combine (uniform n0 (dec 2 10) (gd_unif23 n) (us 6%nat)) (uniform n0 n1 (gd_unif23 n) (us 7%nat))).
  assert (LA1 : length A1 = gd_norm n) by apply len_normal. assert (LA2 : length A2 = gd_norm n) by apply len_normal.
  assert (LA3 : length A3 = gd_norm23 n) by apply len_normal. assert (LA4 : length A4 = gd_norm n) by apply len_normal.
  assert (LB1 : length B1 = gd_unif n) by apply len_pair. assert (LB2 : length B2 = gd_unif n) by apply len_pair.
  assert (LB3 : length B3 = gd_unif23 n) by apply len_pair. assert (LB4 : length B4 = gd_unif23 n) by apply len_pair.
  assert (KB1 : filter gd_keep B1 = B1) by (apply keep_pair; auto; rewrite ?dec_R; rn; lra).
  assert (KB2 : filter gd_keep B2 = B2) by (apply keep_pair; auto; rewrite ?dec_R; rn; lra).
  assert (KB3 : filter gd_keep B3 = B3) by (apply keep_pair; auto; rewrite ?dec_R; rn; lra).
  assert (KB4 : filter gd_keep B4 = B4) by (apply keep_pair; auto; rewrite ?dec_R; rn; lra).
  exists (filter gd_keep A1), (filter gd_keep A2), (filter gd_keep A3), (filter gd_keep A4), B1, B2, B3, B4.
  do 4 (split; [eapply Nat.le_trans; [apply filter_le|lia]|]). do 4 (split; [assumption|]). split.
  { intros p Hp. rewrite <- KB1, <- KB2, <- KB3, <- KB4, <- K3, <- !filter_app in Hp. apply filter_In in Hp. apply Hp. }
  split.
  { intros H. rewrite !filter_all; auto; intros p Hp; apply H; unfold normals; fold n A1 A2 A3 A4; rewrite !in_app_iff; auto. }
  unfold generate_data. fold n. rewrite E3. fold A1 A2 A3 A4 B1 B2 B3 B4. apply f_equal2.
  - rewrite mask_select_filter, !filter_app, KB1, KB2, KB3, KB4, K3. reflexivity.
  - set (D3 := map (fun i => turned (us2 i)) (seq 0 n)).
    assert (L3 : length D3 = n) by (unfold D3; rewrite map_length, seq_length; auto). fold D3 in K3.
    replace (A1 ++ B1 ++ A2 ++ B2 ++ D3 ++ A3 ++ B3 ++ A4 ++ B4) with ((A1 ++ B1) ++ (A2 ++ B2) ++ D3 ++ (A3 ++ B3 ++ A4 ++ B4)) by (rewrite !app_assoc; reflexivity).
    rewrite (mask_select_app _ _ gd_keep (A1 ++ B1)) by (rewrite repeat_length, app_length; auto).
    rewrite (mask_select_app _ _ gd_keep (A2 ++ B2)) by (rewrite repeat_length, app_length; auto).
    rewrite (mask_select_app _ _ gd_keep D3) by (rewrite repeat_length; auto).
    rewrite !mask_select_repeat by (rewrite ?app_length; cbn [map sumn fold_right]; lia).
    rewrite K3, L3, !filter_app, !app_length, KB1, KB2, KB3, KB4. do 3 f_equal. f_equal. lia.
Qed.
