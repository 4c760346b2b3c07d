(** L_Data3: generate_data_knn, and the sizes of generate_data. *)
From Coq Require Import Reals Lra Lia.
From Verif Require Import Base Spec M_Data SpecData L_Base L_Data L_Data2.
Local Open Scope R_scope.

Lemma normal_in : forall l1 l2 s1 s2 m z p, (forall i, Rabs (fst (z i)) <= 1 /\ Rabs (snd (z i)) <= 1) -> 0 <= s1 -> 0 <= s2 ->
  In p (@normal2 R _ l1 l2 s1 s2 m z) -> l1 - s1 <= fst p <= l1 + s1 /\ l2 - s2 <= snd p <= l2 + s2.
Proof.
  assert (A : forall s x, 0 <= s -> Rabs x <= 1 -> - s <= s * x <= s).
  { intros s x S0 X. assert (-1 <= x <= 1) by (unfold Rabs in X; destruct (Rcase_abs x); lra).
    split; [replace (- s) with (s * -1) by ring|rewrite <- (Rmult_1_r s) at 2]; apply Rmult_le_compat_l; lra. }
  intros l1 l2 s1 s2 m z p Z S1 S2 H. apply in_map_iff in H. destruct H as (i&<-&_). cbn [fst snd]. rn. destruct (Z i) as [Z1 Z2].
  pose proof (A s1 _ S1 Z1). pose proof (A s2 _ S2 Z2). lra.
Qed.

Lemma p_C78_kept : forall large_n zs us us2, (forall k, unit_draws (us k)) -> unit_draws (fun i => fst (us2 i)) -> unit_draws (fun i => snd (us2 i)) ->
  (forall k i, Rabs (fst (zs k i)) <= 1 /\ Rabs (snd (zs k i)) <= 1) ->
  let n := (3 * large_n / 13)%nat in
  snd (generate_data cos sin PI large_n zs us us2) =
    repeat 2%nat (2 * n / 5 + 3 * n / 5) ++ repeat 3%nat (2 * n / 5 + 3 * n / 5) ++ repeat 0%nat n ++ repeat 1%nat (4 * n / 15 + 3 * (2 * n / 5)).
Proof.
  intros large_n zs us us2 U U1 U2 Z. apply p_C78_sizes; auto. intros p Hp. unfold normals in Hp. cbn zeta in Hp. unfold within.
  rewrite !in_app_iff in Hp. destruct Hp as [H|[H|[H|H]]]; apply normal_in in H; auto; rewrite ?dec_R in *; lra.
Qed.

(** ** the frame *)
Definition zmin (l : list Z) : Z := match l with [] => 0%Z | x :: r => fold_left (fun a b => if (b <? a)%Z then b else a) r x end.
Definition zmax (l : list Z) : Z := match l with [] => 0%Z | x :: r => fold_left (fun a b => if (a <? b)%Z then b else a) r x end.

Lemma nano_lt : forall a b, (a < b)%Z <-> nano a < nano b.
Proof.
  intros. unfold nano. split; intros H.
  - apply IZR_lt in H. apply Rmult_lt_compat_r; lra.
  - apply lt_IZR. apply (Rmult_lt_reg_r (/ 1000000000)); auto. lra.
Qed.
Lemma nano_ltb : forall a b, Rltb (nano a) (nano b) = (a <? b)%Z.
Proof.
  intros. destruct (Rltb_spec (nano a) (nano b)) as [H|H], (Z.ltb_spec a b) as [G|G]; auto; exfalso.
  - apply nano_lt in H. lia.
  - apply nano_lt in G. lra.
Qed.
Lemma col_nano : forall l, @knn_col R _ l = map nano l.
Proof. intros. unfold knn_col. apply map_ext. intros z. rewrite nofz_R, npos_R. reflexivity. Qed.

Lemma nmin_nano : forall l, l <> [] -> @nmin R _ (map nano l) = nano (zmin l).
Proof.
  intros [|x l] H; [congruence|]. clear H. cbn [map nmin zmin]. revert x. induction l as [|y l IH]; intros x; cbn [map fold_left]; auto.
  rewrite <- IH. f_equal. change (@nltb R _ (nano y) (nano x)) with (Rltb (nano y) (nano x)). rewrite nano_ltb. destruct (y <? x)%Z; auto.
Qed.
Lemma nmax_nano : forall l, l <> [] -> @nmax R _ (map nano l) = nano (zmax l).
Proof.
  intros [|x l] H; [congruence|]. clear H. cbn [map nmax zmax]. revert x. induction l as [|y l IH]; intros x; cbn [map fold_left]; auto.
  rewrite <- IH. f_equal. change (@nltb R _ (nano x) (nano y)) with (Rltb (nano x) (nano y)). rewrite nano_ltb. destruct (x <? y)%Z; auto.
Qed.

Lemma left_R : @left_add R _ = nano (-13152278).
Proof.
  unfold left_add. rewrite !col_nano. rewrite !nmin_nano by discriminate.
  change [nano (zmin lower_x); nano (zmin upper_x); nano (zmin data_x)] with (map nano [zmin lower_x; zmin upper_x; zmin data_x]).
  rewrite nmin_nano by discriminate. apply (f_equal nano). vm_compute. reflexivity.
Qed.
Lemma right_R : @right_add R _ = nano 987378459.
Proof.
  unfold right_add. rewrite !col_nano. rewrite !nmax_nano by discriminate.
  change [nano (zmax lower_x); nano (zmax upper_x); nano (zmax data_x)] with (map nano [zmax lower_x; zmax upper_x; zmax data_x]).
  rewrite nmax_nano by discriminate. apply (f_equal nano). vm_compute. reflexivity.
Qed.
Lemma above_R : @above R _ = nano 974966800.
Proof.
  unfold above. rewrite col_nano, nmax_nano by discriminate. replace (zmax upper_y) with 874966800%Z by (vm_compute; reflexivity).
  rewrite dec_R. unfold nano. rn. lra.
Qed.
Lemma below_R : @below R _ = nano (-65560200).
Proof.
  unfold below. rewrite col_nano, nmin_nano by discriminate. replace (zmin lower_y) with 34439800%Z by (vm_compute; reflexivity).
  rewrite dec_R. unfold nano. rn. lra.
Qed.

Lemma last_map : forall (A B : Type) (f : A -> B) l d e, l <> [] -> last (map f l) e = f (last l d).
Proof. induction l as [|x l IH]; intros d e H; [congruence|]. destruct l as [|y l]; [reflexivity|]. change (last (map f (y :: l)) e = f (last (y :: l) d)). apply IH. discriminate. Qed.

Lemma poly_R : forall xs ys, ys <> [] -> @knn_poly R _ xs ys = region xs ys.
Proof.
  intros xs ys H. unfold knn_poly, region. rewrite !col_nano, left_R, right_R, above_R. rewrite (last_map _ _ nano ys 0%Z) by auto.
  destruct ys as [|a ys]; [congruence|]. reflexivity.
Qed.

(** ** labels by masks *)
Lemma assign_len : forall (A : Type) m (l v : list A), length (mask_assign m l v) = length l.
Proof. induction m as [|b m IH]; intros l v; destruct l; cbn; auto; destruct b; cbn; auto; destruct v; cbn; rewrite IH; auto. Qed.

(** the value assigned to position i is the k-th, k the number of earlier masked positions *)
Lemma assign_nth : forall (vals : list nat) v (y d : list nat) i, length y = length vals ->
  (forall j, (j < length (filter (fun a => Nat.eqb a v) vals))%nat -> nth_error d j <> None) -> (i < length vals)%nat ->
  nth i (mask_assign (map (fun a => Nat.eqb a v) vals) y d) 0%nat =
    if Nat.eqb (nth i vals 0%nat) v then nth (count_before v vals i) d 0%nat else nth i y 0%nat.
Proof.
  induction vals as [|a vals IH]; intros v y d i L D Hi; cbn in Hi; [lia|]. destruct y as [|b y]; [discriminate|]. injection L as L.
  unfold count_before in *. cbn [map mask_assign filter] in *. destruct (Nat.eqb_spec a v) as [->|NE].
  - destruct d as [|x d]; [exfalso; apply (D 0%nat); cbn; [lia|auto]|]. destruct i as [|i]; cbn [nth firstn count_occ].
    + rewrite Nat.eqb_refl. reflexivity.
    + rewrite IH; [|auto| |lia].
      * destruct (Nat.eq_dec v v); [reflexivity|congruence].
      * intros j Hj. apply (D (S j)). cbn. lia.
  - destruct i as [|i]; cbn [nth firstn count_occ].
    + apply Nat.eqb_neq in NE. rewrite NE. reflexivity.
    + rewrite IH; auto; [|lia]. destruct (Nat.eq_dec a v); [congruence|]. reflexivity.
Qed.

Lemma count_lt : forall v (vals : list nat) i, (i < length vals)%nat -> nth i vals 0%nat = v -> (count_before v vals i < length (filter (fun a => Nat.eqb a v) vals))%nat.
Proof.
  induction vals as [|a vals IH]; intros i Hi N; cbn in Hi; [lia|]. unfold count_before in *. destruct i as [|i]; cbn [nth] in N; cbn [firstn count_occ filter].
  - subst. rewrite Nat.eqb_refl. cbn. lia.
  - specialize (IH i ltac:(lia) N). destruct (Nat.eq_dec a v) as [->|NE]; [rewrite Nat.eqb_refl; cbn; lia|]. apply Nat.eqb_neq in NE. rewrite NE. auto.
Qed.

Definition b2n (b : bool) : nat := if b then 1 else 0.

Lemma count_filter : forall v (vals : list nat), sumn (map b2n (map (fun a => Nat.eqb a v) vals)) = length (filter (fun a => Nat.eqb a v) vals).
Proof. induction vals as [|a vals IH]; [reflexivity|]. cbn [map sumn fold_right filter] in *. destruct (Nat.eqb a v); cbn [b2n length]; unfold sumn in IH; lia. Qed.

Lemma combine_nth_R : forall (a b : list R) i, length a = length b -> nth i (combine a b) (0, 0) = (nth i a 0, nth i b 0).
Proof. intros. apply combine_nth. auto. Qed.

Lemma p_C79 : forall inside n p p0 p1 u1 u2 bn, nth_error p 0 = Some p0 -> nth_error p 1 = Some p1 -> 0 <= p0 <= 1 -> 0 <= p1 <= 1 -> unit_draws u1 -> unit_draws u2 ->
  let L := region lower_x lower_y in let C := region data_x data_y in let V := region upper_x upper_y in
  exists d y v, @generate_data_knn R _ inside n p u1 u2 bn = Ok (d, y, v) /\ length d = n /\ length y = n /\ length v = n /\
  forall i, (i < n)%nat -> exists a b, nth_error d i = Some (a, b) /\
    a = nano (-13152278) + (nano 987378459 - nano (-13152278)) * u1 i /\ b = nano (-65560200) + (nano 974966800 - nano (-65560200)) * u2 i /\
    within (nano (-13152278)) (nano 987378459) a /\ within (nano (-65560200)) (nano 974966800) b /\
    nth i v 0%nat = length (filter (fun P => inside P (a, b)) [L; C; V]) /\
    nth i y 0%nat = match nth i v 0%nat with
      | 0 => 0 | 1 => if bn 1%nat p0 (count_before 1 v i) then 1 else 0 | 2 => if bn 2%nat p1 (count_before 2 v i) then 1 else 0 | _ => 1 end%nat.
Proof.
  intros inside n p p0 p1 u1 u2 bn P0 P1 B0 B1 U1 U2 L C V. unfold generate_data_knn. rewrite P0, P1.
  replace (((p0 <? n0)%num || (n1 <? p0)%num)%bool) with false.
  2:{ rn. destruct (Rltb_spec p0 0); [lra|]. destruct (Rltb_spec 1 p0); [lra|]. auto. }
  replace (((p1 <? n0)%num || (n1 <? p1)%num)%bool) with false.
  2:{ rn. destruct (Rltb_spec p1 0); [lra|]. destruct (Rltb_spec 1 p1); [lra|]. auto. }
  cbn [bind]. rewrite !poly_R by discriminate. rewrite left_R, right_R, above_R, below_R. fold L C V b2n.
  set (d := combine (uniform _ _ n u1) (uniform _ _ n u2)).
  set (v := map2 Nat.add (map2 Nat.add (map b2n (map (inside L) d)) (map b2n (map (inside C) d))) (map b2n (map (inside V) d))).
  assert (LD : length d = n) by apply len_pair.
  assert (LV : length v = n) by (unfold v; rewrite !map2_length, !map_length; lia).
  set (cnt w := sumn (map b2n (map (fun a => Nat.eqb a w) v))).
  set (D1 := map (fun i => b2n (bn 1%nat p0 i)) (seq 0 (cnt 1%nat))). set (D2 := map (fun i => b2n (bn 2%nat p1 i)) (seq 0 (cnt 2%nat))). set (D3 := repeat 1%nat (cnt 3%nat)).
  set (y1 := mask_assign (map (fun a => Nat.eqb a 1) v) (repeat 0%nat (length d)) D1). set (y2 := mask_assign (map (fun a => Nat.eqb a 2) v) y1 D2).
  set (y3 := mask_assign (map (fun a => Nat.eqb a 3) v) y2 D3).
  assert (LY1 : length y1 = n) by (unfold y1; rewrite assign_len, repeat_length; auto). assert (LY2 : length y2 = n) by (unfold y2; rewrite assign_len; auto).
  assert (LY3 : length y3 = n) by (unfold y3; rewrite assign_len; auto).
  assert (LD1 : length D1 = length (filter (fun a => Nat.eqb a 1) v)) by (unfold D1; rewrite map_length, seq_length; apply count_filter).
  assert (LD2 : length D2 = length (filter (fun a => Nat.eqb a 2) v)) by (unfold D2; rewrite map_length, seq_length; apply count_filter).
  assert (LD3 : length D3 = length (filter (fun a => Nat.eqb a 3) v)) by (unfold D3; rewrite repeat_length; apply count_filter).
  exists d, y3, v. split; [reflexivity|]. do 3 (split; [assumption|]). intros i Hi.
  set (a := nano (-13152278) + (nano 987378459 - nano (-13152278)) * u1 i). set (b := nano (-65560200) + (nano 974966800 - nano (-65560200)) * u2 i).
  assert (NI : nth i d (0, 0) = (a, b)).
  { unfold d. rewrite combine_nth_R by (rewrite !len_uniform; auto). unfold uniform. rewrite !nth_map_seq by auto. reflexivity. }
  exists a, b. split; [rewrite (nth_error_nth' d (0, 0)) by lia; rewrite NI; auto|]. split; [reflexivity|]. split; [reflexivity|].
  split.
  { specialize (U1 i). assert (W : nano (-13152278) <= nano 987378459) by (apply Rlt_le, nano_lt; lia). unfold within, a.
    assert (0 <= (nano 987378459 - nano (-13152278)) * u1 i) by (apply Rmult_le_pos; lra).
    assert ((nano 987378459 - nano (-13152278)) * u1 i <= (nano 987378459 - nano (-13152278)) * 1) by (apply Rmult_le_compat_l; lra). lra. }
  split.
  { specialize (U2 i). assert (W : nano (-65560200) <= nano 974966800) by (apply Rlt_le, nano_lt; lia). unfold within, b.
    assert (0 <= (nano 974966800 - nano (-65560200)) * u2 i) by (apply Rmult_le_pos; lra).
    assert ((nano 974966800 - nano (-65560200)) * u2 i <= (nano 974966800 - nano (-65560200)) * 1) by (apply Rmult_le_compat_l; lra). lra. }
  assert (NV : nth i v 0%nat = length (filter (fun P => inside P (a, b)) [L; C; V])).
  { unfold v. rewrite (nth_map2 _ _ _ _ 0%nat 0%nat) by (rewrite ?map2_length, !map_length; lia).
    rewrite (nth_map2 _ _ _ _ 0%nat 0%nat) by (rewrite !map_length; lia). rewrite !map_map, !nth_map_in with (d := (0, 0)) by lia. rewrite NI. cbn [filter].
    destruct (inside L (a, b)), (inside C (a, b)), (inside V (a, b)); reflexivity. }
  split; [exact NV|].
  assert (HE : forall (D : list nat) w, length D = length (filter (fun a => Nat.eqb a w) v) ->
     forall j, (j < length (filter (fun a => Nat.eqb a w) v))%nat -> nth_error D j <> None).
  { intros D w E j Hj. apply nth_error_Some. lia. }
  unfold y3. rewrite assign_nth; [|lia|apply HE; auto|lia]. unfold y2. rewrite assign_nth; [|lia|apply HE; auto|lia].
  unfold y1. rewrite assign_nth; [|rewrite repeat_length; lia|apply HE; auto|lia].
  assert (V3 : (nth i v 0 <= 3)%nat) by (rewrite NV; eapply Nat.le_trans; [apply filter_le|auto]).
  destruct (nth i v 0%nat) as [|[|[|[|x]]]] eqn:NE; cbn [Nat.eqb].
  - apply nth_repeat.
  - unfold D1. rewrite nth_map_seq; [reflexivity|]. pose proof (count_lt 1 v i ltac:(lia) NE) as Q. rewrite <- LD1 in Q. unfold D1 in Q. rewrite map_length, seq_length in Q. exact Q.
  - unfold D2. rewrite nth_map_seq; [reflexivity|]. pose proof (count_lt 2 v i ltac:(lia) NE) as Q. rewrite <- LD2 in Q. unfold D2 in Q. rewrite map_length, seq_length in Q. exact Q.
  - unfold D3. apply nth_repeat_lt. pose proof (count_lt 3 v i ltac:(lia) NE) as Q. rewrite <- LD3 in Q. unfold D3 in Q. rewrite repeat_length in Q. exact Q.
  - lia.
Qed.

Lemma p_C79_errors : forall inside n p u1 u2 bn,
  (p = [] -> @generate_data_knn R _ inside n p u1 u2 bn = Err IndexError) /\
  (forall p0, nth_error p 0 = Some p0 -> ~ 0 <= p0 <= 1 -> @generate_data_knn R _ inside n p u1 u2 bn = Err ValueError) /\
  (forall p0, p = [p0] -> 0 <= p0 <= 1 -> @generate_data_knn R _ inside n p u1 u2 bn = Err IndexError) /\
  (forall p0 p1, nth_error p 0 = Some p0 -> nth_error p 1 = Some p1 -> 0 <= p0 <= 1 -> ~ 0 <= p1 <= 1 -> @generate_data_knn R _ inside n p u1 u2 bn = Err ValueError).
Proof.
  assert (OUT : forall q : R, ~ 0 <= q <= 1 -> ((q <? n0)%num || (n1 <? q)%num)%bool = true).
  { intros q H. rn. destruct (Rltb_spec q 0); [reflexivity|]. destruct (Rltb_spec 1 q); [reflexivity|lra]. }
  assert (INN : forall q : R, 0 <= q <= 1 -> ((q <? n0)%num || (n1 <? q)%num)%bool = false).
  { intros q H. rn. destruct (Rltb_spec q 0); [lra|]. destruct (Rltb_spec 1 q); [lra|reflexivity]. }
  intros. unfold generate_data_knn. split; [|split; [|split]].
  - intros ->. reflexivity.
  - intros p0 P0 H. rewrite P0, (OUT p0 H). reflexivity.
  - intros p0 -> H. cbn [nth_error]. rewrite (INN p0 H). reflexivity.
  - intros p0 p1 P0 P1 H0 H1. rewrite P0, P1, (INN p0 H0). cbn [bind]. rewrite (OUT p1 H1). reflexivity.
Qed.
