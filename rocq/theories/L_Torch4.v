(** L_Torch4: C60, C62 and the all-pairs loss. *)
From Verif Require Import Base TreeSpec Spec SpecTorch M_Gamma M_Torch M_Pytorch L_Base L_Gamma L_Gamma2 L_Grad L_Smooth L_Smooth4 L_Tune L_Torch L_Torch2 L_Torch3.
From Coq Require Import Reals Lra Lia.
Local Open Scope R_scope.

(** ** losses *)

Lemma sumto_zero_all : forall n f, (forall i, (i < n)%nat -> 0 <= f i) -> sumto n f = 0 -> forall i, (i < n)%nat -> f i = 0.
Proof.
  intros n f H Z i Hi. apply Rle_antisym; [|auto]. rewrite <- Z. apply sumto_elem_le; auto.
Qed.

Lemma wmse_zero : forall n w y p, (forall i, (i < n)%nat -> 0 <= w i) -> 0 < sumto n w ->
  0 <= wmse n w y p /\ (wmse n w y p = 0 <-> forall i, (i < n)%nat -> 0 < w i -> y i = p i).
Proof.
  intros n w y p Hw HS.
  assert (P : forall i, (i < n)%nat -> 0 <= w i * (y i - p i) ^ 2) by (intros; apply Rmult_le_pos; auto; apply pow2_ge_0).
  assert (S0 := sumto_nonneg n _ P). split.
  - unfold wmse. apply Rle_mult_inv_pos; auto.
  - unfold wmse. split.
    + intros Z i Hi Pi. assert (Z2 : sumto n (fun i => w i * (y i - p i) ^ 2) = 0).
      { apply (Rmult_eq_reg_r (/ sumto n w)); [|apply Rgt_not_eq, Rinv_0_lt_compat; auto]. rewrite Rmult_0_l. exact Z. }
      pose proof (sumto_zero_all _ _ P Z2 i Hi) as Q. cbn beta in Q. apply Rmult_integral in Q. destruct Q as [Q|Q]; [lra|].
      assert (y i - p i = 0); [|lra]. destruct (Req_dec (y i - p i) 0) as [|NZ]; auto. exfalso. apply (pow_nonzero _ 2) in NZ. lra.
    + intros H. rewrite (sumto_zero n (fun i => w i * (y i - p i) ^ 2)); [unfold Rdiv; ring|]. intros i Hi.
      destruct (Hw i Hi) as [Pi|<-]; [rewrite (H i Hi Pi); ring|ring].
Qed.

Lemma p_C62_weighted : forall e (y p w : list R), length y = length w -> length p = length w -> (forall x, In x w -> 0 <= x) -> 0 < nsum w ->
  exists l, weighted_l2_gen e (of_list y) (of_list p) (of_list w) = Ok l /\ 0 <= l /\
    (l = 0 <-> forall i, (i < length w)%nat -> 0 < nth i w 0 -> nth i y 0 = nth i p 0).
Proof.
  intros e y p w Hy Hp Hw HS. eexists. split; [apply loss_same; eauto|]. apply wmse_zero.
  - intros i Hi. apply Hw, nth_In; auto.
  - rewrite nsum_sumto in HS. exact HS.
Qed.

Lemma list_eq_nth : forall (a b : list R), length a = length b -> ((forall i, (i < length a)%nat -> nth i a 0 = nth i b 0) <-> a = b).
Proof. intros a b H. split; [intros; apply (nth_eq_ext a b 0); auto|intros -> i _; auto]. Qed.

Lemma p_C62_l2 : forall y p : list R, length y = length p -> y <> [] ->
  exists l, l2_np (of_list y) (of_list p) = Ok l /\ l = sumto (length y) (fun i => (nth i y 0 - nth i p 0) ^ 2) / INR (length y) /\ 0 <= l /\ (l = 0 <-> y = p).
Proof.
  intros y p H N. unfold l2_np. rewrite bop_list by auto. cbn [bind]. eexists. split; [reflexivity|].
  unfold tmean, tsum, tmap. cbn [dat of_list]. rewrite map_length, map2_length, nsum_sumto, map_length, map2_length, <- H, Nat.min_id.
  rewrite (sumto_ext _ _ (fun i => (nth i y 0 - nth i p 0) ^ 2)).
  2:{ intros i Hi. rewrite nth_map_in with (d := 0) by (rewrite map2_length; lia). rewrite (nth_map2 _ _ _ _ 0 0) by lia. rn. ring. }
  set (SS := sumto _ _). assert (P0 : forall i, (i < length y)%nat -> 0 <= (nth i y 0 - nth i p 0) ^ 2) by (intros; apply pow2_ge_0).
  assert (S0 : 0 <= SS) by (apply sumto_nonneg; auto).
  assert (LP : 0 < INR (length y)) by (apply lt_0_INR; destruct y; [congruence|cbn; lia]).
  split; [reflexivity|]. split; [apply Rle_mult_inv_pos; auto|]. rewrite <- list_eq_nth by auto. split.
  - intros Z i Hi. assert (Z2 : SS = 0).
    { apply (Rmult_eq_reg_r (/ INR (length y))); [|apply Rgt_not_eq, Rinv_0_lt_compat; auto]. rewrite Rmult_0_l. exact Z. }
    pose proof (sumto_zero_all _ _ P0 Z2 i Hi) as Q. cbn beta in Q. destruct (Req_dec (nth i y 0 - nth i p 0) 0) as [|NZ]; [lra|].
    exfalso. apply (pow_nonzero _ 2) in NZ. lra.
  - intros Q. assert (Z : SS = 0) by (apply sumto_zero; intros i Hi; rewrite (Q i Hi); ring). rewrite Z. rn. unfold Rdiv. apply Rmult_0_l.
Qed.

Lemma p_C62_acc : forall y p : list R, length y = length p -> y <> [] ->
  acc_np (of_list y) (of_list p) = sum_sel (length y) (fun i => Reqb (nth i y 0) (nth i p 0)) (fun _ => 1) / INR (length y) /\
  0 <= acc_np (of_list y) (of_list p) <= 1 /\ (acc_np (of_list y) (of_list p) = 1 <-> y = p).
Proof.
  intros y p H N. unfold acc_np. rewrite bop_list by auto.
  unfold tmean, tsum. cbn [dat of_list]. rewrite map2_length, nsum_sumto, map2_length, <- H, Nat.min_id.
  rewrite (sumto_ext _ _ (fun i => if Reqb (nth i y 0) (nth i p 0) then 1 else 0)).
  2:{ intros i Hi. rewrite (nth_map2 _ _ _ _ 0 0) by lia. reflexivity. }
  set (f := fun i => if Reqb (nth i y 0) (nth i p 0) then 1 else 0).
  assert (F01 : forall i, 0 <= f i <= 1) by (intros i; unfold f; destruct (Reqb _ _); lra).
  assert (LP : 0 < INR (length y)) by (apply lt_0_INR; destruct y; [congruence|cbn; lia]).
  assert (S0 : 0 <= sumto (length y) f) by (apply sumto_nonneg; intros; apply F01).
  assert (S1 : sumto (length y) f <= INR (length y)).
  { rewrite <- (Rmult_1_r (INR (length y))), <- sumto_const. apply sumto_le. intros; apply F01. }
  assert (D : sumto (length y) f / INR (length y) = 1 <-> sumto (length y) f = INR (length y)).
  { split; intros Q.
    - apply (Rmult_eq_reg_r (/ INR (length y))); [|apply Rgt_not_eq, Rinv_0_lt_compat; auto]. rewrite Rinv_r by lra. exact Q.
    - rewrite Q. apply Rinv_r. lra. }
  split; [|split; [split|]].
  - reflexivity.
  - apply Rle_mult_inv_pos; auto.
  - change (sumto (length y) f / INR (length y) <= 1). apply (Rmult_le_reg_r (INR (length y))); auto.
    unfold Rdiv. rewrite Rmult_assoc, Rinv_l, Rmult_1_r, Rmult_1_l by lra. exact S1.
  - change (sumto (length y) f / INR (length y) = 1 <-> y = p). rewrite D, <- list_eq_nth by auto. split.
    + intros Q i Hi. destruct (Reqb_spec (nth i y 0) (nth i p 0)) as [|NE]; auto. exfalso.
      assert (C : sumto (length y) (fun i => 1 - f i) = 0).
      { rewrite (sumto_ext _ _ (fun i => 1 + (-1) * f i)) by (intros; ring). rewrite sumto_plus, sumto_scal, sumto_const, Q. ring. }
      assert (Z := sumto_zero_all _ (fun i => 1 - f i) ltac:(intros j _; pose proof (F01 j); lra) C i Hi). cbn beta in Z. unfold f in Z.
      destruct (Reqb_spec (nth i y 0) (nth i p 0)); [congruence|lra].
    + intros Q. rewrite (sumto_ext _ _ (fun _ => 1)); [rewrite sumto_const; ring|]. intros i Hi. unfold f.
      destruct (Reqb_spec (nth i y 0) (nth i p 0)); auto. exfalso; auto.
Qed.

(** ** all pairs *)

Lemma all_pairs_split : forall n w y p, sumto n w <> 0 ->
  all_pairs n w y p = sumto n (fun i => (p i - wmean n w y) ^ 2) + INR n * wvar n w y.
Proof.
  intros n w y p HW. unfold all_pairs. unfold Rdiv. rewrite <- sumto_scal_r.
  rewrite <- sumto_const, <- sumto_plus. apply sumto_ext. intros i Hi.
  unfold wvar, wmse, Rdiv. set (W := sumto n w) in *. set (m := wmean n w y).
  assert (Hm : sumto n (fun j => w j * y j) = m * W) by (unfold m, wmean; fold W; field; auto).
  assert (E1 : sumto n (fun j => w j * (y j - p i) ^ 2) = sumto n (fun j => w j * (y j - m) ^ 2) + (p i - m) ^ 2 * W).
  { rewrite (sumto_ext n (fun j => w j * (y j - p i) ^ 2) (fun j => w j * (y j - m) ^ 2 + (2 * (m - p i) * (w j * y j) + (p i ^ 2 - m ^ 2) * w j))) by (intros; ring).
    rewrite !sumto_plus, !sumto_scal, Hm. fold W. ring. }
  rewrite E1. field. auto.
Qed.

Lemma all_pairs_best : forall n w y p, 0 < sumto n w ->
  all_pairs n w y (fun _ => wmean n w y) <= all_pairs n w y p /\
  (all_pairs n w y p = all_pairs n w y (fun _ => wmean n w y) <-> forall i, (i < n)%nat -> p i = wmean n w y).
Proof.
  intros n w y p HW. rewrite !all_pairs_split by lra.
  assert (Z : sumto n (fun _ => (wmean n w y - wmean n w y) ^ 2) = 0) by (apply sumto_zero; intros; ring). rewrite Z.
  assert (P : forall i, (i < n)%nat -> 0 <= (p i - wmean n w y) ^ 2) by (intros; apply pow2_ge_0).
  pose proof (sumto_nonneg n _ P) as S0. split; [lra|]. split.
  - intros Q i Hi. assert (Z2 : sumto n (fun i => (p i - wmean n w y) ^ 2) = 0) by lra.
    pose proof (sumto_zero_all _ _ P Z2 i Hi) as Q2. cbn beta in Q2. destruct (Req_dec (p i - wmean n w y) 0) as [|NZ]; [lra|].
    exfalso. apply (pow_nonzero _ 2) in NZ. lra.
  - intros Q. rewrite (sumto_zero n (fun i => (p i - wmean n w y) ^ 2)); [lra|]. intros i Hi. rewrite (Q i Hi). ring.
Qed.

(** ** the dataset *)

Lemma nth_splice : forall (row b : list R) a i, (a + length b <= length row)%nat ->
  nth i (splice row a b) 0 = if (Nat.leb a i && Nat.ltb i (a + length b))%bool then nth (i - a) b 0 else nth i row 0.
Proof.
  intros row b a i H. unfold splice. assert (LF : length (firstn a row) = a) by (apply firstn_length_le; lia).
  destruct (Nat.leb_spec a i) as [A|A].
  - rewrite app_nth2 by lia. rewrite LF. destruct (Nat.ltb_spec i (a + length b)) as [B|B]; cbn [andb].
    + rewrite app_nth1 by lia. reflexivity.
    + rewrite app_nth2 by lia. rewrite <- (firstn_skipn (a + length b) row) at 2. rewrite app_nth2; rewrite firstn_length_le by lia; [|lia].
      f_equal. lia.
  - cbn [andb]. rewrite app_nth1 by lia. rewrite <- (firstn_skipn a row) at 2. rewrite app_nth1 by lia. reflexivity.
Qed.
Lemma splice_length : forall (row b : list R) a, (a + length b <= length row)%nat -> length (splice row a b) = length row.
Proof.
  intros row b a H. unfold splice. rewrite !app_length, firstn_length_le, skipn_length by lia. lia.
Qed.

Section DS.
Variables (n K nv : nat).

(** rows of X after the variables below a have been entered: entry (r, K*v+l) is A v r l *)
Definition filled (A : nat -> nat -> nat -> R) (a : nat) (X : mat R) : Prop :=
  length X = n /\ rect (K * nv) X /\
  forall r v l, (r < n)%nat -> (v < a)%nat -> (l < K)%nat -> nth (K * v + l) (nth r X []) 0 = A v r l.

Lemma put_ok : forall A a X (B : list (list R)) (rowf : list R -> list R -> list R), (a < nv)%nat -> filled A a X ->
  length B = n -> rect K B -> (forall r l, (r < n)%nat -> (l < K)%nat -> A a r l = nth l (nth r B []) 0) ->
  filled A (S a) (map2 (fun row b => splice row (K * a) b) X B).
Proof.
  intros A a X B _ Ha (L&RX&F) LB RB HA.
  assert (LR : forall r, (r < n)%nat -> length (nth r X []) = (K * nv)%nat) by (intros r Hr; apply RX, nth_In; lia).
  assert (LBr : forall r, (r < n)%nat -> length (nth r B []) = K) by (intros r Hr; apply RB, nth_In; lia).
  split; [rewrite map2_length; lia|]. split.
  - intros r Hr. apply (In_nth _ _ []) in Hr. destruct Hr as (i&Hi&<-). rewrite map2_length in Hi.
    rewrite (nth_map2 _ _ _ _ [] []) by lia. rewrite splice_length; rewrite ?LR, ?LBr by lia; nia.
  - intros r v l Hr Hv Hl. rewrite (nth_map2 _ _ _ _ [] []) by lia. rewrite nth_splice by (rewrite LR, LBr by lia; nia).
    rewrite LBr by lia. destruct (Nat.eq_dec v a) as [->|NE].
    + replace (Nat.leb (K * a) (K * a + l)) with true by (symmetry; apply Nat.leb_le; lia).
      replace (Nat.ltb (K * a + l) (K * a + K)) with true by (symmetry; apply Nat.ltb_lt; lia). cbn [andb].
      rewrite HA by auto. f_equal. lia.
    + replace (Nat.leb (K * a) (K * v + l)) with false by (symmetry; apply Nat.leb_gt; nia). cbn [andb]. apply F; auto. lia.
Qed.
End DS.

Lemma structure_ok : forall n K (one : list (key * list R)) (two : list (key * mat R)), shapes_ok n K one two ->
  exists X, softmax_structure n K one two = Ok X /\ length X = n /\ rect (K * (length one + length two)) X /\
  forall r v l, (r < n)%nat -> (v < length one + length two)%nat -> (l < K)%nat -> nth (K * v + l) (nth r X []) 0 = attr one two v r l.
Proof.
  intros n K one two (H1&H2). unfold softmax_structure. set (nv := (length one + length two)%nat).
  assert (A0 : filled n K nv (attr one two) 0 (repeat (repeat 0 (K * nv)) n)).
  { split; [apply repeat_length|]. split; [|intros; lia]. intros r Hr. apply repeat_spec in Hr. subst r. apply repeat_length. }
  assert (P1 : forall suf pre X, one = pre ++ suf -> filled n K nv (attr one two) (length pre) X ->
    exists X', foldM (put_one n K) suf (X, length pre) = Ok (X', length one) /\ filled n K nv (attr one two) (length one) X').
  { induction suf as [|e suf IH]; intros pre X E F.
    - rewrite app_nil_r in E. subst pre. exists X. auto.
    - cbn [foldM]. unfold put_one at 1. cbn [fst snd]. rewrite (H1 e) by (rewrite E; apply in_or_app; right; left; auto).
      rewrite Nat.eqb_refl. cbn [bind].
      replace (S (length pre)) with (length (pre ++ [e])) by (rewrite app_length; cbn; lia).
      apply IH; [rewrite <- app_assoc; exact E|].
      assert (LE : length (snd e) = n) by (apply H1; rewrite E; apply in_or_app; right; left; auto).
      replace (map2 (fun row x => splice row (K * length pre) (repeat x K)) X (snd e)) with
        (map2 (fun row b => splice row (K * length pre) b) X (map (fun x => repeat x K) (snd e))).
      2:{ destruct F as (LX&_). clear - LX LE. revert LE. generalize (snd e) as l. intros l LE. assert (L : length X = length l) by congruence. clear LX LE n.
          revert l L. induction X; destruct l; cbn; intros; try congruence. f_equal. apply IHX. congruence. }
      rewrite app_length. cbn [length]. rewrite Nat.add_1_r. apply put_ok; auto.
      + subst nv. rewrite E, app_length. cbn. lia.
      + rewrite map_length. auto.
      + intros r Hr. apply in_map_iff in Hr. destruct Hr as (x&<-&_). apply repeat_length.
      + intros r l Hr Hl. rewrite nth_map_in with (d := 0) by lia. rewrite nth_repeat_lt by auto. unfold attr.
        replace (Nat.ltb (length pre) (length one)) with true by (symmetry; apply Nat.ltb_lt; rewrite E, app_length; cbn; lia).
        rewrite E, app_nth2, Nat.sub_diag by lia. reflexivity. }
  destruct (P1 one [] _ eq_refl A0) as (X1&E1&F1). change (foldM (put_one n K) one (repeat (repeat n0 (K * nv)) n, 0%nat) = Ok (X1, length one)) in E1.
  rewrite E1. cbn [bind].
  assert (P2 : forall suf pre X, two = pre ++ suf -> filled n K nv (attr one two) (length one + length pre) X ->
    exists X', foldM (put_two n K) suf (X, (length one + length pre)%nat) = Ok (X', nv) /\ filled n K nv (attr one two) nv X').
  { induction suf as [|e suf IH]; intros pre X E F.
    - rewrite app_nil_r in E. subst pre. exists X. auto.
    - cbn [foldM]. unfold put_two at 1. cbn [fst snd]. destruct (H2 e) as (LE&RE); [rewrite E; apply in_or_app; right; left; auto|].
      rewrite LE, Nat.eqb_refl.
      replace (forallb _ (snd e)) with true by (symmetry; apply forallb_forall; intros r Hr; apply Nat.eqb_eq, RE; auto). cbn [andb bind].
      replace (S (length one + length pre)) with (length one + length (pre ++ [e]))%nat by (rewrite app_length; cbn; lia).
      apply IH; [rewrite <- app_assoc; exact E|].
      rewrite app_length. cbn [length]. replace (length one + (length pre + 1))%nat with (S (length one + length pre)) by lia. apply put_ok; auto.
      + subst nv. rewrite E, app_length. cbn. lia.
      + intros r l Hr Hl. unfold attr. replace (Nat.ltb _ _) with false by (symmetry; apply Nat.ltb_ge; lia).
        replace (length one + length pre - length one)%nat with (length pre) by lia.
        rewrite E, app_nth2, Nat.sub_diag by lia. reflexivity. }
  destruct (P2 two [] X1 eq_refl) as (X2&E2&F2); [cbn [length]; rewrite Nat.add_0_r; exact F1|].
  cbn [length] in E2. rewrite Nat.add_0_r in E2. rewrite E2. cbn [bind fst]. exists X2. split; [reflexivity|]. exact F2.
Qed.

Lemma structure_inv : forall n K (one : list (key * list R)) (two : list (key * mat R)) X, softmax_structure n K one two = Ok X ->
  shapes_ok n K one two.
Proof.
  intros n K one two X H. unfold softmax_structure in H.
  destruct (foldM (put_one n K) one _) as [s1|] eqn:E1; [|discriminate]. cbn [bind] in H.
  destruct (foldM (put_two n K) two s1) as [s2|] eqn:E2; [|discriminate]. split.
  - clear - E1. revert E1. generalize (repeat (repeat (n0:R) (K * (length one + length two))) n, 0%nat) as s.
    intros s. revert s. induction one as [|e one IH]; intros s E1 x Hx; [destruct Hx|]. cbn [foldM] in E1. unfold put_one at 1 in E1.
    destruct (Nat.eqb (length (snd e)) n) eqn:EN; [|discriminate]. cbn [bind] in E1. destruct Hx as [<-|Hx]; [apply Nat.eqb_eq; auto|]. eapply IH; eauto.
  - clear - E2. revert s1 E2. induction two as [|e two IH]; intros s E1 x Hx; [destruct Hx|]. cbn [foldM] in E1. unfold put_two at 1 in E1.
    destruct (Nat.eqb (length (snd e)) n && _)%bool eqn:EN; [|discriminate]. cbn [bind] in E1. destruct Hx as [<-|Hx]; [|eapply IH; eauto].
    apply andb_prop in EN. destruct EN as (A&B). split; [apply Nat.eqb_eq; auto|]. intros r Hr. apply Nat.eqb_eq. rewrite forallb_forall in B. apply B; auto.
Qed.

Lemma structure_err : forall n K (one : list (key * list R)) (two : list (key * mat R)) e, softmax_structure n K one two = Err e -> e = AssertionError.
Proof.
  intros n K one two e H. unfold softmax_structure in H.
  assert (P1 : forall (l : list (key * list R)) s, match foldM (put_one n K) l s with Ok _ => True | Err e => e = AssertionError end).
  { induction l as [|x l IH]; intros s; [exact I|]. cbn [foldM]. unfold put_one at 1. destruct (Nat.eqb _ _); cbn [bind]; auto. apply IH. }
  assert (P2 : forall (l : list (key * mat R)) s, match foldM (put_two n K) l s with Ok _ => True | Err e => e = AssertionError end).
  { induction l as [|x l IH]; intros s; [exact I|]. cbn [foldM]. unfold put_two at 1. destruct (_ && _)%bool; cbn [bind]; auto. apply IH. }
  specialize (P1 one (repeat (repeat n0 (K * (length one + length two))) n, 0%nat)).
  destruct (foldM (put_one n K) one _) as [s1|e1]; cbn [bind] in H; [|congruence].
  specialize (P2 two s1). destruct (foldM (put_two n K) two s1) as [s2|e2]; cbn [bind] in H; congruence.
Qed.
