(** L_Level6: the positive-definiteness test and update_til_psd. *)
From Verif Require Import Base TreeSpec Spec M_Tree M_Gamma M_Levels M_Grad M_Smooth M_Level SpecSmooth SpecTune SpecLevel.
From Verif Require Import L_Base L_Tree L_TreeModel L_Gamma L_Gamma2 L_Sgd L_Grad L_Smooth L_Route L_Tune L_Box L_Level3 L_Level4.
From Coq Require Import Reals Lra Lia.
Local Open Scope R_scope.

(** *** Cholesky pivots *)
Definition schur (p : R) (rest : mat R) : mat R :=
  map (fun ri => map2 (fun x rj => x - hd 0 ri * hd 0 rj / p) (tl ri) rest) rest.
Lemma chol_S : forall n row rest, cholesky_ok (S n) (row :: rest) = (Rltb 0 (hd 0 row) && cholesky_ok n (schur (hd 0 row) rest))%bool.
Proof. reflexivity. Qed.
Lemma hd_nth : forall (r : list R), hd 0 r = nth 0 r 0.
Proof. destruct r; auto. Qed.
Lemma tl_nth : forall (r : list R) j, nth j (tl r) 0 = nth (S j) r 0.
Proof. destruct r; auto. intros [|j]; auto. Qed.
Lemma schur_square : forall n p row rest, square (S n) (row :: rest) -> square n (schur p rest).
Proof.
  intros n p row rest [L R1]. cbn [length] in L. unfold schur. split; [rewrite map_length; lia|]. intros i Hi. rewrite nth_map_in with (d := []) by lia.
  rewrite map2_length. assert (length (tl (nth i rest [])) = n); [|lia]. specialize (R1 (S i) ltac:(lia)). cbn [nth] in R1. destruct (nth i rest []); cbn in *; lia.
Qed.
Lemma schur_ent : forall n p row rest i j, square (S n) (row :: rest) -> (i < n)%nat -> (j < n)%nat ->
  ent (schur p rest) i j = ent (row :: rest) (S i) (S j) - ent (row :: rest) (S i) 0 * ent (row :: rest) (S j) 0 / p.
Proof.
  intros n p row rest i j [L R1] Hi Hj. cbn [length] in L. unfold ent, schur. rewrite nth_map_in with (d := []) by lia.
  assert (LT : length (tl (nth i rest [])) = n) by (specialize (R1 (S i) ltac:(lia)); cbn [nth] in R1; destruct (nth i rest []); cbn in *; lia).
  rewrite nth_map2 with (da := 0) (db := []) by lia. cbn [nth]. rewrite tl_nth, !hd_nth. reflexivity.
Qed.
(** only the lower triangle matters *)
Lemma chol_lower : forall n A B, square n A -> square n B -> (forall i j, (j <= i)%nat -> (i < n)%nat -> ent A i j = ent B i j) -> cholesky_ok n A = cholesky_ok n B.
Proof.
  induction n as [|n IH]; intros A B SA SB H; [reflexivity|].
  destruct A as [|ra A]; [destruct SA; discriminate|]. destruct B as [|rb B]; [destruct SB; discriminate|].
  rewrite !chol_S. assert (P : hd 0 ra = hd 0 rb) by (rewrite !hd_nth; apply (H 0%nat 0%nat); lia). rewrite P. f_equal.
  apply IH; try (eapply schur_square; eauto). intros i j Hji Hi. rewrite !(schur_ent n) with (1 := SA) by lia. rewrite !(schur_ent n) with (1 := SB) by lia. rewrite !H by lia. reflexivity.
Qed.
Lemma quad_split : forall n A x, quad (S n) A x = x 0%nat * ent A 0 0 * x 0%nat + sumto n (fun j => x 0%nat * ent A 0 (S j) * x (S j)) +
  (sumto n (fun i => x (S i) * ent A (S i) 0 * x 0%nat) + sumto n (fun i => sumto n (fun j => x (S i) * ent A (S i) (S j) * x (S j)))).
Proof.
  intros n A x. unfold quad. rewrite sumto_shift. f_equal; [apply sumto_shift|].
  rewrite <- sumto_plus. apply sumto_ext. intros i Hi. apply sumto_shift.
Qed.
Lemma complete_square : forall n row rest x, square (S n) (row :: rest) -> symmetric (S n) (row :: rest) -> ent (row :: rest) 0 0 <> 0 ->
  let p := ent (row :: rest) 0 0 in let b := sumto n (fun j => ent (row :: rest) (S j) 0 * x (S j)) in
  quad (S n) (row :: rest) x = p * ((x 0%nat + b / p) * (x 0%nat + b / p)) + quad n (schur p rest) (fun i => x (S i)).
Proof.
  intros n row rest x SQ SY NZ p b. rewrite quad_split.
  assert (E1 : sumto n (fun j => x 0%nat * ent (row :: rest) 0 (S j) * x (S j)) = x 0%nat * b).
  { unfold b. rewrite <- sumto_scal. apply sumto_ext. intros j Hj. unfold ent in *. rewrite (SY 0%nat (S j)) by lia. ring. }
  assert (E2 : sumto n (fun i => x (S i) * ent (row :: rest) (S i) 0 * x 0%nat) = x 0%nat * b).
  { unfold b. rewrite <- sumto_scal. apply sumto_ext. intros j Hj. ring. }
  assert (E3 : quad n (schur p rest) (fun i => x (S i)) = sumto n (fun i => sumto n (fun j => x (S i) * ent (row :: rest) (S i) (S j) * x (S j))) - b * b / p).
  { unfold quad. transitivity (sumto n (fun i => sumto n (fun j => x (S i) * ent (row :: rest) (S i) (S j) * x (S j)) + (ent (row :: rest) (S i) 0 * x (S i)) * (- (b / p)))).
    - apply sumto_ext. intros i Hi.
      transitivity (sumto n (fun j => x (S i) * ent (row :: rest) (S i) (S j) * x (S j) + (- (ent (row :: rest) (S i) 0 * x (S i) * / p)) * (ent (row :: rest) (S j) 0 * x (S j)))).
      + apply sumto_ext. intros j Hj. change (nth j (nth i (schur p rest) []) 0) with (ent (schur p rest) i j). rewrite (schur_ent n) with (1 := SQ) by auto. unfold Rdiv. ring.
      + rewrite sumto_plus, sumto_scal. fold b. unfold Rdiv. ring.
    - rewrite sumto_plus. unfold Rminus. f_equal. rewrite sumto_scal_r. fold b. unfold Rdiv. ring. }
  rewrite E1, E2, E3. unfold p. field. auto.
Qed.
Lemma schur_sym : forall n p row rest, square (S n) (row :: rest) -> symmetric (S n) (row :: rest) -> symmetric n (schur p rest).
Proof.
  intros n p row rest SQ SY i j Hi Hj. change (ent (schur p rest) i j = ent (schur p rest) j i). rewrite !(schur_ent n) with (1 := SQ) by auto.
  assert (Q : ent (row :: rest) (S i) (S j) = ent (row :: rest) (S j) (S i)) by (apply (SY (S i) (S j)); lia). rewrite Q. unfold Rdiv. ring.
Qed.
Lemma chol_pd : forall n A, square n A -> symmetric n A -> (cholesky_ok n A = true <-> pos_def n A).
Proof.
  induction n as [|n IH]; intros A SQ SY.
  - split; auto. intros _ x (i&Hi&_). lia.
  - destruct A as [|row rest]; [destruct SQ; discriminate|]. rewrite chol_S, hd_nth. change (nth 0 row 0) with (ent (row :: rest) 0 0). set (p := ent (row :: rest) 0 0).
    pose proof (IH (schur p rest) (schur_square n p row rest SQ) (schur_sym n p row rest SQ SY)) as IS. clear IH. split.
    + intros H. apply andb_prop in H. destruct H as [HP HS]. destruct (Rltb_spec 0 p) as [PP|]; [|discriminate]. pose proof (proj1 IS HS) as PD.
      intros x (i&Hi&Ni). rewrite (complete_square n row rest x SQ SY) by (fold p; lra). fold p. cbv zeta.
      set (b := sumto n (fun j => ent (row :: rest) (S j) 0 * x (S j))).
      assert (Q0 : 0 <= p * ((x 0%nat + b / p) * (x 0%nat + b / p))) by (apply Rmult_le_pos; [lra|apply Rle_0_sqr]).
      assert (D : (exists k, (k < n)%nat /\ x (S k) <> 0) \/ (forall k, (k < n)%nat -> x (S k) = 0)).
      { clear. induction n as [|n IHn]; [right; intros; lia|]. destruct IHn as [(k&Hk&Nk)|Z]; [left; exists k; auto|].
        destruct (Req_EM_T (x (S n)) 0) as [E|E]; [|left; exists n; auto]. right. intros k Hk. destruct (Nat.eq_dec k n); [subst; auto|apply Z; lia]. }
      destruct D as [(k&Hk&Nk)|Z].
      * assert (0 < quad n (schur p rest) (fun i => x (S i))) by (apply PD; exists k; auto). lra.
      * assert (B0 : b = 0). { unfold b. rewrite (sumto_ext _ _ (fun _ => 0)); [rewrite sumto_const; ring|]. intros j Hj. rewrite Z by auto. ring. }
        assert (Q1 : quad n (schur p rest) (fun i => x (S i)) = 0).
        { unfold quad. rewrite (sumto_ext _ _ (fun _ => 0)); [rewrite sumto_const; ring|]. intros k Hk. rewrite (sumto_ext _ _ (fun _ => 0)); [rewrite sumto_const; ring|]. intros j Hj. rewrite Z by auto. ring. }
        rewrite Q1, B0. assert (N0 : x 0%nat <> 0) by (destruct i; [auto|rewrite Z in Ni by lia; contradiction]).
        replace (x 0%nat + 0 / p) with (x 0%nat) by (unfold Rdiv; ring). pose proof (Rsqr_pos_lt _ N0) as SP. unfold Rsqr in SP. rewrite Rplus_0_r. apply Rmult_lt_0_compat; auto.
    + intros PD. assert (PP : 0 < p).
      { specialize (PD (fun k => if (k =? 0)%nat then 1 else 0)). rewrite quad_split in PD.
        assert (E : forall (f : nat -> R) m, (forall k, f k = 0) -> sumto m f = 0) by (intros f m H; rewrite (sumto_ext _ _ (fun _ => 0)) by auto; rewrite sumto_const; ring).
        rewrite !E in PD. 2: intros; apply E. 2,3,4: intros; cbn; ring. cbn [Nat.eqb] in PD. fold p in PD.
        assert (0 < 1 * p * 1 + 0 + (0 + 0)) by (apply PD; exists 0%nat; split; [lia|cbn; lra]). lra. }
      destruct (Rltb_spec 0 p) as [_|]; [|exfalso; lra]. cbn [andb]. apply IS. intros x' (i&Hi&Ni).
      set (b := sumto n (fun j => ent (row :: rest) (S j) 0 * x' j)).
      specialize (PD (fun k => match k with O => - (b / p) | S k => x' k end)). rewrite (complete_square n row rest _ SQ SY) in PD by (fold p; lra). fold p in PD. cbv zeta beta iota in PD. fold b in PD.
      change (quad n (schur p rest) (fun i => x' i)) with (quad n (schur p rest) x') in PD.
      assert (0 < p * ((- (b / p) + b / p) * (- (b / p) + b / p)) + quad n (schur p rest) x') by (apply PD; exists (S i); split; [lia|auto]). replace (- (b / p) + b / p) with 0 in H by ring. lra.
Qed.

(** *** the symmetry test *)
Lemma in_combine_concat : forall {X} (A B : list (list X)) p d, length A = length B -> (forall i, (i < length A)%nat -> length (nth i A []) = length (nth i B [])) ->
  (In p (combine (concat A) (concat B)) <-> exists i j, (i < length A)%nat /\ (j < length (nth i A []))%nat /\ p = (nth j (nth i A []) d, nth j (nth i B []) d)).
Proof.
  intros X A. induction A as [|a A IH]; intros B p d L R1; destruct B as [|b B]; try discriminate.
  - cbn. split; [tauto|]. intros (i&j&Hi&_). lia.
  - cbn [concat]. pose proof (R1 0%nat ltac:(cbn; lia)) as L0. cbn [nth] in L0.
    assert (CA : combine (a ++ concat A) (b ++ concat B) = combine a b ++ combine (concat A) (concat B)).
    { clear -L0. revert b L0. induction a as [|x a IHa]; intros [|y b] H; try discriminate; cbn; auto. rewrite IHa by (cbn in H; lia). auto. }
    rewrite CA, in_app_iff. rewrite (IH B p d) by (try (cbn in L; lia); intros i Hi; apply (R1 (S i)); cbn; lia). split.
    + intros [H|(i&j&Hi&Hj&E)].
      * apply (In_nth _ _ (d, d)) in H. destruct H as (j&Hj&E). rewrite combine_nth in E by auto. rewrite combine_length in Hj. exists 0%nat, j. cbn [nth length]. split; [lia|]. split; [lia|auto].
      * exists (S i), j. cbn [nth length]. split; [lia|]. auto.
    + intros ([|i]&j&Hi&Hj&E); cbn [nth] in *.
      * left. subst p. rewrite <- combine_nth by auto. apply nth_In. rewrite combine_length. lia.
      * right. exists i, j. cbn [length] in Hi. split; [lia|]. auto.
Qed.
Lemma nabs_R : forall x : R, nabs x = Rabs x.
Proof. intros x. unfold nabs. rn. destruct (Rltb_spec x 0); [rewrite Rabs_left by lra; auto|rewrite Rabs_right by lra; auto]. Qed.
Lemma allclose_iff : forall n A, square n A -> (allclose_sym A = true <-> near_sym n A).
Proof.
  intros n A [L R1]. unfold allclose_sym. rewrite forallb_forall.
  assert (LT : length A = length (transpose 0 (length A) A)) by (rewrite transpose_length; auto).
  assert (RT : forall i, (i < length A)%nat -> length (nth i A []) = length (nth i (transpose 0 (length A) A) [])).
  { intros i Hi. rewrite transpose_row_length by auto. rewrite R1 by lia. auto. }
  assert (TOL : forall a b : R, nleb (nabs (nsub a b)) (nadd (npow (ndiv n1 (nof 10)) 8) (nmul (npow (ndiv n1 (nof 10)) 5) (nabs b))) = true <-> Rabs (a - b) <= (/ 10) ^ 8 + (/ 10) ^ 5 * Rabs b).
  { intros a b. rewrite nleb_true. rewrite !nabs_R. rewrite (npow_pow _ 8), (npow_pow _ 5). rn. replace (1 / INR 10) with (/ 10) by (cbn; lra). reflexivity. }
  split.
  - intros H i j Hi Hj. apply TOL. apply (H (ent A i j, ent A j i)). apply (in_combine_concat A (transpose 0 (length A) A) _ 0 LT RT).
    exists i, j. split; [lia|]. split; [rewrite R1; auto|]. unfold ent. rewrite transpose_entry by lia. auto.
  - intros H p Hp. apply (in_combine_concat A (transpose 0 (length A) A) _ 0 LT RT) in Hp. destruct Hp as (i&j&Hi&Hj&->). cbn [fst snd].
    rewrite L in Hi. rewrite R1 in Hj by auto. rewrite transpose_entry by lia. apply TOL. apply (H i j); auto.
Qed.
Lemma sym_near : forall n A, symmetric n A -> near_sym n A.
Proof.
  intros n A H i j Hi Hj. assert (E : ent A i j = ent A j i) by (apply H; auto). rewrite E. unfold Rminus. rewrite Rplus_opp_r, Rabs_R0.
  apply Rplus_le_le_0_compat; [apply pow_le; lra|]. apply Rmult_le_pos; [apply pow_le; lra|apply Rabs_pos].
Qed.
(** mirror of the lower triangle *)
Definition mirror (n : nat) (A : mat R) : mat R := Mx (fun i j => if (j <=? i)%nat then ent A i j else ent A j i) (seq 0 n) (seq 0 n).
Lemma mirror_ok : forall n A, square n (mirror n A) /\ symmetric n (mirror n A) /\ forall i j, (j <= i)%nat -> (i < n)%nat -> ent (mirror n A) i j = ent A i j.
Proof.
  intros n A. assert (E : forall i j, (i < n)%nat -> (j < n)%nat -> ent (mirror n A) i j = if (j <=? i)%nat then ent A i j else ent A j i).
  { intros i j Hi Hj. unfold ent at 1, mirror. rewrite nth_Mx with (dx := 0%nat) (dy := 0%nat) by (rewrite seq_length; auto). rewrite !seq_nth by auto. auto. }
  split; [unfold mirror; pose proof (len_Mx (fun i j => if (j <=? i)%nat then ent A i j else ent A j i) (seq 0 n) (seq 0 n)) as LM; rewrite seq_length in LM; exact LM|]. split.
  - intros i j Hi Hj. change (ent (mirror n A) i j = ent (mirror n A) j i). rewrite !E by auto. destruct (Nat.leb_spec j i); destruct (Nat.leb_spec i j); auto; [assert (i = j) by lia; subst; auto|lia].
  - intros i j Hji Hi. rewrite E by lia. destruct (Nat.leb_spec j i); auto; lia.
Qed.
Lemma is_pos_def_gen : forall n A, square n A -> (is_pos_def A = true <-> near_sym n A /\ pos_def n (mirror n A)).
Proof.
  intros n A SQ. destruct (mirror_ok n A) as (MS&MY&ML). unfold is_pos_def. rewrite Bool.andb_true_iff, (allclose_iff n A SQ). destruct SQ as [L R1]. rewrite L.
  rewrite (chol_lower n A (mirror n A)); [|split; auto|auto|intros; rewrite ML; auto]. rewrite (chol_pd n) by auto. reflexivity.
Qed.
Lemma quad_ext : forall n A B x, (forall i j, (i < n)%nat -> (j < n)%nat -> ent A i j = ent B i j) -> quad n A x = quad n B x.
Proof. intros n A B x H. unfold quad. apply sumto_ext. intros i Hi. apply sumto_ext. intros j Hj. specialize (H i j Hi Hj). unfold ent in H. rewrite H. auto. Qed.
Lemma p_C71 : forall n A, square n A ->
  (is_pos_def A = true <-> near_sym n A /\ exists B, square n B /\ symmetric n B /\ (forall i j, (j <= i)%nat -> (i < n)%nat -> nth j (nth i B []) 0 = nth j (nth i A []) 0) /\ pos_def n B) /\
  (symmetric n A -> (is_pos_def A = true <-> pos_def n A)).
Proof.
  intros n A SQ. destruct (mirror_ok n A) as (MS&MY&ML).
  assert (EQ : forall B, symmetric n B -> (forall i j, (j <= i)%nat -> (i < n)%nat -> nth j (nth i B []) 0 = nth j (nth i A []) 0) -> forall i j, (i < n)%nat -> (j < n)%nat -> ent B i j = ent (mirror n A) i j).
  { intros B BY BL i j Hi Hj. destruct (Nat.le_ge_cases j i) as [Q|Q].
    - rewrite ML by auto. apply BL; auto.
    - transitivity (ent B j i); [apply BY; auto|]. transitivity (ent (mirror n A) j i); [rewrite ML by auto; apply BL; auto|]. apply MY; auto. }
  split.
  - rewrite (is_pos_def_gen n A SQ). split; intros [NS H]; (split; [exact NS|]).
    + exists (mirror n A). split; [exact MS|]. split; [exact MY|]. split; [exact ML|exact H].
    + destruct H as (B&BS&BY&BL&PD). intros x Hx. rewrite <- (quad_ext n B) by (apply EQ; auto). apply PD; auto.
  - intros SY. rewrite (is_pos_def_gen n A SQ). assert (E2 := EQ A SY ltac:(auto)). split.
    + intros [_ H] x Hx. rewrite (quad_ext n A (mirror n A)) by auto. apply H; auto.
    + intros PD. split; [apply sym_near; auto|]. intros x Hx. rewrite <- (quad_ext n A (mirror n A)) by auto. apply PD; auto.
Qed.

(** *** lifting the diagonal *)
Lemma add_diag_row : forall c (G : mat R) i, (i < length G)%nat -> nth i (add_diag c G) [] = upd (nth i G []) i (nth i (nth i G []) 0 + c).
Proof.
  intros c G i Hi. unfold add_diag. rewrite nth_map_in with (d := (0%nat, [])) by (rewrite combine_length, seq_length; lia).
  rewrite combine_nth by (rewrite seq_length; auto). cbn [fst snd]. rewrite seq_nth by auto. reflexivity.
Qed.
Lemma add_diag_length : forall c (G : mat R), length (add_diag c G) = length G.
Proof. intros. unfold add_diag. rewrite map_length, combine_length, seq_length. lia. Qed.
Lemma add_diag_ok : forall n c G, square n G -> lifted n G c (add_diag c G).
Proof.
  intros n c G [L R1]. split.
  - split; [rewrite add_diag_length; auto|]. intros i Hi. rewrite add_diag_row by lia. rewrite upd_length. auto.
  - intros i j Hi Hj. rewrite add_diag_row by lia. destruct (Nat.eqb_spec i j) as [<-|N].
    + rewrite nth_upd_eq; auto. rewrite R1; auto.
    + rewrite nth_upd_neq by auto. lra.
Qed.
Lemma upd_twice : forall {X} (l : list X) i a b, upd (upd l i a) i b = upd l i b.
Proof. intros X. induction l as [|x l IH]; intros [|i] a b; cbn; auto. rewrite IH. auto. Qed.
Lemma upd_self : forall (l : list R) i, upd l i (nth i l 0) = l.
Proof. induction l as [|x l IH]; intros [|i]; cbn; auto. rewrite IH. auto. Qed.
Lemma upd_over : forall {X} (l : list X) i a, (length l <= i)%nat -> upd l i a = l.
Proof. intros X. induction l as [|x l IH]; intros [|i] a H; cbn in *; auto; [lia|]. rewrite IH by lia. auto. Qed.
Lemma add_diag_add : forall a b G, add_diag a (add_diag b G) = add_diag (b + a) G.
Proof.
  intros a b G. apply (nth_eq_ext _ _ []); [rewrite !add_diag_length; auto|]. intros i Hi. rewrite !add_diag_length in Hi.
  rewrite !add_diag_row by (rewrite ?add_diag_length; auto). rewrite upd_twice. destruct (Nat.lt_ge_cases i (length (nth i G []))) as [Q|Q].
  - rewrite nth_upd_eq by auto. f_equal. lra.
  - rewrite !upd_over by auto. auto.
Qed.
Lemma add_diag_0 : forall G, add_diag 0 G = G.
Proof.
  intros G. apply (nth_eq_ext _ _ []); [apply add_diag_length|]. intros i Hi. rewrite add_diag_length in Hi. rewrite add_diag_row by auto. rewrite Rplus_0_r. apply upd_self.
Qed.
(** total after k retries *)
Definition total_lift (eps : R) (k : nat) : R := match k with O => 0 | S j => 1000 * eps * 2 ^ j end.
Lemma lift_step : forall eps k, total_lift eps k + lift_amount eps k = total_lift eps (S k).
Proof.
  intros eps [|k]; unfold lift_amount, total_lift.
  - rn. change (INR 1000) with (INR (Z.to_nat 1000)). rewrite INR_IZR_INZ. rewrite Znat.Z2Nat.id by lia. cbn. lra.
  - pose proof (npow_pow (n1 + n1)%num (S k)) as P1. pose proof (npow_pow (n1 + n1)%num k) as P2. rewrite P1, P2. clear P1 P2. rn. replace (1 + 1) with 2 by lra. change (INR 1000) with (INR (Z.to_nat 1000)). rewrite INR_IZR_INZ. rewrite Znat.Z2Nat.id by lia. cbn [pow]. lra.
Qed.
Lemma retry_spec : forall {A} (attempt : mat R -> option A) eps G fuel k,
  match retry fuel attempt eps k (add_diag (total_lift eps k) G) with
  | Ok (G', r) => exists j, (k <= j <= k + fuel)%nat /\ G' = add_diag (total_lift eps j) G /\ attempt G' = Some r /\ forall i, (k <= i < j)%nat -> attempt (add_diag (total_lift eps i) G) = None
  | Err e => e = RecursionError /\ forall i, (k <= i <= k + fuel)%nat -> attempt (add_diag (total_lift eps i) G) = None
  end.
Proof.
  intros A attempt eps G. induction fuel as [|f IH]; intros k; cbn [retry]; destruct (attempt (add_diag (total_lift eps k) G)) as [r|] eqn:E.
  - exists k. split; [lia|]. split; auto. split; auto. intros; lia.
  - split; auto. intros i Hi. assert (i = k) by lia. subst. auto.
  - exists k. split; [lia|]. split; auto. split; auto. intros; lia.
  - specialize (IH (S k)). rewrite <- lift_step in IH. rewrite <- add_diag_add in IH.
    destruct (retry f attempt eps (S k) (add_diag (lift_amount eps k) (add_diag (total_lift eps k) G))) as [[G' r]|e].
    + destruct IH as (j&Hj&B&C&D). exists j. split; [lia|]. split; auto. split; auto. intros i Hi. destruct (Nat.eq_dec i k); [subst; auto|apply D; lia].
    + destruct IH as [B C]. split; auto. intros i Hi. destruct (Nat.eq_dec i k); [subst; auto|apply C; lia].
Qed.
Lemma p_C58 : forall n fuel eps G, square n G ->
  (~ near_sym n G -> update_til_psd fuel eps G = Err ValueError) /\
  (near_sym n G -> update_til_psd fuel eps G = Err RecursionError \/
    exists G', update_til_psd fuel eps G = Ok G' /\ is_pos_def G' = true /\
      ((is_pos_def G = true /\ G' = G) \/
       (is_pos_def G = false /\ exists k, lifted n G (1000 * eps * 2 ^ k) G' /\
          forall i M, (i < k)%nat -> lifted n G (1000 * eps * 2 ^ i) M -> is_pos_def M = false))).
Proof.
  intros n fuel eps G SQ. unfold update_til_psd. pose proof (allclose_iff n G SQ) as AI. split.
  - intros N. destruct (allclose_sym G); [exfalso; apply N; apply AI; auto|auto].
  - intros N. apply AI in N. rewrite N. cbn [negb].
    pose proof (retry_spec (fun M => if is_pos_def M then Some tt else None) eps G fuel 0) as RS. unfold total_lift at 1 in RS. rewrite add_diag_0 in RS.
    destruct (retry fuel (fun M => if is_pos_def M then Some tt else None) eps 0 G) as [[G' r]|e]; cbn [bind].
    + right. destruct RS as (j&Hj&B&C&D). exists G'. split; auto. destruct (is_pos_def G') eqn:PG; [|discriminate]. split; auto.
      destruct j as [|k].
      * left. unfold total_lift in B. rewrite add_diag_0 in B. subst G'. auto.
      * right. split. { specialize (D 0%nat ltac:(lia)). unfold total_lift in D. rewrite add_diag_0 in D. destruct (is_pos_def G); [discriminate|auto]. }
        exists k. split; [rewrite B; apply (add_diag_ok n); auto|]. intros i M Hi LM.
        assert (M = add_diag (total_lift eps (S i)) G) as ->.
        { destruct (add_diag_ok n (total_lift eps (S i)) G SQ) as [[L2 R2] V2]. destruct LM as [[L3 R3] V3]. apply (nth_eq_ext _ _ []); [congruence|]. intros a Ha. rewrite L3 in Ha.
          apply (nth_eq_ext _ _ 0); [rewrite R2, R3; auto|]. intros b Hb. rewrite R3 in Hb by auto. rewrite V2, V3 by auto. reflexivity. }
        specialize (D (S i) ltac:(lia)). cbv beta in D. destruct (is_pos_def (add_diag (total_lift eps (S i)) G)); [discriminate D|auto].
    + left. destruct RS as [-> _]. auto.
Qed.
(** termination *)
Lemma quad_bound : forall n (A : mat R), exists M, 0 <= M /\ forall x, - (M * sumto n (fun i => x i * x i)) <= quad n A x.
Proof.
  intros n A. exists (sumto n (fun i => sumto n (fun j => Rabs (ent A i j)))).
  assert (NN : forall i, 0 <= sumto n (fun j => Rabs (ent A i j))) by (intros; apply sumto_nonneg; intros; apply Rabs_pos).
  split; [apply sumto_nonneg; intros; apply NN|]. intros x. set (s := sumto n (fun i => x i * x i)).
  assert (XS : forall i, (i < n)%nat -> x i * x i <= s). { intros i Hi. apply (sumto_elem_le n (fun i => x i * x i)); auto. intros; apply Rle_0_sqr. }
  replace (- (sumto n (fun i => sumto n (fun j => Rabs (ent A i j))) * s)) with (sumto n (fun i => sumto n (fun j => Rabs (ent A i j) * (- s)))).
  - unfold quad. apply sumto_le. intros i Hi. apply sumto_le. intros j Hj. change (nth j (nth i A []) 0) with (ent A i j).
    pose proof (XS i Hi) as A1. pose proof (XS j Hj) as A2.
    assert (B1 : - s <= x i * x j <= s). { pose proof (Rle_0_sqr (x i + x j)) as P1. pose proof (Rle_0_sqr (x i - x j)) as P2. unfold Rsqr in *. split; lra. }
    pose proof (Rabs_pos (ent A i j)) as P. unfold Rabs in *. destruct (Rcase_abs (ent A i j)) as [Ng|Ng].
    + replace (x i * ent A i j * x j) with (- ent A i j * (- (x i * x j))) by ring. apply Rmult_le_compat_l; lra.
    + replace (x i * ent A i j * x j) with (ent A i j * (x i * x j)) by ring. apply Rmult_le_compat_l; lra.
  - rewrite (sumto_ext n _ (fun i => sumto n (fun j => Rabs (ent A i j)) * - s)) by (intros; apply sumto_scal_r). rewrite sumto_scal_r. ring.
Qed.
Lemma quad_lift : forall n G c G' x, lifted n G c G' -> quad n G' x = quad n G x + c * sumto n (fun i => x i * x i).
Proof.
  intros n G c G' x [_ V]. unfold quad. rewrite <- sumto_scal, <- sumto_plus. apply sumto_ext. intros i Hi.
  transitivity (sumto n (fun j => x i * nth j (nth i G []) 0 * x j + (if (i =? j)%nat then c * (x i * x i) else 0))).
  - apply sumto_ext. intros j Hj. rewrite V by auto. destruct (Nat.eqb_spec i j) as [<-|]; ring.
  - rewrite sumto_plus. f_equal. rewrite (sumto_single _ _ i); auto; [rewrite Nat.eqb_refl; auto|]. intros j Hj N. destruct (Nat.eqb_spec i j); [congruence|auto].
Qed.
Lemma p_C58_terminates : forall n eps G, square n G -> near_sym n G -> 0 < eps -> exists fuel0, forall fuel, (fuel0 <= fuel)%nat -> exists G', update_til_psd fuel eps G = Ok G'.
Proof.
  intros n eps G SQ NS PE. destruct (quad_bound n (mirror n G)) as (M&MP&QB).
  assert (BIG : exists k, M < 1000 * eps * 2 ^ k).
  { destruct (Pow_x_infinity 2 ltac:(rewrite Rabs_right; lra) (M / (1000 * eps) + 1)) as (k&Hk). specialize (Hk k (le_n k)). exists k.
    rewrite Rabs_right in Hk by (apply Rle_ge, pow_le; lra). assert (M / (1000 * eps) < 2 ^ k) by lra. apply (Rmult_lt_compat_r (1000 * eps)) in H; [|lra].
    unfold Rdiv in H. rewrite Rmult_assoc, Rinv_l in H by lra. lra. }
  destruct BIG as (k&Hk). exists (S k). intros fuel Hf.
  assert (ACC : is_pos_def (add_diag (total_lift eps (S k)) G) = true).
  { destruct (add_diag_ok n (total_lift eps (S k)) G SQ) as [S2 V2]. apply (is_pos_def_gen n _ S2). split.
    - intros i j Hi Hj. unfold ent. rewrite !V2 by auto. destruct (Nat.eqb_spec i j) as [<-|N].
      + rewrite Nat.eqb_refl. unfold Rminus. rewrite Rplus_opp_r, Rabs_R0. apply Rplus_le_le_0_compat; [apply pow_le; lra|]. apply Rmult_le_pos; [apply pow_le; lra|apply Rabs_pos].
      + destruct (Nat.eqb_spec j i); [congruence|]. rewrite !Rplus_0_r. apply NS; auto.
    - intros x (i&Hi&Ni). destruct (mirror_ok n G) as (MS&MY&ML). destruct (mirror_ok n (add_diag (total_lift eps (S k)) G)) as (MS'&MY'&ML').
      assert (LF : lifted n (mirror n G) (total_lift eps (S k)) (mirror n (add_diag (total_lift eps (S k)) G))).
      { split; auto. assert (LO : forall a b, (b <= a)%nat -> (a < n)%nat -> ent (mirror n (add_diag (total_lift eps (S k)) G)) a b = ent (mirror n G) a b + (if (a =? b)%nat then total_lift eps (S k) else 0)).
        { intros a b Hab Ha. rewrite ML, ML' by auto. apply V2; lia. }
        intros a b Ha Hb. destruct (Nat.le_ge_cases b a) as [Q|Q]; [apply LO; auto|].
        transitivity (ent (mirror n (add_diag (total_lift eps (S k)) G)) b a); [apply MY'; auto|]. rewrite LO by auto. rewrite Nat.eqb_sym. f_equal. apply MY; auto. }
      rewrite (quad_lift n _ _ _ x LF). specialize (QB x). unfold total_lift at 1.
      assert (0 < sumto n (fun i => x i * x i)). { apply Rlt_le_trans with (x i * x i); [apply Rsqr_pos_lt; auto|]. apply (sumto_elem_le n (fun i => x i * x i)); auto. intros; apply Rle_0_sqr. }
      set (s := sumto n (fun i => x i * x i)) in *. assert (M * s < 1000 * eps * 2 ^ k * s) by (apply Rmult_lt_compat_r; auto). lra. }
  unfold update_til_psd. rewrite (proj2 (allclose_iff n G SQ) NS). cbn [negb].
  pose proof (retry_spec (fun M => if is_pos_def M then Some tt else None) eps G fuel 0) as RS. unfold total_lift at 1 in RS. rewrite add_diag_0 in RS.
  destruct (retry fuel (fun M => if is_pos_def M then Some tt else None) eps 0 G) as [[G' r]|e]; cbn [bind]; eauto.
  exfalso. destruct RS as [_ Z]. specialize (Z (S k) ltac:(lia)). cbv beta in Z. rewrite ACC in Z. discriminate.
Qed.
