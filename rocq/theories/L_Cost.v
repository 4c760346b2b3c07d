(** L_Cost: the cost of the smoother is a sum of weighted squares. *)
From Coq Require Import Reals Lra Lia.
From Verif Require Import Base TreeSpec Spec SpecTorch M_Grad L_Base L_Gamma2 L_Clean2 L_Grad L_Torch4.
Local Open Scope R_scope.

Lemma fills_err : forall (G E : list (list R)) l i, length G = length E -> (i < length G)%nat -> dot (nth i E []) l = 0 -> dot (nth i G []) l <> 0 ->
  fills G E l = Err AssertionError.
Proof.
  intros G E l i LE Hi Z NZ. unfold fills. destruct (zero_ok (mv G l) (mv E l)) eqn:Q; auto. exfalso. apply NZ.
  rewrite zero_ok_spec in Q by (rewrite !mv_length; auto). specialize (Q i). rewrite !mv_nth, mv_length in Q. auto.
Qed.

Lemma p_C62_cost : forall (y w lam : list R) (G E : list (list R)), length w = length y -> length G = length y -> length E = length y ->
  ((forall i, (i < length y)%nat -> exists v, row_value (nth i G []) (nth i E []) lam v) ->
   exists p c, length p = length y /\ (forall i, (i < length y)%nat -> row_value (nth i G []) (nth i E []) lam (nth i p 0)) /\
     calc_cost y G E w lam = Ok c /\ c = sumto (length y) (fun i => nth i w 0 * (nth i y 0 - nth i p 0) ^ 2) /\
     ((forall x, In x w -> 0 <= x) -> 0 <= c /\ (c = 0 <-> forall i, (i < length y)%nat -> 0 < nth i w 0 -> nth i y 0 = nth i p 0))) /\
  (forall i, (i < length y)%nat -> (forall v, ~ row_value (nth i G []) (nth i E []) lam v) -> calc_cost y G E w lam = Err AssertionError).
Proof.
  intros y w lam G E Lw LG LE. split.
  - intros H. pose (p := map (fun i => Gv G lam i / Ev E lam i) (seq 0 (length y))).
    assert (NP : forall i, (i < length y)%nat -> nth i p 0 = Gv G lam i / Ev E lam i).
    { intros i Hi. unfold p. rewrite nth_map_seq by auto. reflexivity. }
    assert (OK : forall i, (i < length y)%nat -> dot (nth i E []) lam = 0 -> dot (nth i G []) lam = 0).
    { intros i Hi Z. destruct (H i Hi) as (v&[(N&_)|(_&A&_)]); rewrite <- dot_rowsum in *; congruence. }
    exists p, (sumto (length y) (fun i => nth i w 0 * (nth i y 0 - nth i p 0) ^ 2)).
    split; [unfold p; rewrite map_length, seq_length; auto|]. split.
    { intros i Hi. rewrite NP by auto. unfold row_value, Gv, Ev. cbn zeta. rewrite <- !dot_rowsum.
      destruct (Req_EM_T (dot (nth i E []) lam) 0) as [Z|NZ]; [right|left]; auto. rewrite (OK i Hi Z). repeat split; auto. lra. }
    split.
    { rewrite (calc_cost_val y w G E (length y)) by auto. f_equal. rewrite nsum_sumto, map_length, seq_length. apply sumto_ext. intros i Hi.
      rewrite nth_map_seq by auto. cbn [Nat.add]. rewrite NP by auto. ring. }
    split; [reflexivity|]. intros W.
    assert (P0 : forall i, (i < length y)%nat -> 0 <= nth i w 0 * (nth i y 0 - nth i p 0) ^ 2).
    { intros i Hi. apply Rmult_le_pos; [apply W, nth_In; lia|apply pow2_ge_0]. }
    split; [apply sumto_nonneg; auto|]. split.
    + intros Z i Hi Wi. pose proof (sumto_zero_all _ _ P0 Z i Hi) as Q. cbn beta in Q. apply Rmult_integral in Q. destruct Q as [Q|Q]; [lra|].
      destruct (Req_dec (nth i y 0 - nth i p 0) 0) as [|NZ]; [lra|]. exfalso. apply (pow_nonzero _ 2) in NZ. lra.
    + intros Q. apply sumto_zero. intros i Hi. destruct (Rtotal_order (nth i w 0) 0) as [L|[Z|P]].
      * exfalso. assert (In (nth i w 0) w) by (apply nth_In; lia). apply W in H0. lra.
      * rewrite Z. ring.
      * rewrite (Q i Hi P). ring.
  - intros i Hi N. unfold calc_cost. rewrite (fills_err G E lam i); auto; try lia.
    + destruct (Req_EM_T (dot (nth i E []) lam) 0) as [Z|NZ]; auto. exfalso.
      apply (N (dot (nth i G []) lam / dot (nth i E []) lam)). left. rewrite <- !dot_rowsum. auto.
    + intros A. destruct (Req_EM_T (dot (nth i E []) lam) 0) as [Z|NZ].
      * apply (N 0). right. rewrite <- !dot_rowsum. auto.
      * apply (N (dot (nth i G []) lam / dot (nth i E []) lam)). left. rewrite <- !dot_rowsum. auto.
Qed.
