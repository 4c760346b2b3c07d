(** L_Grad: the gradients are derivatives of the costs; Adam moments. *)
From Verif Require Import Base TreeSpec Spec M_Gamma M_Prox M_Grad M_Sgd L_Base L_Gamma L_Gamma2 L_Sgd.
From Coq Require Import Reals Lra.
Local Open Scope R_scope.

Lemma dot_upd : forall (r l : list R) k x, (k < length l)%nat ->
  dot r (upd l k x) = dot r l + nth k r 0 * (x - nth k l 0).
Proof.
  induction r; intros l k x H.
  - rewrite !dot_nil_l. destruct k; simpl; lra.
  - destruct l as [|b l]; [simpl in H; lia|]. destruct k; cbn [upd nth].
    + rewrite !dot_cons. lra.
    + rewrite !dot_cons, IHr by (simpl in H; lia). lra.
Qed.

Lemma derivable_nsum : forall {A} (f : A -> R -> R) (d : A -> R) x (l : list A),
  (forall a, In a l -> derivable_pt_lim (f a) x (d a)) ->
  derivable_pt_lim (fun z => nsum (map (fun a => f a z) l)) x (nsum (map d l)).
Proof.
  induction l; intros H; cbn [map].
  - apply (derivable_pt_lim_const 0).
  - apply (derivable_pt_lim_plus (f a) (fun z => nsum (map (fun a => f a z) l)));
      [apply H; left; auto|apply IHl; intros; apply H; right; auto].
Qed.

Lemma derivable_ext : forall f g x d, (forall z, f z = g z) -> derivable_pt_lim f x d -> derivable_pt_lim g x d.
Proof.
  intros f g x d E H eps He. destruct (H eps He) as [dl Hd]. exists dl. intros h H1 H2.
  rewrite <- !E. auto.
Qed.

Lemma derivable_val : forall f x d d', derivable_pt_lim f x d -> d = d' -> derivable_pt_lim f x d'.
Proof. intros; subst; auto. Qed.

Lemma derivable_affine : forall a b x0 x, derivable_pt_lim (fun z => a + b * (z - x0)) x b.
Proof.
  intros. apply derivable_val with (0 + (b * (1 - 0))); [|ring].
  apply (derivable_pt_lim_plus (fun _ => a) (fun z => b * (z - x0))); [apply derivable_pt_lim_const|].
  apply (derivable_pt_lim_scal (fun z => z - x0)).
  apply (derivable_pt_lim_minus (fun z => z) (fun _ => x0)); [apply derivable_pt_lim_id|apply derivable_pt_lim_const].
Qed.

Lemma derivable_ratio : forall a b c d x0, c <> 0 ->
  derivable_pt_lim (fun z => (a + b * (z - x0)) / (c + d * (z - x0))) x0 ((b * c - a * d) / (c * c)).
Proof.
  intros a b c d x0 H.
  assert (E : c + d * (x0 - x0) <> 0) by (replace (c + d * (x0 - x0)) with c by ring; auto).
  pose proof (derivable_pt_lim_div (fun z => a + b * (z - x0)) (fun z => c + d * (z - x0)) x0 b d
     (derivable_affine _ _ _ _) (derivable_affine _ _ _ _) E) as D.
  eapply derivable_val; [exact D|].
  replace (c + d * (x0 - x0)) with c by ring. unfold Rsqr. field. auto.
Qed.

(** a finite family of affine functions that are non-zero (or positive) at x0
    stays so near x0 *)
Lemma affine_nonzero : forall c d x0, c <> 0 -> exists dl, 0 < dl /\
  forall x, Rabs (x - x0) < dl -> c + d * (x - x0) <> 0 /\ (0 < c -> 0 < c + d * (x - x0)).
Proof.
  intros c d x0 H. assert (C : 0 < Rabs c) by (apply Rabs_pos_lt; auto).
  assert (D : 0 < 1 + Rabs d) by (pose proof (Rabs_pos d); lra).
  exists (Rabs c / (1 + Rabs d)). split; [apply Rdiv_lt_0_compat; auto|].
  intros x Hx.
  assert (B : Rabs (d * (x - x0)) < Rabs c).
  { rewrite Rabs_mult. apply Rle_lt_trans with ((1 + Rabs d) * Rabs (x - x0)).
    - apply Rmult_le_compat_r; [apply Rabs_pos|]. pose proof (Rabs_pos d); lra.
    - apply Rmult_lt_compat_l with (r := 1 + Rabs d) in Hx; auto.
      replace ((1 + Rabs d) * (Rabs c / (1 + Rabs d))) with (Rabs c) in Hx by (field; lra). auto. }
  set (e := d * (x - x0)) in *. unfold Rabs in B. destruct (Rcase_abs e), (Rcase_abs c); lra.
Qed.

Lemma finite_delta : forall {A} (Pr : A -> R -> Prop) (l : list A),
  (forall a, In a l -> exists dl, 0 < dl /\ forall h, h < dl -> Pr a h) ->
  exists dl, 0 < dl /\ forall h, h < dl -> forall a, In a l -> Pr a h.
Proof.
  induction l; intros H.
  - exists 1. split; [lra|]. intros h _ a [].
  - destruct (H a (or_introl eq_refl)) as (d1&P1&Q1).
    destruct IHl as (d2&P2&Q2); [intros; apply H; right; auto|].
    exists (Rmin d1 d2). split; [apply Rmin_pos; auto|]. intros h Hh b [<-|Hb].
    + apply Q1. pose proof (Rmin_l d1 d2). lra.
    + apply Q2; auto. pose proof (Rmin_r d1 d2). lra.
Qed.

(** *** descriptions with indices *)
Definition Gv (G : mat R) (l : list R) (i : nat) : R := dot (nth i G []) l.
Definition Ev (E : mat R) (l : list R) (i : nat) : R :=
  if Req_EM_T (dot (nth i E []) l) 0 then 1 else dot (nth i E []) l.

Lemma mv_nth : forall (M : mat R) l i, nth i (mv M l) 0 = dot (nth i M []) l.
Proof.
  intros. unfold mv. destruct (Nat.lt_ge_cases i (length M)).
  - rewrite nth_map_in with (d := []) by auto. auto.
  - rewrite !nth_overflow by (rewrite ?map_length; auto). rewrite dot_nil_l. auto.
Qed.
Lemma mv_length : forall (M : mat R) l, length (mv M l) = length M.
Proof. intros. apply map_length. Qed.
Lemma fill1_length : forall l : list R, length (fill1 l) = length l.
Proof. intros. apply map_length. Qed.
Lemma fill1_nth : forall (l : list R) i, (i < length l)%nat ->
  nth i (fill1 l) 0 = if Req_EM_T (nth i l 0) 0 then 1 else nth i l 0.
Proof.
  intros. unfold fill1. rewrite nth_map_in with (d := 0) by auto. rn.
  destruct (Reqb_spec (nth i l 0) 0), (Req_EM_T (nth i l 0) 0); try lra; congruence.
Qed.

Lemma zero_ok_spec : forall Gf Ef : list R, length Gf = length Ef ->
  (zero_ok Gf Ef = true <-> forall i, (i < length Gf)%nat -> nth i Ef 0 = 0 -> nth i Gf 0 = 0).
Proof.
  intros Gf Ef LE. unfold zero_ok. rewrite forallb_forall. split; intros H.
  - intros i Hi Z. specialize (H (nth i (map2 (fun g e => if neqb e n0 then neqb g n0 else true) Gf Ef) true)).
    rewrite nth_map2 with (da := 0) (db := 0) in H by lia.
    rn. rewrite (Reqb_true (nth i Ef 0) 0 Z) in H.
    destruct (Reqb_spec (nth i Gf 0) 0); auto. exfalso.
    assert (X : false = true).
    { apply H. rewrite <- (Reqb_false (nth i Gf 0) 0) by auto.
      replace (Reqb (nth i Gf 0) 0) with (nth i (map2 (fun g e => if Reqb e 0 then Reqb g 0 else true) Gf Ef) true).
      - apply nth_In. rewrite map2_length. lia.
      - rewrite nth_map2 with (da := 0) (db := 0) by lia. rewrite (Reqb_true (nth i Ef 0) 0 Z). auto. }
    discriminate.
  - intros b Hb. destruct (In_nth _ _ true Hb) as (i&Hi&<-). rewrite map2_length in Hi.
    rewrite nth_map2 with (da := 0) (db := 0) by lia. rn.
    destruct (Reqb_spec (nth i Ef 0) 0); auto. apply Reqb_true. apply H; auto. lia.
Qed.

Lemma fills_ok : forall (G E : mat R) l, length G = length E ->
  (forall i, (i < length G)%nat -> dot (nth i E []) l = 0 -> dot (nth i G []) l = 0) ->
  fills G E l = Ok (mv G l, fill1 (mv E l)).
Proof.
  intros G E l LE H. unfold fills.
  replace (zero_ok (mv G l) (mv E l)) with true; auto. symmetry. apply zero_ok_spec; rewrite ?mv_length; auto.
  intros i Hi. rewrite !mv_nth. auto.
Qed.

Section D.
Variables (y w : list R) (G E : mat R) (n : nat).
Hypotheses (Ly : length y = n) (Lw : length w = n) (LG : length G = n) (LE : length E = n).

Lemma calc_cost_val : forall l,
  (forall i, (i < n)%nat -> dot (nth i E []) l = 0 -> dot (nth i G []) l = 0) ->
  calc_cost y G E w l = Ok (nsum (map (fun i => (nth i y 0 - Gv G l i / Ev E l i) * (nth i y 0 - Gv G l i / Ev E l i) * nth i w 0) (seq 0 n))).
Proof.
  intros l H. unfold calc_cost. rewrite fills_ok by (rewrite ?LG, ?LE; auto). cbn [bind]. f_equal. f_equal.
  rewrite map2_as_seq with (da := 0) (db := 0) by (rewrite !map2_length, mv_length, fill1_length, mv_length; lia).
  rewrite !map2_length, mv_length, fill1_length, mv_length, Ly, LG, LE, !Nat.min_id.
  apply map_ext_in. intros i Hi. apply in_seq in Hi.
  rewrite nth_map2 with (da := 0) (db := 0) by (rewrite ?map2_length, ?mv_length, ?fill1_length, ?mv_length; lia).
  rewrite nth_map2 with (da := 0) (db := 0) by (rewrite ?mv_length, ?fill1_length, ?mv_length; lia).
  rewrite fill1_nth by (rewrite mv_length; lia). rewrite !mv_nth. rn. reflexivity.
Qed.

Lemma col_nth : forall (M : mat R) k i, nth i (col k M) 0 = nth k (nth i M []) 0.
Proof.
  intros. unfold col. destruct (Nat.lt_ge_cases i (length M)).
  - rewrite nth_map_in with (d := []) by auto. auto.
  - rewrite nth_overflow by (rewrite ?map_length; auto). rewrite (nth_overflow M) by auto. destruct k; reflexivity.
Qed.
Lemma col_length : forall (M : mat R) k, length (col k M) = length M.
Proof. intros. apply map_length. Qed.

Lemma take_gradient_val : forall l,
  (forall i, (i < n)%nat -> dot (nth i E []) l = 0 -> dot (nth i G []) l = 0) ->
  exists g, take_gradient y G E w l = Ok g /\ length g = length l /\
  forall k, (k < length l)%nat -> nth k g 0 =
    nsum (map (fun i => - 2 * ((nth i y 0 - Gv G l i / Ev E l i) * nth i w 0) *
       (1 / Ev E l i * nth k (nth i G []) 0 - Gv G l i / (Ev E l i * Ev E l i) * nth k (nth i E []) 0)) (seq 0 n)).
Proof.
  intros l H. unfold take_gradient. rewrite fills_ok by (rewrite ?LG, ?LE; auto). cbn [bind].
  eexists. split; [reflexivity|]. split; [rewrite map_length, seq_length; auto|].
  intros k Hk. rewrite nth_map_seq by auto. cbn [Nat.add].
  rewrite map2_as_seq with (da := 0) (db := 0) by
    (rewrite ?map2_length, ?mv_length, ?fill1_length, ?mv_length, ?col_length, ?map2_length, ?mv_length, ?fill1_length, ?mv_length; lia).
  match goal with |- context [seq 0 ?a] => replace a with n
    by (rewrite ?map2_length, ?mv_length, ?fill1_length, ?mv_length; lia) end.
  rn. rewrite <- nsum_scal.
  match goal with |- - nsum (map ?f ?s) = _ => replace (- nsum (map f s)) with (-1 * nsum (map f s)) by ring end.
  rewrite <- nsum_scal. apply nsum_ext. intros i Hi. apply in_seq in Hi.
  assert (LL : (i < length (mv G l))%nat /\ (i < length (mv E l))%nat /\ (i < length (fill1 (mv E l)))%nat).
  { rewrite fill1_length, !mv_length. lia. }
  destruct LL as (L1&L2&L3).
  rewrite !nth_map2 with (da := 0) (db := 0) by
    (rewrite ?map2_length, ?col_length, ?map2_length; lia).
  rewrite fill1_nth by auto. rewrite !mv_nth, !col_nth. fold (Ev E l i). fold (Gv G l i). rn. ring.
Qed.
End D.

(** *** C23 *)

(** the row has mass, or is empty throughout *)
Definition row_regular (G E : mat R) (l : list R) (i : nat) : Prop :=
  dot (nth i E []) l <> 0 \/ ((forall x, In x (nth i E []) -> x = 0) /\ (forall x, In x (nth i G []) -> x = 0)).

Lemma dot_zero_l : forall (a b : list R), (forall x, In x a -> x = 0) -> dot a b = 0.
Proof.
  induction a; intros b H; [apply dot_nil_l|]. destruct b; [apply dot_nil_r|].
  rewrite dot_cons, (H a (or_introl eq_refl)), IHa by (intros; apply H; right; auto). lra.
Qed.
Lemma nth_zero_l : forall (a : list R) k, (forall x, In x a -> x = 0) -> nth k a 0 = 0.
Proof. intros. destruct (nth_in_or_default k a 0); auto. Qed.

Lemma take_gradient_derivative : forall (y w : list R) (G E : mat R) (l : list R) k,
  length w = length y -> length G = length y -> length E = length y -> (k < length l)%nat ->
  (forall i, (i < length y)%nat -> row_regular G E l i) ->
  exists g f delta, take_gradient y G E w l = Ok g /\ length g = length l /\ 0 < delta /\
    (forall x, Rabs (x - nth k l 0) < delta -> calc_cost y G E w (upd l k x) = Ok (f x)) /\
    derivable_pt_lim f (nth k l 0) (nth k g 0).
Proof.
  intros y w G E l k Lw LG LE Hk RR. set (n := length y) in *.
  destruct (take_gradient_val y w G E n eq_refl Lw LG LE l) as (g&Eg&Lg&Vg).
  { intros i Hi Z. destruct (RR i Hi) as [A|[A B]]; [contradiction|]. apply dot_zero_l; auto. }
  set (x0 := nth k l 0).
  set (f := fun x => nsum (map (fun i =>
     let q := if Req_EM_T (dot (nth i E []) l) 0 then 0
              else (dot (nth i G []) l + nth k (nth i G []) 0 * (x - x0)) /
                   (dot (nth i E []) l + nth k (nth i E []) 0 * (x - x0)) in
     (nth i y 0 - q) * (nth i y 0 - q) * nth i w 0) (seq 0 n))).
  destruct (finite_delta (fun i h => forall x, Rabs (x - x0) = h -> dot (nth i E []) l <> 0 ->
       dot (nth i E []) l + nth k (nth i E []) 0 * (x - x0) <> 0) (seq 0 n)) as (dl&Pd&Qd).
  { intros i Hi. destruct (Req_EM_T (dot (nth i E []) l) 0) as [Z|Z].
    - exists 1. split; [lra|]. intros; contradiction.
    - destruct (affine_nonzero _ (nth k (nth i E []) 0) x0 Z) as (d&P1&P2).
      exists d. split; auto. intros h Hh x Hx _. apply P2. lra. }
  exists g, f, dl. split; auto. split; auto. split; auto. split.
  - intros x Hx.
    assert (DE : forall i, dot (nth i E []) (upd l k x) = dot (nth i E []) l + nth k (nth i E []) 0 * (x - x0))
      by (intros; apply dot_upd; auto).
    assert (DG : forall i, dot (nth i G []) (upd l k x) = dot (nth i G []) l + nth k (nth i G []) 0 * (x - x0))
      by (intros; apply dot_upd; auto).
    rewrite (calc_cost_val y w G E n); auto.
    + f_equal. unfold f. apply nsum_ext. intros i Hi. pose proof Hi as Hi'. apply in_seq in Hi.
      unfold Gv, Ev. rewrite DE, DG.
      destruct (Req_EM_T (dot (nth i E []) l) 0) as [Z|Z].
      * destruct (RR i ltac:(lia)) as [A|[A B]]; [contradiction|].
        rewrite (dot_zero_l (nth i G []) l B), (nth_zero_l (nth i G []) k B). rewrite Rmult_0_l, Rplus_0_l.
        unfold Rdiv. rewrite Rmult_0_l. reflexivity.
      * destruct (Req_EM_T _ 0) as [Z2|_]; [|reflexivity].
        exfalso. revert Z2. apply (Qd (Rabs (x - x0))); auto.
    + intros i Hi. rewrite DE, DG. intros Z. destruct (RR i Hi) as [A|[A B]].
      * exfalso. revert Z. apply (Qd (Rabs (x - x0))); auto. apply in_seq. lia.
      * rewrite (dot_zero_l (nth i G []) l B), (nth_zero_l (nth i G []) k B). lra.
  - rewrite (Vg k Hk). unfold f.
    apply (derivable_nsum (fun i x => let q := if Req_EM_T (dot (nth i E []) l) 0 then 0
              else (dot (nth i G []) l + nth k (nth i G []) 0 * (x - x0)) /
                   (dot (nth i E []) l + nth k (nth i E []) 0 * (x - x0)) in
     (nth i y 0 - q) * (nth i y 0 - q) * nth i w 0)).
    intros i Hi. apply in_seq in Hi. cbv zeta. unfold Gv, Ev.
    destruct (Req_EM_T (dot (nth i E []) l) 0) as [Z|Z].
    + destruct (RR i ltac:(lia)) as [A|[A B]]; [contradiction|].
      rewrite (dot_zero_l (nth i G []) l B), (nth_zero_l (nth i G []) k B), (nth_zero_l (nth i E []) k A).
      eapply derivable_val; [apply (derivable_pt_lim_const ((nth i y 0 - 0) * (nth i y 0 - 0) * nth i w 0))|].
      unfold Rdiv. ring.
    + set (a := dot (nth i G []) l). set (b := nth k (nth i G []) 0).
      set (c := dot (nth i E []) l). set (d := nth k (nth i E []) 0).
      assert (DQ : derivable_pt_lim (fun x => nth i y 0 - (a + b * (x - x0)) / (c + d * (x - x0))) x0
                (0 - (b * c - a * d) / (c * c))).
      { apply (derivable_pt_lim_minus (fun _ => nth i y 0) (fun x => (a + b * (x - x0)) / (c + d * (x - x0))));
          [apply derivable_pt_lim_const|apply derivable_ratio; auto]. }
      pose proof (derivable_pt_lim_mult _ _ _ _ _ DQ DQ) as DM.
      pose proof (derivable_pt_lim_scal _ (nth i w 0) _ _ DM) as DS.
      eapply derivable_val; [eapply derivable_ext; [|exact DS]|].
      * intros z. unfold mult_real_fct, mult_fct. ring.
      * cbv beta. replace (x0 - x0) with 0 by ring. rewrite !Rmult_0_r, !Rplus_0_r. field. auto.
Qed.

(** *** C24 *)
Lemma take_gradient_ce_derivative : forall (p w : list R) (G E : mat R) (l : list R) k,
  length w = length p -> length G = length p -> length E = length p -> (k < length l)%nat ->
  (forall i, (i < length p)%nat -> 0 < dot (nth i E []) l /\ 0 < dot (nth i G []) l) ->
  exists g f delta, take_gradient_ce p G E w l = Ok g /\ length g = length l /\ 0 < delta /\
    (forall x, Rabs (x - nth k l 0) < delta -> calc_cost_ce ln p G E w (upd l k x) = f x) /\
    derivable_pt_lim f (nth k l 0) (nth k g 0).
Proof.
  intros p w G E l k Lw LG LE Hk RR. set (n := length p) in *.
  set (x0 := nth k l 0).
  assert (EZ : forall i, (i < n)%nat -> dot (nth i E []) l <> 0) by (intros i Hi; destruct (RR i Hi); lra).
  set (f := fun x => nsum (map (fun i =>
     nth i w 0 * nth i p 0 * - ln ((dot (nth i G []) l + nth k (nth i G []) 0 * (x - x0)) /
                   (dot (nth i E []) l + nth k (nth i E []) 0 * (x - x0)))) (seq 0 n))).
  destruct (finite_delta (fun i h => forall x, Rabs (x - x0) = h ->
       0 < dot (nth i E []) l + nth k (nth i E []) 0 * (x - x0) /\
       0 < dot (nth i G []) l + nth k (nth i G []) 0 * (x - x0)) (seq 0 n)) as (dl&Pd&Qd).
  { intros i Hi. apply in_seq in Hi. destruct (RR i ltac:(lia)) as [R1 R2].
    destruct (affine_nonzero _ (nth k (nth i E []) 0) x0 (EZ i ltac:(lia))) as (d&P1&P2).
    destruct (affine_nonzero (dot (nth i G []) l) (nth k (nth i G []) 0) x0) as (d'&P1'&P2'); [lra|].
    exists (Rmin d d'). split; [apply Rmin_pos; auto|]. intros h Hh x Hx.
    pose proof (Rmin_l d d'). pose proof (Rmin_r d d').
    split; [apply P2|apply P2']; auto; lra. }
  assert (FO : fills G E l = Ok (mv G l, fill1 (mv E l))).
  { apply fills_ok; [lia|]. intros i Hi Z. exfalso. apply (EZ i); auto. lia. }
  eexists. exists f, dl. split; [unfold take_gradient_ce; rewrite FO; cbn [bind]; reflexivity|].
  split; [rewrite map_length, seq_length; auto|]. split; auto. split.
  - intros x Hx. unfold calc_cost_ce, f.
    assert (DE : forall i, dot (nth i E []) (upd l k x) = dot (nth i E []) l + nth k (nth i E []) 0 * (x - x0))
      by (intros; apply dot_upd; auto).
    assert (DG : forall i, dot (nth i G []) (upd l k x) = dot (nth i G []) l + nth k (nth i G []) 0 * (x - x0))
      by (intros; apply dot_upd; auto).
    (* the mask drops only zero terms *)
    assert (MS : forall (w p q : list R), length p = length w -> length q = length w ->
       let use := map2 (fun wi pi => negb (neqb wi n0) && negb (neqb pi n0))%bool w p in
       nsum (map2 nmul (map2 nmul (mask_select use w) (mask_select use p)) (map ln (mask_select use q))) =
       nsum (map (fun i => nth i w 0 * nth i p 0 * ln (nth i q 0)) (seq 0 (length w)))).
    { clear. induction w as [|a w IH]; intros [|b p] [|c q] L1 L2; try discriminate; auto.
      cbn [map2 length seq map]. rewrite <- seq_shift, map_map. cbn [nth].
      specialize (IH p q ltac:(simpl in *; lia) ltac:(simpl in *; lia)). cbv zeta in IH.
      rn. rewrite nsum_cons, <- IH. destruct (Reqb_spec a 0), (Reqb_spec b 0); cbn [negb andb mask_select map map2];
        rewrite ?nsum_cons; subst; rn; lra. }
    rewrite MS; [|auto|rewrite map2_length, fill1_length, !mv_length; lia].
    rn. match goal with |- - nsum (map ?f ?s) = _ => replace (- nsum (map f s)) with (-1 * nsum (map f s)) by ring end.
    rewrite <- nsum_scal, Lw. apply nsum_ext. intros i Hi. pose proof Hi as Hi'. apply in_seq in Hi.
    rewrite nth_map2 with (da := 0) (db := 0) by (rewrite ?fill1_length, ?mv_length; lia).
    rewrite fill1_nth by (rewrite mv_length; lia). rewrite !mv_nth, DE, DG.
    destruct (Qd (Rabs (x - x0)) Hx i Hi' x eq_refl) as [Q1 Q2].
    destruct (Req_EM_T _ 0); [lra|]. rn. ring.
  - rewrite nth_map_seq by auto. cbn [Nat.add]. unfold dot.
    rewrite map2_as_seq with (da := 0) (db := 0) by
      (rewrite ?map2_length, ?mv_length, ?fill1_length, ?mv_length, ?col_length, ?map2_length, ?mv_length, ?fill1_length, ?mv_length; lia).
    match goal with |- context [seq 0 (length ?a)] => replace (length a) with n
      by (rewrite ?map2_length, ?mv_length, ?fill1_length, ?mv_length, ?col_length; lia) end.
    unfold f.
    apply (derivable_nsum (fun i x => nth i w 0 * nth i p 0 * - ln ((dot (nth i G []) l + nth k (nth i G []) 0 * (x - x0)) /
                   (dot (nth i E []) l + nth k (nth i E []) 0 * (x - x0))))).
    intros i Hi. apply in_seq in Hi.
    assert (LL : (i < length (mv G l))%nat /\ (i < length (mv E l))%nat /\ (i < length (fill1 (mv E l)))%nat).
    { rewrite fill1_length, !mv_length. lia. }
    destruct LL as (L1&L2&L3).
    rewrite !nth_map2 with (da := 0) (db := 0) by
      (rewrite ?map2_length, ?col_length, ?map2_length, ?col_length; lia).
    rewrite fill1_nth by auto. rewrite !mv_nth, !col_nth.
    destruct (RR i ltac:(lia)) as [R1 R2].
    destruct (Req_EM_T _ 0); [lra|].
    set (a := dot (nth i G []) l) in *. set (b := nth k (nth i G []) 0).
    set (c := dot (nth i E []) l) in *. set (d := nth k (nth i E []) 0).
    assert (DQ : derivable_pt_lim (fun x => (a + b * (x - x0)) / (c + d * (x - x0))) x0 ((b * c - a * d) / (c * c)))
      by (apply derivable_ratio; lra).
    assert (V0 : (a + b * (x0 - x0)) / (c + d * (x0 - x0)) = a / c).
    { replace (x0 - x0) with 0 by ring. rewrite !Rmult_0_r, !Rplus_0_r. auto. }
    assert (PQ : 0 < a / c) by (apply Rdiv_lt_0_compat; auto).
    assert (DL : derivable_pt_lim ln ((a + b * (x0 - x0)) / (c + d * (x0 - x0))) (/ (a / c))).
    { rewrite V0. apply derivable_pt_lim_ln; auto. }
    pose proof (derivable_pt_lim_comp _ _ _ _ _ DQ DL) as DC.
    pose proof (derivable_pt_lim_opp _ _ _ DC) as DO.
    pose proof (derivable_pt_lim_scal _ (nth i w 0 * nth i p 0) _ _ DO) as DS.
    eapply derivable_val; [eapply derivable_ext; [|exact DS]|].
    + intros z. unfold mult_real_fct, opp_fct, comp. reflexivity.
    + rn. field. repeat split; lra.
Qed.

(** *** C25 *)
Lemma sumto_S : forall n f, sumto (S n) f = sumto n f + f n.
Proof. reflexivity. Qed.

Lemma ewsum_snoc : forall b xs x, ewsum b (xs ++ [x]) = b * ewsum b xs + x.
Proof.
  intros. unfold ewsum. rewrite app_length. cbn [length].
  replace (length xs + 1)%nat with (S (length xs)) by lia. rewrite sumto_S.
  rewrite app_nth2, Nat.sub_diag by lia. cbn [nth].
  replace (S (length xs) - 1 - length xs)%nat with 0%nat by lia. cbn [pow].
  rewrite Rmult_1_l, <- sumto_scal. f_equal. apply sumto_ext. intros s Hs.
  rewrite app_nth1 by auto. replace (S (length xs) - 1 - s)%nat with (S (length xs - 1 - s)) by lia.
  cbn [pow]. ring.
Qed.

Lemma npow_pow : forall (x : R) k, npow x k = x ^ k.
Proof. induction k; [reflexivity|]. cbn [npow pow]. rewrite IHk. reflexivity. Qed.

Definition comp_hist (k : nat) (gs : list (list R)) : list R := map (fun g => nth k g 0) gs.
Definition sqs (xs : list R) : list R := map (fun g => g * g) xs.

(** the moments hold the history gs *)
Definition moments (p : adam_par R) (K : nat) (gs : list (list R)) (iv : option (adam_iv R)) : Prop :=
  match iv with
  | None => gs = []
  | Some v => iv_t v = length gs /\ length (iv_m1 v) = K /\ length (iv_m2 v) = K /\
      forall k, (k < K)%nat ->
        nth k (iv_m1 v) 0 = (1 - ad_b1 p) * ewsum (ad_b1 p) (comp_hist k gs) /\
        nth k (iv_m2 v) 0 = (1 - ad_b1 p) * ewsum (ad_b2 p) (sqs (comp_hist k gs))
  end.

Lemma adam_step_moments : forall p K gs iv gf l g, moments p K gs iv -> length l = K ->
  gf l = Ok g -> length g = K ->
  exists l' v', adam_step gf (Some l) p iv = Ok (l', v') /\ iv_lamb v' = l' /\ length l' = K /\
    moments p K (gs ++ [g]) (Some v') /\
    forall k, (k < K)%nat -> nth k l' 0 =
      adam_next (ad_alpha p) (ad_b1 p) (ad_b2 p) (ad_eps p) (1 - ad_b1 p) (comp_hist k (gs ++ [g])) (nth k l 0).
Proof.
  intros p K gs iv gf l g M Ll Hg Lg.
  set (v0 := match iv with Some v => {| iv_t := iv_t v; iv_lamb := l; iv_m1 := iv_m1 v; iv_m2 := iv_m2 v |}
             | None => {| iv_t := 0; iv_lamb := l; iv_m1 := repeat 0 K; iv_m2 := repeat 0 K |} end).
  assert (E : adam_step gf (Some l) p iv = Ok (iv_lamb (adam_update p v0 g), adam_update p v0 g)).
  { unfold adam_step, v0. destruct iv as [v|]; cbn [bind iv_lamb iv_t iv_m1 iv_m2]; rewrite Hg; cbn [bind]; subst K; reflexivity. }
  assert (M0 : moments p K gs (Some v0)).
  { unfold v0. destruct iv as [v|]; [exact M|]. cbn in M. subst gs. unfold moments. cbn [iv_t iv_m1 iv_m2 length].
    rewrite repeat_length. split; auto. split; auto. split; auto. intros k Hk. rewrite nth_repeat_lt by auto.
    unfold ewsum. simpl. split; ring. }
  assert (L0 : iv_lamb v0 = l) by (unfold v0; destruct iv; auto).
  clearbody v0. destruct M0 as (MT&M1&M2&MV).
  assert (C1 : forall k, comp_hist k (gs ++ [g]) = comp_hist k gs ++ [nth k g 0]) by (intros; unfold comp_hist; rewrite map_app; auto).
  assert (N1 : forall k, (k < K)%nat -> nth k (iv_m1 (adam_update p v0 g)) 0 = (1 - ad_b1 p) * ewsum (ad_b1 p) (comp_hist k (gs ++ [g]))).
  { intros k Hk. unfold adam_update. cbn [iv_m1]. rewrite nth_map2 with (da := 0) (db := 0) by lia.
    rewrite C1, ewsum_snoc. rn. rewrite (proj1 (MV k Hk)). ring. }
  assert (N2 : forall k, (k < K)%nat -> nth k (iv_m2 (adam_update p v0 g)) 0 = (1 - ad_b1 p) * ewsum (ad_b2 p) (sqs (comp_hist k (gs ++ [g])))).
  { intros k Hk. unfold adam_update. cbn [iv_m2]. rewrite nth_map2 with (da := 0) (db := 0) by lia.
    rewrite C1. unfold sqs. rewrite map_app. cbn [map]. rewrite ewsum_snoc. rn. rewrite (proj2 (MV k Hk)). unfold sqs. ring. }
  assert (LM1 : length (iv_m1 (adam_update p v0 g)) = K) by (unfold adam_update; cbn [iv_m1]; rewrite map2_length; lia).
  assert (LM2 : length (iv_m2 (adam_update p v0 g)) = K) by (unfold adam_update; cbn [iv_m2]; rewrite map2_length; lia).
  exists (iv_lamb (adam_update p v0 g)), (adam_update p v0 g). split; [exact E|]. split; [auto|].
  split; [unfold adam_update; cbn [iv_lamb]; rewrite map2_length, map2_length, !map_length, !map2_length, L0; lia|].
  split.
  - split; [unfold adam_update; cbn [iv_t]; rewrite app_length, MT; simpl; lia|]. split; auto.
  - intros k Hk. pose proof (N1 k Hk) as X1. pose proof (N2 k Hk) as X2.
    unfold adam_next, comp_hist. rewrite map_length, app_length. fold (comp_hist k (gs ++ [g])). fold (sqs (comp_hist k (gs ++ [g]))).
    rewrite <- X1, <- X2. unfold adam_update. cbn [iv_lamb iv_m1 iv_m2].
    unfold adam_update in LM1, LM2; cbn [iv_m1 iv_m2] in LM1, LM2.
    rewrite nth_map2 with (da := 0) (db := 0) by (rewrite ?map2_length, ?map_length, ?map2_length, ?L0; lia).
    rewrite nth_map2 with (da := 0) (db := 0) by (rewrite ?map_length, ?map2_length; lia).
    rewrite !nth_map_in with (d := 0) by (rewrite ?map2_length; lia).
    rewrite !npow_pow, L0, MT. cbn [length]. rewrite Nat.add_1_r. rn. reflexivity.
Qed.

Lemma adam_history_app : forall (p : adam_par R) h1 h2 iv, adam_history p iv (h1 ++ h2) =
  (do v <- adam_history p iv h1; adam_history p v h2).
Proof.
  induction h1 as [|[l g] h1 IH]; intros; simpl; auto.
  destruct (adam_step _ _ _ _); simpl; auto.
Qed.

Lemma adam_history_spec : forall (p : adam_par R) K h, h <> [] ->
  (forall l g, In (l, g) h -> length l = K /\ length g = K) ->
  exists v, adam_history p None h = Ok (Some v) /\ iv_t v = length h /\ length (iv_lamb v) = K /\
    length (iv_m1 v) = K /\ length (iv_m2 v) = K /\
    forall k, (k < K)%nat -> let gs := map (fun lg => nth k (snd lg) 0) h in
      nth k (iv_m1 v) 0 = (1 - ad_b1 p) * ewsum (ad_b1 p) gs /\
      nth k (iv_m2 v) 0 = (1 - ad_b1 p) * ewsum (ad_b2 p) (map (fun g => g * g) gs) /\
      nth k (iv_lamb v) 0 = adam_next (ad_alpha p) (ad_b1 p) (ad_b2 p) (ad_eps p) (1 - ad_b1 p) gs
                                      (nth k (fst (last h ([], []))) 0).
Proof.
  intros p K h NE HL.
  assert (X : forall h, (forall l g, In (l, g) h -> length l = K /\ length g = K) ->
     exists iv, adam_history p None h = Ok iv /\ moments p K (map snd h) iv).
  { intros h0. induction h0 as [|[l g] h0 IH] using rev_ind; intros HL0.
    - exists None. split; reflexivity.
    - destruct IH as (iv&E&M); [intros; apply HL0; apply in_or_app; auto|].
      destruct (HL0 l g) as [Ll Lg]; [apply in_or_app; right; left; auto|].
      destruct (adam_step_moments p K _ iv (fun _ => Ok g) l g M Ll eq_refl Lg) as (l'&v'&E'&_&_&M'&_).
      exists (Some v'). rewrite adam_history_app, E. cbn [bind adam_history]. rewrite E'. cbn [bind snd].
      split; auto. rewrite map_app. exact M'. }
  destruct (exists_last NE) as (h0&[l g]&->).
  destruct (X h0) as (iv&E&M); [intros; apply HL; apply in_or_app; auto|].
  destruct (HL l g) as [Ll Lg]; [apply in_or_app; right; left; auto|].
  destruct (adam_step_moments p K _ iv (fun _ => Ok g) l g M Ll eq_refl Lg) as (l'&v'&E'&EL&LL&M'&VL).
  exists v'. rewrite adam_history_app, E. cbn [bind adam_history]. rewrite E'. cbn [bind snd].
  split; auto. destruct M' as (MT&M1&M2&MV).
  rewrite app_length, map_length in MT. rewrite app_length. cbn [length] in *.
  split; [lia|]. split; [congruence|]. split; auto. split; auto.
  intros k Hk. set (gs := map (fun lg : list R * list R => nth k (snd lg) 0) (h0 ++ [(l, g)])).
  assert (EG : gs = comp_hist k (map snd h0 ++ [g])).
  { unfold gs, comp_hist. rewrite !map_app, map_map. auto. }
  rewrite EG. split; [apply MV; auto|]. split; [apply MV; auto|].
  rewrite last_last. cbn [fst]. rewrite EL. apply VL; auto.
Qed.

Lemma adam_nameerror : forall gf l0 p iv, (forall x, gf x <> Err NameError) ->
  (@adam_step R _ gf l0 p iv = Err NameError <-> l0 = None /\ iv = None).
Proof.
  intros gf l0 p iv HG. unfold adam_step. split.
  - intros H. destruct iv, l0; auto; exfalso; cbn [bind] in H;
      apply bind_err in H; destruct H as [H|(x&_&H)]; try discriminate; eapply HG; eauto.
  - intros [-> ->]. reflexivity.
Qed.

Lemma adam_first : forall a b1 b2 e c2 g lam, b1 <> 1 -> b2 <> 1 -> 0 <= c2 / (1 - b2) ->
  adam_next a b1 b2 e c2 [g] lam = lam - a * g / (sqrt (c2 / (1 - b2)) * Rabs g + e).
Proof.
  intros. unfold adam_next, ewsum. cbn [length map sumto nth pow Nat.sub].
  replace ((1 - b1) * (0 + 1 * g) / (1 - b1 * 1)) with g by (field; lra).
  replace (c2 * (0 + 1 * (g * g)) / (1 - b2 * 1)) with (c2 / (1 - b2) * (g * g)) by (field; lra).
  rewrite sqrt_mult by (auto; nra). rewrite <- (sqrt_Rsqr_abs g). unfold Rsqr. reflexivity.
Qed.

(** *** what one descent step does *)
Definition step_target (t_fix : R) (ad : option (adam_par R)) (gs : list (list R)) (k : nat) (lam : R) : R :=
  match ad with
  | None => lam - t_fix * nth k (last gs []) 0
  | Some p => adam_next (ad_alpha p) (ad_b1 p) (ad_b2 p) (ad_eps p) (1 - ad_b1 p) (map (fun g => nth k g 0) gs) lam
  end.

Definition iv_hist (K : nat) (ad : option (adam_par R)) (gs : list (list R)) (iv : option (adam_iv R)) : Prop :=
  match ad with None => True | Some p => moments p K gs iv end.

Lemma sgd_step_detail : forall cons t ad (P : problem R) nt st d st' K gs,
  sgd_step l2_loss prox_value cons t ad P nt st d = Ok st' ->
  length (g_lamb st) = K -> iv_hist K ad gs (g_iv st) ->
  exists g raw, l_grad l2_loss (restrict P (d mod nt)) (g_lamb st) = Ok g /\ length g = K /\ length raw = K /\
    (forall k, (k < K)%nat -> nth k raw 0 = step_target t ad (gs ++ [g]) k (nth k (g_lamb st) 0)) /\
    (if cons then prox_value raw else Ok raw) = Ok (g_lamb st') /\ length (g_lamb st') = K /\
    iv_hist K ad (gs ++ [g]) (g_iv st').
Proof.
  intros cons t ad P nt st d st' K gs H LK HI. unfold sgd_step in H.
  apply bind_ok in H. destruct H as ([l1 iv1]&E1&H).
  assert (X : exists g, l_grad l2_loss (restrict P (d mod nt)) (g_lamb st) = Ok g /\ length g = K /\ length l1 = K /\
     (forall k, (k < K)%nat -> nth k l1 0 = step_target t ad (gs ++ [g]) k (nth k (g_lamb st) 0)) /\
     iv_hist K ad (gs ++ [g]) iv1).
  { destruct ad as [p|].
    - bok E1. inversion E1; subst l1 iv1; clear E1.
      assert (Y : exists g, l_grad l2_loss (restrict P (d mod nt)) (g_lamb st) = Ok g).
      { unfold adam_step in E. destruct (g_iv st); cbn [bind iv_lamb] in E;
          bok E; eauto. }
      destruct Y as (g&Hg). exists g. assert (Lg : length g = K) by (rewrite <- LK; eapply take_gradient_length; exact Hg).
      destruct (adam_step_moments p K gs (g_iv st) _ (g_lamb st) g HI LK Hg Lg) as (l'&v'&E'&EL&LL&M'&VL).
      rewrite E' in E. inversion E; subst a. cbn [fst snd].
      split; auto. 
    - bok E1. inversion E1; subst l1 iv1; clear E1. exists a. split; auto.
      assert (Lg : length a = K) by (rewrite <- LK; eapply take_gradient_length; exact E).
      split; auto. split; [rewrite map2_length; lia|]. split; [|exact I].
      intros k Hk. rewrite nth_map2 with (da := 0) (db := 0) by lia. unfold step_target. rewrite last_last. rn. reflexivity. }
  destruct X as (g&Hg&Lg&Ll&Hv&HI').
  bok H. bok H. inversion H; subst st'; clear H. cbn [g_lamb g_iv].
  exists g, l1. repeat (split; [solve [auto]|]).
  split; auto. destruct cons; [|inversion E; subst; auto]. rewrite <- Ll. eapply prox_value_ok; eauto.
Qed.

Lemma fold_detail : forall cons t ad (P : problem R) nt K init c0 draws st,
  length init = K ->
  foldM (sgd_step l2_loss prox_value cons t ad P nt) draws (st0 init c0) = Ok st ->
  exists gs, length gs = length draws /\ iv_hist K ad gs (g_iv st) /\ length (g_lamb st) = K /\
  forall s, (s < length draws)%nat -> exists sa sb raw,
    foldM (sgd_step l2_loss prox_value cons t ad P nt) (firstn s draws) (st0 init c0) = Ok sa /\
    foldM (sgd_step l2_loss prox_value cons t ad P nt) (firstn (S s) draws) (st0 init c0) = Ok sb /\
    l_grad l2_loss (restrict P (nth s draws 0%nat mod nt)) (g_lamb sa) = Ok (nth s gs []) /\
    length (nth s gs []) = K /\ length raw = K /\ length (g_lamb sa) = K /\
    (forall k, (k < K)%nat -> nth k raw 0 = step_target t ad (firstn (S s) gs) k (nth k (g_lamb sa) 0)) /\
    (if cons then prox_value raw else Ok raw) = Ok (g_lamb sb).
Proof.
  intros cons t ad P nt K init c0 draws. induction draws as [|d draws IH] using rev_ind; intros st LI H.
  - cbn [foldM] in H. inversion H; subst st; clear H. exists []. split; auto. split; [destruct ad; cbn; auto|].
    split; auto. cbn [length]. lia.
  - rewrite foldM_snoc in H. bok H. destruct (IH a LI E) as (gs&Lgs&HI&LK&Pre).
    destruct (sgd_step_detail _ _ _ _ _ _ _ _ K gs H LK HI) as (g&raw&Hg&Lg&Lr&Hv&Hp&LK'&HI').
    exists (gs ++ [g]). rewrite !app_length. cbn [length]. split; [lia|]. split; auto. split; auto.
    intros s Hs. destruct (Nat.eq_dec s (length draws)) as [->|NE].
    + exists a, st, raw. 
      rewrite (firstn_all2 (n := S (length draws)) (draws ++ [d])) by (rewrite app_length; simpl; lia).
      rewrite (firstn_all2 (n := S (length draws)) (gs ++ [g])) by (rewrite app_length; simpl; lia).
      rewrite firstn_app, Nat.sub_diag, firstn_all. change (firstn 0 [d]) with (@nil nat). rewrite app_nil_r.
      split; auto. split; [rewrite foldM_snoc, E; auto|].
      rewrite !app_nth2 by lia. rewrite Lgs, !Nat.sub_diag. cbn [nth]. auto 10.
    + destruct (Pre s ltac:(lia)) as (sa&sb&rw&F1&F2&F3&F4&F5&F6&F7&F8). exists sa, sb, rw.
      rewrite !firstn_app. replace (s - length draws)%nat with 0%nat by lia.
      replace (S s - length draws)%nat with 0%nat by lia. replace (S s - length gs)%nat with 0%nat by lia.
      change (firstn 0 [d]) with (@nil nat). change (firstn 0 [g]) with (@nil (list R)). rewrite !app_nil_r.
      rewrite !app_nth1 by lia. repeat (split; [solve [auto]|]). auto.
Qed.

(** iterates, their costs, and the best one *)
Lemma sgd_trajectory : forall (P : problem R) init t cons ad draws best lst costs,
  stocastic_grad_descent P init t cons ad draws = Ok (best, lst, costs) ->
  exists nt its gs, count_trees (p_tidx P) = Ok nt /\
    length its = S (length draws) /\ length costs = S (length draws) /\ length gs = length draws /\
    nth 0 its [] = init /\ nth (length draws) its [] = lst /\
    (forall s, (s <= length draws)%nat -> length (nth s its []) = length init /\
       (cons = true -> forall x, In x (nth s its []) -> 0 <= x) /\
       calc_cost (p_y P) (p_Gamma P) (p_eta P) (p_w P) (nth s its []) = Ok (nth s costs 0)) /\
    (forall s, (s < length draws)%nat ->
       (let Q := restrict P (nth s draws 0%nat mod nt) in
        take_gradient (p_y Q) (p_Gamma Q) (p_eta Q) (p_w Q) (nth s its []) = Ok (nth s gs [])) /\
       exists raw, length raw = length init /\
         (forall k, (k < length init)%nat -> nth k raw 0 = step_target t ad (firstn (S s) gs) k (nth k (nth s its []) 0)) /\
         (if cons then exists over, prox_project raw = Ok (nth (S s) its [], over) else nth (S s) its [] = raw)) /\
    exists b, (b <= length draws)%nat /\ best = nth b its [] /\
      (forall s, (s <= length draws)%nat -> nth b costs 0 <= nth s costs 0) /\
      (forall s, (s < b)%nat -> nth b costs 0 < nth s costs 0).
Proof.
  intros P init t cons ad draws best lst costs H. pose proof H as H0.
  unfold stocastic_grad_descent in H.
  destruct (Nat.eqb (ncols (p_Gamma P)) (length init)) eqn:EN; cbn [negb] in H; [|discriminate].
  destruct (cons && off_simplex init)%bool eqn:OS; [discriminate|].
  destruct (sgd_run_spec _ _ _ _ _ _ _ _ _ _ _ H) as (its&L1&L2&I0&IL&Pre&B).
  pose proof H as H2. unfold sgd_run in H2. bok H2. bok H2. bok H2.
  change ({| g_lamb := init; g_iv := None; g_best := init; g_cbest := a; g_costs := [a] |}) with (st0 init a) in E1.
  destruct (fold_detail _ _ _ _ _ (length init) _ _ _ _ eq_refl E1) as (gs&Lgs&_&_&D).
  assert (LK : forall s sa, (s <= length draws)%nat ->
     foldM (sgd_step l2_loss prox_value cons t ad P a0) (firstn s draws) (st0 init a) = Ok sa -> g_lamb sa = nth s its []).
  { intros s sa Hs F. destruct (Pre s Hs) as (_&bs&RN). unfold sgd_run in RN. rewrite E, E0 in RN. cbn [bind] in RN.
    change ({| g_lamb := init; g_iv := None; g_best := init; g_cbest := a; g_costs := [a] |}) with (st0 init a) in RN.
    rewrite F in RN. cbn [bind] in RN. congruence. }
  exists a0, its, gs. repeat (split; [solve [auto]|]). split; [|split; [|exact B]].
  - intros s Hs. destruct (Pre s Hs) as (C1&bs&RN).
    assert (RN' : stocastic_grad_descent P init t cons ad (firstn s draws) = Ok (bs, nth s its [], firstn (S s) costs)).
    { unfold stocastic_grad_descent. rewrite EN. cbn [negb]. rewrite OS. exact RN. }
    destruct (sgd_good _ _ _ _ _ _ _ _ _ RN') as (_&[G1 G2]). auto.
  - intros s Hs. destruct (D s Hs) as (sa&sb&raw&F1&F2&F3&F4&F5&F6&F7&F8).
    rewrite (LK s sa ltac:(lia) F1) in *. rewrite (LK (S s) sb ltac:(lia) F2) in *.
    split; [exact F3|]. exists raw. split; auto. split; auto.
    destruct cons; [|congruence]. unfold prox_value in F8. bok F8. destruct a2 as [r o]. cbn [fst] in F8.
    exists o. congruence.
Qed.

Lemma picked_mask : forall {A} (l : list A) idx q, length l = length idx ->
  picked l (rows_of q idx) (mask_select (map (fun i => Nat.eqb i q) idx) l).
Proof.
  intros A l idx q HL. destruct l as [|a l'] eqn:EL.
  - destruct idx; [constructor|discriminate].
  - rewrite <- EL in *. unfold rows_of.
    assert (EM : map (fun i => Nat.eqb i q) idx = map (fun r => Nat.eqb (nth r idx 0%nat) q) (seq 0 (length idx))).
    { transitivity (map (fun i => Nat.eqb i q) (map (fun r => nth r idx 0%nat) (seq 0 (length idx)))).
      - f_equal. apply list_as_seq.
      - apply map_map. }
    rewrite EM.
    rewrite <- HL.
    rewrite (mask_select_seq (fun i => Nat.eqb (nth i idx 0%nat) q) l a).
    assert (X : forall s, (forall i, In i s -> (i < length l)%nat) -> picked l s (map (fun i => nth i l a) s)).
    { unfold picked. induction s; intros H; cbn [map]; constructor.
      - apply nth_error_nth'. apply H. left; auto.
      - apply IHs. intros; apply H; right; auto. }
    apply X. intros i Hi. apply filter_In in Hi. destruct Hi as [Hi _]. apply in_seq in Hi. lia.
Qed.

Lemma sgd_trajectory_rows : forall (P : problem R) init t cons ad draws best lst costs,
  length (p_y P) = length (p_tidx P) -> length (p_w P) = length (p_tidx P) ->
  length (p_Gamma P) = length (p_tidx P) -> length (p_eta P) = length (p_tidx P) ->
  stocastic_grad_descent P init t cons ad draws = Ok (best, lst, costs) ->
  exists nt its gs, (forall i, In i (p_tidx P) -> (i < nt)%nat) /\ In (nt - 1)%nat (p_tidx P) /\
    length its = S (length draws) /\ length costs = S (length draws) /\ length gs = length draws /\
    nth 0 its [] = init /\ nth (length draws) its [] = lst /\
    (forall s, (s <= length draws)%nat -> length (nth s its []) = length init /\
       (cons = true -> forall x, In x (nth s its []) -> 0 <= x) /\
       calc_cost (p_y P) (p_Gamma P) (p_eta P) (p_w P) (nth s its []) = Ok (nth s costs 0)) /\
    (forall s, (s < length draws)%nat ->
       (exists y w G E, let rows := rows_of (nth s draws 0%nat mod nt) (p_tidx P) in
          picked (p_y P) rows y /\ picked (p_w P) rows w /\ picked (p_Gamma P) rows G /\ picked (p_eta P) rows E /\
          take_gradient y G E w (nth s its []) = Ok (nth s gs [])) /\
       exists raw, length raw = length init /\
         (forall k, (k < length init)%nat -> nth k raw 0 = step_target t ad (firstn (S s) gs) k (nth k (nth s its []) 0)) /\
         (if cons then exists over, prox_project raw = Ok (nth (S s) its [], over) else nth (S s) its [] = raw)) /\
    exists b, (b <= length draws)%nat /\ best = nth b its [] /\
      (forall s, (s <= length draws)%nat -> nth b costs 0 <= nth s costs 0) /\
      (forall s, (s < b)%nat -> nth b costs 0 < nth s costs 0).
Proof.
  intros P init t cons ad draws best lst costs H1 H2 H3 H4 H.
  destruct (sgd_trajectory _ _ _ _ _ _ _ _ _ H) as (nt&its&gs&N&L1&L2&L3&I0&IL&C&D&B).
  exists nt, its, gs. unfold count_trees in N. destruct (p_tidx P) as [|x l] eqn:EP; [discriminate|].
  assert (EN : nt = (list_maxn (p_tidx P) + 1)%nat) by congruence. rewrite <- EP in *.
  split. { intros i Hi. pose proof (list_maxn_ge _ _ Hi). lia. }
  split. { replace (nt - 1)%nat with (list_maxn (p_tidx P)) by lia. apply list_maxn_in. congruence. }
  repeat (split; [assumption|]). split; [|exact B].
  intros s Hs. destruct (D s Hs) as (D1&D2). split; [|exact D2].
  unfold restrict in D1. cbv zeta in D1. cbn [p_y p_w p_Gamma p_eta] in D1.
  eexists _, _, _, _. cbv zeta. do 4 (split; [apply picked_mask; assumption|]). exact D1.
Qed.

