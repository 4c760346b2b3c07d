(** L_Box: lemmas about bounding boxes. *)
From Verif Require Import Base TreeSpec Spec M_Tree M_Gamma M_Box SpecBox.
From Verif Require Import L_Base L_Tree L_TreeModel L_TreeModel2 L_Sgd L_Smooth4 L_Depth2.
From Coq Require Import Reals Lra Lia.
Local Open Scope R_scope.

Lemma fold_nmin : forall (l : list R) a, fold_left nmin l a <= a /\ (forall x, In x l -> fold_left nmin l a <= x) /\
  (fold_left nmin l a = a \/ In (fold_left nmin l a) l).
Proof.
  induction l as [|y l IH]; intros a; cbn [fold_left]; [split; [lra|split; [intros x []|auto]]|].
  destruct (IH (nmin a y)) as (A&B&C). assert (M : nmin a y <= a /\ nmin a y <= y /\ (nmin a y = a \/ nmin a y = y)).
  { unfold nmin. change (@nltb R _ y a) with (Rltb y a). destruct (Rltb_spec y a); lra. }
  split; [lra|]. split; [intros x [->|I]; [lra|auto]|].
  destruct C as [C|C]; [rewrite C; destruct M as (_&_&[->| ->]); [auto|right; left; auto]|right; right; auto].
Qed.
Lemma fold_nmax : forall (l : list R) a, a <= fold_left nmax l a /\ (forall x, In x l -> x <= fold_left nmax l a) /\
  (fold_left nmax l a = a \/ In (fold_left nmax l a) l).
Proof.
  induction l as [|y l IH]; intros a; cbn [fold_left]; [split; [lra|split; [intros x []|auto]]|].
  destruct (IH (nmax a y)) as (A&B&C). assert (M : a <= nmax a y /\ y <= nmax a y /\ (nmax a y = a \/ nmax a y = y)).
  { unfold nmax. change (@nltb R _ a y) with (Rltb a y). destruct (Rltb_spec a y); lra. }
  split; [lra|]. split; [intros x [->|I]; [lra|auto]|].
  destruct C as [C|C]; [rewrite C; destruct M as (_&_&[->| ->]); [auto|right; left; auto]|right; right; auto].
Qed.
Lemma nminimum_in : forall l : list R, l <> [] -> exists m, nminimum l = Ok m /\ In m l /\ forall x, In x l -> m <= x.
Proof.
  intros [|a l] NE; [congruence|]. exists (fold_left nmin l a). split; auto. destruct (fold_nmin l a) as (A&B&C).
  split; [destruct C as [->|C]; [left; auto|right; auto]|]. intros x [<-|I]; auto.
Qed.
Lemma nmaximum_in : forall l : list R, l <> [] -> exists m, nmaximum l = Ok m /\ In m l /\ forall x, In x l -> x <= m.
Proof.
  intros [|a l] NE; [congruence|]. exists (fold_left nmax l a). split; auto. destruct (fold_nmax l a) as (A&B&C).
  split; [destruct C as [->|C]; [left; auto|right; auto]|]. intros x [<-|I]; auto.
Qed.

Lemma ncols_ok : forall p (X : list (list R)), data_ok p X -> ncols X = p.
Proof. intros p [|x X] [NE L]; [congruence|]. unfold ncols. cbn [hd]. apply L. left. auto. Qed.

Lemma data_box_ok : forall p (X : list (list R)), data_ok p X -> exists b, data_box X = Ok b /\ hull p X b.
Proof.
  intros p X OK. pose proof OK as [NE L]. unfold data_box. rewrite (ncols_ok p X OK).
  match goal with |- context [mapM ?h _] => set (g := h) end.
  assert (G : forall f, exists lo hi, g f = Ok (lo, hi) /\ (forall x, In x X -> lo <= nth f x 0 <= hi) /\
     (exists x, In x X /\ lo = nth f x 0) /\ (exists x, In x X /\ hi = nth f x 0)).
  { intros f. unfold g. change (@n0 R _) with 0. assert (NC : map (fun r : list R => nth f r 0) X <> []) by (destruct X; [congruence|discriminate]).
    destruct (nminimum_in _ NC) as (lo&->&I1&M1). destruct (nmaximum_in _ NC) as (hi&->&I2&M2). cbn [bind]. exists lo, hi.
    split; auto. split.
    - intros x I. split; [apply M1|apply M2]; apply in_map_iff; exists x; auto.
    - apply in_map_iff in I1, I2. destruct I1 as (x1&E1&I1), I2 as (x2&E2&I2). split; [exists x1|exists x2]; auto. }
  destruct (mapM_total g (seq 0 p)) as (b&E&LB).
  { intros f _. destruct (G f) as (lo&hi&->&_). eauto. }
  rewrite seq_length in LB. exists b. split; auto.
  assert (N : forall f, (f < p)%nat -> g f = Ok (nth f b (0, 0))).
  { intros f Hf. destruct (mapM_nth_error _ _ _ E f f) as (y&Y1&Y2).
    - rewrite (nth_error_nth' _ 0%nat) by (rewrite seq_length; auto). rewrite seq_nth by auto. auto.
    - rewrite (nth_error_nth _ _ (0,0) Y1). auto. }
  unfold lower, upper. split; auto. split.
  - intros x I f Hf. destruct (G f) as (lo&hi&E1&H&_). rewrite (N f Hf) in E1. inversion E1 as [E2]. unfold lower, upper. rewrite E2. apply H; auto.
  - intros f Hf. destruct (G f) as (lo&hi&E1&_&H). rewrite (N f Hf) in E1. inversion E1 as [E2]. unfold lower, upper. rewrite E2. exact H.
Qed.

Section Boxes.
Variable t : tree R.
Hypothesis WF : wf_tree t.
Variable p : nat.
Hypothesis FO : features_ok p t.
Notation n := (size t).
Notation feat v := (nth v (t_feature t) 0%nat).
Notation thr v := (nth v (t_thresh t) 0).
Notation box := (list (R * R)).

Lemma sib_disjoint : forall q l r u, lc t q = Z.of_nat l -> rc t q = Z.of_nat r -> anc t l u -> anc t r u -> False.
Proof.
  intros q l r u HL HR A B.
  assert (CL : child t q l) by (left; auto). assert (CR : child t q r) by (right; auto).
  pose proof (child_lt t WF _ _ CL) as L1. pose proof (child_lt t WF _ _ CR) as L2.
  assert (NEQ : l <> r).
  { intros ->. destruct (wf_node t WF q ltac:(lia)) as [[X _]|(l'&r'&X&Y&_&_&Z)]; lia. }
  destruct (anc_comparable t WF _ _ _ A B) as [C|C].
  - apply (anc_child t WF _ _ CR) in C. destruct C as [C|C]; [auto|]. apply (anc_lt t WF) in C. lia.
  - apply (anc_child t WF _ _ CL) in C. destruct C as [C|C]; [auto|]. apply (anc_lt t WF) in C. lia.
Qed.

Definition links (v : nat) (st : list box) : Prop :=
  forall q l r, anc t v q -> lc t q = Z.of_nat l -> rc t q = Z.of_nat r ->
    nth l st [] = cut_above (nth q st []) (feat q) (thr q) /\ nth r st [] = cut_below (nth q st []) (feat q) (thr q).

Lemma cut_above_len : forall (b : box) f (x : R), length (cut_above b f x) = length b.
Proof. intros. unfold cut_above. apply upd_length. Qed.
Lemma cut_below_len : forall (b : box) f (x : R), length (cut_below b f x) = length b.
Proof. intros. unfold cut_below. apply upd_length. Qed.

Lemma bound_from_ok : forall fuel v (st : list box), (v < n)%nat -> (n <= v + fuel)%nat -> length st = n ->
  (forall u, (u < n)%nat -> length (nth u st []) = p) ->
  exists st', bound_box_from fuel t st v = Ok st' /\ length st' = n /\
    (forall u, (u < n)%nat -> length (nth u st' []) = p) /\
    (forall u, ~ (anc t v u /\ u <> v) -> nth u st' [] = nth u st []) /\ links v st'.
Proof.
  induction fuel as [|fu IH]; intros v st Hv Hf LS LP; [lia|]. cbn [bound_box_from].
  destruct (Z.eqb_spec (lc t v) (-1)) as [E|E].
  - exists st. split; [auto|]. split; [auto|]. split; [auto|]. split; [auto|].
    intros q l r A HL HR. exfalso. assert (q = v).
    { symmetry. apply (leaf_anc_eq t WF); auto. unfold is_leafb. rewrite E. reflexivity. }
    subst q. lia.
  - assert (LF : is_leafb t v = false) by (unfold is_leafb; apply Z.eqb_neq; auto).
    destruct (nonleaf_children t WF v Hv LF) as (l&r&HL&HR&Ll&Lr&NLR). rewrite HL, HR, !to_nat_of.
    assert (CL : child t v l) by (left; auto). assert (CR : child t v r) by (right; auto).
    rewrite LP by auto. destruct (Nat.leb_spec p (feat v)) as [X|_]; [specialize (FO v Hv LF); lia|].
    set (st0 := upd st l (cut_above (nth v st []) (feat v) (thr v))).
    destruct (IH l st0) as (st1&E1&L1&P1&U1&K1); [lia|lia|unfold st0; rewrite upd_length; auto| |].
    { intros u Hu. unfold st0. destruct (Nat.eq_dec u l) as [->|NE]; [rewrite nth_upd_eq by lia; rewrite cut_above_len; auto|].
      rewrite nth_upd_neq by auto. auto. }
    change (@n0 R _) with 0. fold st0. rewrite E1. cbn [bind].
    assert (V1 : nth v st1 [] = nth v st []).
    { rewrite U1 by (intros [A _]; apply (anc_lt t WF) in A; lia). unfold st0. rewrite nth_upd_neq by lia. auto. }
    set (st2 := upd st1 r (cut_below (nth v st1 []) (feat v) (thr v))).
    destruct (IH r st2) as (st3&E3&L3&P3&U3&K3); [lia|lia|unfold st2; rewrite upd_length; auto| |].
    { intros u Hu. unfold st2. destruct (Nat.eq_dec u r) as [->|NE]; [rewrite nth_upd_eq by lia; rewrite cut_below_len; auto|].
      rewrite nth_upd_neq by auto. auto. }
    exists st3. split; [exact E3|]. split; [auto|]. split; [auto|].
    assert (OUT : forall u, ~ anc t r u -> nth u st3 [] = nth u st1 []).
    { intros u NA. rewrite U3 by tauto. unfold st2. rewrite nth_upd_neq; auto. intros ->. apply NA. apply anc_refl. lia. }
    assert (RR : nth r st3 [] = cut_below (nth v st1 []) (feat v) (thr v)).
    { rewrite U3 by tauto. unfold st2. apply nth_upd_eq. lia. }
    assert (VV : nth v st3 [] = nth v st []).
    { rewrite OUT; auto. intros A. apply (anc_lt t WF) in A. lia. }
    assert (NRL : ~ anc t r l) by (intros A; eapply (sib_disjoint v l r l); eauto; apply anc_refl; lia).
    split.
    + intros u NU. destruct (Nat.eq_dec u v) as [->|NE]; auto.
      assert (NL : ~ anc t l u).
      { intros A. apply NU. split; auto. eapply anc_trans; [|exact A]. eapply anc_step; [apply anc_refl|exact CL]; auto. }
      assert (NR : ~ anc t r u).
      { intros A. apply NU. split; auto. eapply anc_trans; [|exact A]. eapply anc_step; [apply anc_refl|exact CR]; auto. }
      rewrite OUT by auto. rewrite U1 by tauto. unfold st0. rewrite nth_upd_neq; auto. intros ->. apply NL. apply anc_refl. lia.
    + intros q l' r' A HL' HR'.
      assert (QN : (q < n)%nat) by (apply (anc_lt t WF) in A; lia).
      destruct (Nat.eq_dec q v) as [->|NE].
      * assert (l' = l) by lia. assert (r' = r) by lia. subst l' r'. rewrite VV. split; [|rewrite RR, V1; auto].
        rewrite OUT by auto. rewrite U1 by tauto. unfold st0. apply nth_upd_eq. lia.
      * assert (AQ : anc t l q \/ anc t r q).
        { clear -A NE WF CL CR HL HR. induction A as [v Hv|a b c A IHA C]; [congruence|].
          destruct (Nat.eq_dec b a) as [->|NB].
          - destruct (child_two t a c l r HL HR C) as [->| ->]; [left|right]; apply anc_refl; apply (child_lt t WF) in C; lia.
          - assert (AB : anc t l b \/ anc t r b) by auto. destruct AB as [D|D]; [left|right]; eapply anc_step; eauto. }
        destruct AQ as [AQ|AQ].
        -- assert (CQ1 : child t q l') by (left; auto). assert (CQ2 : child t q r') by (right; auto).
           assert (NQ : forall u, anc t l u -> ~ anc t r u) by (intros u B C; eapply (sib_disjoint v l r u); eauto).
           pose proof (anc_step t l q l' AQ CQ1) as Al. pose proof (anc_step t l q r' AQ CQ2) as Ar.
           rewrite (OUT l') by auto. rewrite (OUT r') by auto. rewrite (OUT q) by auto. apply K1; auto.
        -- apply K3; auto.
Qed.

Lemma cut_above_spec : forall (b : box) f x, length b = p -> (f < p)%nat -> cut_hi p f x b (cut_above b f x).
Proof.
  intros b f x L F. split; [rewrite cut_above_len; auto|]. intros g Hg. unfold cut_above, lower, upper.
  change (@n0 R _) with 0. destruct (Nat.eqb_spec g f) as [->|NE]; [rewrite nth_upd_eq by lia; auto|rewrite nth_upd_neq by auto; auto].
Qed.
Lemma cut_below_spec : forall (b : box) f x, length b = p -> (f < p)%nat -> cut_lo p f x b (cut_below b f x).
Proof.
  intros b f x L F. split; [rewrite cut_below_len; auto|]. intros g Hg. unfold cut_below, lower, upper.
  change (@n0 R _) with 0. destruct (Nat.eqb_spec g f) as [->|NE]; [rewrite nth_upd_eq by lia; auto|rewrite nth_upd_neq by auto; auto].
Qed.

Definition boxes_ok (X : list (list R)) (bs : list box) : Prop :=
  length bs = n /\ hull p X (nth 0 bs []) /\ forall v l r, lc t v = Z.of_nat l -> rc t v = Z.of_nat r ->
     cut_hi p (feat v) (thr v) (nth v bs []) (nth l bs []) /\ cut_lo p (feat v) (thr v) (nth v bs []) (nth r bs []).

Lemma bound_ok : forall X, data_ok p X -> exists bs, bound_box_tree t X = Ok bs /\ boxes_ok X bs.
Proof.
  intros X OK. destruct (data_box_ok p X OK) as (b&E&H). pose proof (wf_pos t WF) as NP.
  destruct (bound_from_ok n 0 (upd (repeat (repeat (0, 0) (ncols X)) n) 0 b)) as (bs&E1&L1&P1&U1&K1); [auto|lia|rewrite upd_length, repeat_length; auto| |].
  { intros u Hu. destruct (Nat.eq_dec u 0) as [->|NE].
    - rewrite nth_upd_eq by (rewrite repeat_length; auto). apply H.
    - rewrite nth_upd_neq by auto. rewrite nth_repeat_lt by auto. rewrite repeat_length. apply ncols_ok; auto. }
  exists bs. split.
  - unfold bound_box_tree. destruct X as [|x0 X0]; [destruct OK; congruence|]. rewrite E. exact E1.
  - split; auto. split.
    + rewrite U1 by (intros [_ A]; auto). rewrite nth_upd_eq by (rewrite repeat_length; auto). auto.
    + intros v l r HL HR. assert (CL : child t v l) by (left; auto). pose proof (child_lt t WF _ _ CL) as LL.
      assert (LF : is_leafb t v = false) by (unfold is_leafb; apply Z.eqb_neq; lia).
      destruct (K1 v l r (anc_root t WF v ltac:(lia)) HL HR) as [-> ->].
      split; [apply cut_above_spec|apply cut_below_spec]; try (apply P1; lia); apply FO; auto; lia.
Qed.

Lemma nleb_true : forall a b : R, nleb a b = true <-> a <= b.
Proof. intros. unfold nleb. change (@nltb R _ b a) with (Rltb b a). destruct (Rltb_spec b a); cbn; split; intros; try lra; congruence. Qed.
Lemma nleb_false : forall a b : R, nleb a b = false <-> b < a.
Proof. intros. unfold nleb. change (@nltb R _ b a) with (Rltb b a). destruct (Rltb_spec b a); cbn; split; intros; try lra; congruence. Qed.

Lemma contains : forall X bs, boxes_ok X bs -> forall x, in_range p X x -> forall v, reaches t x v -> in_box p x (nth v bs []).
Proof.
  intros X bs (L&(HL&HX&_)&K) x IR v RE. induction RE as [|q c RE IH E C|q c RE IH E C].
  - intros f Hf. destruct (IR f Hf) as (a&b&Ia&Ib&R1). pose proof (HX a Ia f Hf). pose proof (HX b Ib f Hf). lra.
  - change (@n0 R _) with 0 in C. apply nleb_true in C.
    assert (CH : child t q c) by (left; auto). pose proof (child_lt t WF _ _ CH).
    assert (LF : is_leafb t q = false) by (unfold is_leafb; apply Z.eqb_neq; lia).
    destruct (nonleaf_children t WF q ltac:(lia) LF) as (l&r&EL&ER&_). assert (l = c) by lia. subst l.
    destruct (K q c r EL ER) as [[_ A] _]. intros f Hf. destruct (A f Hf) as [-> ->]. specialize (IH f Hf).
    destruct (Nat.eqb_spec f (feat q)); subst; lra.
  - change (@n0 R _) with 0 in C. apply nleb_false in C.
    assert (CH : child t q c) by (right; auto). pose proof (child_lt t WF _ _ CH).
    destruct (wf_node t WF q ltac:(lia)) as [[_ Y]|(l&r&EL&ER&_)]; [lia|]. assert (r = c) by lia. subst r.
    destruct (K q l c EL ER) as [_ [_ A]]. intros f Hf. destruct (A f Hf) as [-> ->]. specialize (IH f Hf).
    destruct (Nat.eqb_spec f (feat q)); subst; lra.
Qed.

Lemma converse : forall X bs, boxes_ok X bs -> splits_inside t bs -> forall x v, (v < n)%nat ->
  in_half_box p x (nth v bs []) -> reaches t x v /\ in_half_box p x (nth 0 bs []).
Proof.
  intros X bs (L&H&K) SI x. apply (tree_ind t WF (fun v => in_half_box p x (nth v bs []) -> reaches t x v /\ in_half_box p x (nth 0 bs []))).
  - intros IB. split; auto. constructor.
  - intros q c CH IH IB. pose proof (child_lt t WF _ _ CH).
    destruct (wf_node t WF q ltac:(lia)) as [[X1 X2]|(l&r&EL&ER&_)]; [destruct CH; lia|].
    assert (LF : is_leafb t q = false) by (unfold is_leafb; apply Z.eqb_neq; lia).
    pose proof (SI q ltac:(lia) LF) as S1. cbn zeta in S1. pose proof (FO q ltac:(lia) LF) as FQ.
    destruct (K q l r EL ER) as [[_ A] [_ B]]. destruct (child_two t q c l r EL ER CH) as [->| ->].
    + assert (IQ : in_half_box p x (nth q bs [])).
      { intros f Hf. specialize (IB f Hf). destruct (A f Hf) as [E1 E2]. rewrite E1, E2 in IB.
        destruct (Nat.eqb_spec f (feat q)); subst; lra. }
      destruct (IH IQ) as [R1 R2]. split; auto. eapply reach_left; eauto. change (@n0 R _) with 0. apply nleb_true.
      specialize (IB (feat q) FQ). destruct (A _ FQ) as [E1 E2]. rewrite E1, E2 in IB. rewrite Nat.eqb_refl in IB. lra.
    + assert (IQ : in_half_box p x (nth q bs [])).
      { intros f Hf. specialize (IB f Hf). destruct (B f Hf) as [E1 E2]. rewrite E1, E2 in IB.
        destruct (Nat.eqb_spec f (feat q)); subst; lra. }
      destruct (IH IQ) as [R1 R2]. split; auto. eapply reach_right; eauto. change (@n0 R _) with 0. apply nleb_false.
      specialize (IB (feat q) FQ). destruct (B _ FQ) as [E1 E2]. rewrite E1, E2 in IB. rewrite Nat.eqb_refl in IB. lra.
Qed.

Lemma box_len : forall X bs, boxes_ok X bs -> forall v, (v < n)%nat -> length (nth v bs []) = p.
Proof.
  intros X bs (L&H&K). apply (tree_ind t WF (fun v => length (nth v bs []) = p)).
  - apply H.
  - intros q c CH IH. pose proof (child_lt t WF _ _ CH).
    destruct (wf_node t WF q ltac:(lia)) as [[X1 X2]|(l&r&EL&ER&_)]; [destruct CH; lia|].
    destruct (K q l r EL ER) as [[A _] [B _]]. destruct (child_two t q c l r EL ER CH) as [->| ->]; auto.
Qed.
Lemma nonempty : forall X bs, X <> [] -> boxes_ok X bs -> splits_inside t bs -> forall v, (v < n)%nat ->
  forall f, (f < p)%nat -> lower (nth v bs []) f <= upper (nth v bs []) f.
Proof.
  intros X bs NE (L&H&K) SI.
  apply (tree_ind t WF (fun v => forall f, (f < p)%nat -> lower (nth v bs []) f <= upper (nth v bs []) f)).
  - intros f Hf. destruct X as [|x X]; [congruence|]. destruct H as (_&H&_). pose proof (H x (or_introl eq_refl) f Hf). lra.
  - intros q c CH IH f Hf. pose proof (child_lt t WF _ _ CH).
    destruct (wf_node t WF q ltac:(lia)) as [[X1 X2]|(l&r&EL&ER&_)]; [destruct CH; lia|].
    assert (LF : is_leafb t q = false) by (unfold is_leafb; apply Z.eqb_neq; lia).
    pose proof (SI q ltac:(lia) LF) as S1. cbn zeta in S1. specialize (IH f Hf).
    destruct (K q l r EL ER) as [[_ A] [_ B]]. destruct (A f Hf) as [E1 E2]. destruct (B f Hf) as [E3 E4].
    destruct (child_two t q c l r EL ER CH) as [->| ->]; [rewrite E1, E2|rewrite E3, E4];
      destruct (Nat.eqb_spec f (feat q)); subst; lra.
Qed.
End Boxes.

(** *** centers *)
Lemma center_ok : forall t X bs cs, bound_box_tree t X = Ok bs -> center_tree t X = Ok cs ->
  length cs = length bs /\ forall v, (v < length bs)%nat -> length (nth v cs []) = length (nth v bs []) /\
    forall f, (f < length (nth v bs []))%nat -> nth f (nth v cs []) 0 = (lower (nth v bs []) f + upper (nth v bs []) f) / 2.
Proof.
  intros t X bs cs E H. unfold center_tree in H. rewrite E in H. cbn [bind] in H.
  assert (C : cs = map (map (fun lh : R * R => (fst lh + snd lh) / 2)) bs).
  { inversion H. apply map_ext. intros b. apply map_ext. intros [a b']. cbn. f_equal. }
  subst cs. split; [apply map_length|]. intros v Hv. rewrite nth_map_in with (d := []) by auto. rewrite map_length. split; auto.
  intros f Hf. rewrite nth_map_in with (d := (0,0)) by auto. reflexivity.
Qed.

(** *** stacked blocks *)
Lemma nth_concat : forall {A} (bl : list (list A)) q i d, (q < length bl)%nat -> (i < length (nth q bl []))%nat ->
  nth (sumn (map (@length A) (firstn q bl)) + i) (concat bl) d = nth i (nth q bl []) d.
Proof.
  intros A. induction bl as [|b bl IH]; intros q i d Hq Hi; [cbn in Hq; lia|]. cbn [concat].
  destruct q as [|q]; cbn [firstn map] in *.
  - cbn [sumn fold_right Nat.add nth] in *. apply app_nth1. auto.
  - change (sumn (length b :: map (@length A) (firstn q bl))) with (length b + sumn (map (@length A) (firstn q bl)))%nat.
    rewrite app_nth2 by lia. replace (length b + _ + i - length b)%nat with (sumn (map (@length A) (firstn q bl)) + i)%nat by lia.
    cbn [nth] in *. apply IH; auto. cbn in Hq. lia.
Qed.
Lemma length_concat : forall {A} (bl : list (list A)), length (concat bl) = sumn (map (@length A) bl).
Proof. induction bl; auto. cbn [concat map]. rewrite app_length, IHbl. reflexivity. Qed.

Definition tags {A} (s : nat) (bl : list (list A)) : list (list nat) :=
  map2 (fun q b => repeat q (length b)) (seq s (length bl)) bl.
Lemma tags_length : forall {A} (bl : list (list A)) s, map (@length nat) (tags s bl) = map (@length A) bl.
Proof. induction bl; intros; auto. unfold tags in *. cbn [length seq map2 map]. rewrite repeat_length, IHbl. auto. Qed.
Lemma tags_nth : forall {A} (bl : list (list A)) s q, (q < length bl)%nat -> nth q (tags s bl) [] = repeat (s + q)%nat (length (nth q bl [])).
Proof.
  induction bl as [|b bl IH]; intros s q Hq; [cbn in Hq; lia|]. unfold tags in *. cbn [length seq map2].
  destruct q; cbn [nth]; [rewrite Nat.add_0_r; auto|]. rewrite IH by (cbn in Hq; lia). f_equal. lia.
Qed.
Lemma tags_len : forall {A} (bl : list (list A)) s, length (tags s bl) = length bl.
Proof. intros. pose proof (f_equal (@length nat) (tags_length bl s)) as E. rewrite !map_length in E. auto. Qed.

Lemma fold_blocks : forall {B C} (g : B -> result (list C)) ts bl, mapM g ts = Ok bl -> forall s m ti,
  foldM (fun '(m, ti) '(q, t) => do c <- g t; Ok (m ++ c, ti ++ repeat q (length c))) (combine (seq s (length ts)) ts) (m, ti)
  = Ok (m ++ concat bl, ti ++ concat (tags s bl)).
Proof.
  intros B C g. induction ts as [|t ts IH]; intros bl H s m ti; cbn [mapM] in H.
  - inversion H; subst. cbn. rewrite !app_nil_r. auto.
  - apply bind_ok in H. destruct H as (c&E&H). apply bind_ok in H. destruct H as (bl'&E2&H). inversion H; subst.
    cbn [length seq combine foldM]. rewrite E. cbn [bind]. rewrite (IH bl' E2). unfold tags. cbn [length seq map2 concat].
    rewrite <- !app_assoc. auto.
Qed.


Lemma p_C49_boxes : forall (t : tree R) p X, wf_tree t -> features_ok p t -> data_ok p X ->
  exists bs, bound_box_tree t X = Ok bs /\ length bs = size t /\ hull p X (nth 0 bs []) /\
  forall v l r, lc t v = Z.of_nat l -> rc t v = Z.of_nat r ->
    let f := nth v (t_feature t) 0%nat in let x := nth v (t_thresh t) 0 in
    cut_hi p f x (nth v bs []) (nth l bs []) /\ cut_lo p f x (nth v bs []) (nth r bs []).
Proof. intros t p X WF FO OK. destruct (bound_ok t WF p FO X OK) as (bs&E&A&B&C). exists bs. auto. Qed.

Lemma p_C49_contains : forall (t : tree R) p X bs x v, wf_tree t -> features_ok p t -> data_ok p X ->
  bound_box_tree t X = Ok bs -> in_range p X x -> reaches t x v -> in_box p x (nth v bs []).
Proof.
  intros t p X bs x v WF FO OK E IR RE. destruct (bound_ok t WF p FO X OK) as (bs'&E'&K). assert (bs' = bs) by congruence. subst.
  eapply contains; eauto.
Qed.
Lemma p_C49_data : forall p X x, data_ok p X -> In x X -> in_range p X x.
Proof. intros p X x _ I f Hf. exists x, x. split; auto. split; auto. lra. Qed.
Lemma p_C49_inside : forall (t : tree R) p X bs x v, wf_tree t -> features_ok p t -> data_ok p X ->
  bound_box_tree t X = Ok bs -> splits_inside t bs -> (v < size t)%nat -> in_half_box p x (nth v bs []) -> reaches t x v.
Proof.
  intros t p X bs x v WF FO OK E SI Hv IH. destruct (bound_ok t WF p FO X OK) as (bs'&E'&K). assert (bs' = bs) by congruence. subst.
  eapply converse; eauto.
Qed.
Lemma p_C49_center : forall (t : tree R) p X, wf_tree t -> features_ok p t -> data_ok p X ->
  exists bs cs, bound_box_tree t X = Ok bs /\ center_tree t X = Ok cs /\ length cs = size t /\
  forall v, (v < size t)%nat -> length (nth v cs []) = p /\
    (forall f, (f < p)%nat -> nth f (nth v cs []) 0 = (lower (nth v bs []) f + upper (nth v bs []) f) / 2) /\
    (forall f, (f < p)%nat -> lower (nth v bs []) f <= upper (nth v bs []) f ->
       lower (nth v bs []) f <= nth f (nth v cs []) 0 <= upper (nth v bs []) f) /\
    (splits_inside t bs -> in_box p (nth v cs []) (nth v bs [])).
Proof.
  intros t p X WF FO OK. destruct (bound_ok t WF p FO X OK) as (bs&E&K). exists bs.
  assert (exists cs, center_tree t X = Ok cs) as (cs&C) by (unfold center_tree; rewrite E; cbn [bind]; eauto).
  exists cs. split; auto. split; auto. destruct (center_ok t X bs cs E C) as [L H]. pose proof K as (LB&_). rewrite LB in *.
  split; auto. intros v Hv. destruct (H v Hv) as [L1 H1]. rewrite (box_len t WF p X bs K v Hv) in *. split; auto. split; auto.
  split; [intros f Hf O; rewrite H1 by auto; lra|].
  intros SI f Hf. rewrite H1 by auto.
  pose proof (nonempty t WF p X bs (proj1 OK) K SI v Hv f Hf). lra.
Qed.
Lemma p_C49_forest : forall ts p X, Forall wf_tree ts -> Forall (features_ok p) ts -> data_ok p X ->
  exists M ti, center_forest ts X = Ok (M, ti) /\ length M = nodes_before ts (length ts) /\ length ti = length M /\
  forall q t, nth_error ts q = Some t -> exists cs, center_tree t X = Ok cs /\
    forall v, (v < size t)%nat -> nth (nodes_before ts q + v) M [] = nth v cs [] /\ nth (nodes_before ts q + v) ti 0%nat = q.
Proof.
  intros ts p X W F OK. rewrite Forall_forall in W, F.
  destruct (mapM_total (fun t => center_tree t X) ts) as (bl&E&LB).
  { intros t I. destruct (p_C49_center t p X (W t I) (F t I) OK) as (bs&cs&_&C&_). eauto. }
  assert (BL : map (@length (list R)) bl = map size ts).
  { apply (nth_eq_ext _ _ 0%nat); rewrite !map_length; auto. intros q Hq. rewrite nth_map_in with (d := []) by auto.
    destruct (nth_error ts q) as [t|] eqn:ET; [|apply nth_error_None in ET; lia].
    destruct (mapM_nth_error _ _ _ E q t ET) as (c&C1&C2). rewrite (nth_error_nth _ _ _ C1).
    rewrite nth_map_in with (d := t) by lia. rewrite (nth_error_nth _ _ _ ET).
    pose proof (nth_error_In _ _ ET) as I. destruct (p_C49_center t p X (W t I) (F t I) OK) as (bs&cs&_&C&L&_). congruence. }
  pose proof (fold_blocks (fun t => center_tree t X) ts bl E 0 [] []) as FB. cbn [app] in FB.
  exists (concat bl), (concat (tags 0 bl)). split; [exact FB|].
  split; [rewrite length_concat, BL; unfold nodes_before; rewrite firstn_all; auto|].
  split; [rewrite !length_concat, tags_length; auto|].
  intros q t ET. destruct (mapM_nth_error _ _ _ E q t ET) as (c&C1&C2). exists c. split; auto. intros v Hv.
  assert (Hq : (q < length bl)%nat) by (rewrite LB; apply nth_error_Some; congruence).
  assert (LC : length c = size t).
  { pose proof (nth_error_In _ _ ET) as I. destruct (p_C49_center t p X (W t I) (F t I) OK) as (bs&cs&_&C&L&_). congruence. }
  assert (NB : nodes_before ts q = sumn (map (@length (list R)) (firstn q bl))).
  { unfold nodes_before. rewrite <- !firstn_map, BL. auto. }
  split.
  - rewrite NB, nth_concat; auto; [|rewrite (nth_error_nth _ _ _ C1); lia]. rewrite (nth_error_nth _ _ _ C1). auto.
  - rewrite NB. replace (map (@length (list R)) (firstn q bl)) with (map (@length nat) (firstn q (tags 0 bl))) by (rewrite <- !firstn_map, tags_length; auto).
    rewrite nth_concat.
    + rewrite tags_nth by auto. rewrite nth_repeat_lt; auto. rewrite (nth_error_nth _ _ _ C1). lia.
    + rewrite tags_len. auto.
    + rewrite tags_nth by auto. rewrite repeat_length, (nth_error_nth _ _ _ C1). lia.
Qed.
