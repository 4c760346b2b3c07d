(** L_Prune: the pruning table as a function of the set of pruned nodes. *)
From Verif Require Import Base TreeSpec Spec M_Tree M_Prune SpecPrune.
From Verif Require Import L_Base L_Tree L_TreeModel L_Gamma L_Gamma2 L_Sgd.
From Coq Require Import Reals Lra Lia.
Local Open Scope R_scope.

(** *** calc_parent *)
Lemma scatter_length : forall c ps, length (scatter_parents c ps) = length ps.
Proof.
  intros c ps. unfold scatter_parents. generalize (combine (seq 0 (length c)) c). intros l. revert ps.
  induction l as [|[p ch] l IH]; intros ps; auto. cbn [fold_left]. rewrite IH. destruct (Z.eqb ch (-1)); auto. apply upd_length.
Qed.
(** generalised over the start of the numbering *)
Definition scat (s : nat) (c : list Z) (ps : list Z) : list Z :=
  fold_left (fun ps '(p, ch) => if Z.eqb ch (-1) then ps else upd ps (Z.to_nat ch) (Z.of_nat p)) (combine (seq s (length c)) c) ps.
Lemma scat_miss : forall c s ps v, (forall i, (i < length c)%nat -> nth i c (-1)%Z <> Z.of_nat v) ->
  (forall i, (i < length c)%nat -> (-1 <= nth i c (-1))%Z) -> nth v (scat s c ps) (-1)%Z = nth v ps (-1)%Z.
Proof.
  induction c as [|x c IH]; intros s ps v H G; auto. unfold scat. cbn [length seq combine fold_left].
  change (nth v (scat (S s) c (if Z.eqb x (-1) then ps else upd ps (Z.to_nat x) (Z.of_nat s))) (-1)%Z = nth v ps (-1)%Z).
  rewrite IH.
  - destruct (Z.eqb_spec x (-1)); auto. rewrite nth_upd_neq; auto.
    specialize (H 0%nat ltac:(cbn; lia)). specialize (G 0%nat ltac:(cbn; lia)). cbn [nth] in *. lia.
  - intros i Hi. apply (H (S i)). cbn; lia.
  - intros i Hi. apply (G (S i)). cbn; lia.
Qed.
Lemma scat_hit : forall c s ps v i, (i < length c)%nat -> nth i c (-1)%Z = Z.of_nat v -> (v < length ps)%nat ->
  (forall j, (j < length c)%nat -> nth j c (-1)%Z = Z.of_nat v -> j = i) ->
  (forall j, (j < length c)%nat -> (-1 <= nth j c (-1))%Z) -> nth v (scat s c ps) (-1)%Z = Z.of_nat (s + i).
Proof.
  induction c as [|x c IH]; intros s ps v i Hi E L U G; [cbn in Hi; lia|]. unfold scat. cbn [length seq combine fold_left].
  change (nth v (scat (S s) c (if Z.eqb x (-1) then ps else upd ps (Z.to_nat x) (Z.of_nat s))) (-1)%Z = Z.of_nat (s + i)).
  destruct i as [|i].
  - cbn [nth] in E. subst x. rewrite scat_miss.
    + destruct (Z.eqb_spec (Z.of_nat v) (-1)); [lia|]. rewrite Nat2Z.id, nth_upd_eq by auto. f_equal. lia.
    + intros j Hj EJ. specialize (U (S j) ltac:(cbn; lia) EJ). lia.
    + intros j Hj. apply (G (S j)). cbn; lia.
  - rewrite (IH (S s) _ v i); auto.
    + f_equal. lia.
    + cbn in Hi. lia.
    + destruct (Z.eqb x (-1)); auto. rewrite upd_length. auto.
    + intros j Hj EJ. specialize (U (S j) ltac:(cbn; lia) EJ). lia.
    + intros j Hj. apply (G (S j)). cbn; lia.
Qed.

Section Tree.
Variable t : tree R.
Hypothesis WF : wf_tree t.
Notation n := (size t).

Lemma child_range : forall c, c = t_left t \/ c = t_right t -> length c = n /\ forall i, (i < length c)%nat -> (-1 <= nth i c (-1))%Z.
Proof.
  intros c [->| ->].
  - split; auto. intros i Hi. destruct (wf_node t WF i Hi) as [[A _]|(l&r&A&_)]; unfold lc in A; lia.
  - split; [apply (wf_len_right t WF)|]. intros i Hi. rewrite (wf_len_right t WF) in Hi.
    destruct (wf_node t WF i Hi) as [[_ A]|(l&r&_&A&_)]; unfold rc in A; lia.
Qed.
Lemma calc_parent_length : length (calc_parent t) = n.
Proof. unfold calc_parent. rewrite !scatter_length, repeat_length. auto. Qed.
Lemma calc_parent_root : nth 0 (calc_parent t) (-1)%Z = (-1)%Z.
Proof.
  destruct (child_range (t_left t) (or_introl eq_refl)) as [L1 G1]. destruct (child_range (t_right t) (or_intror eq_refl)) as [L2 G2].
  unfold calc_parent. change (nth 0 (scat 0 (t_right t) (scat 0 (t_left t) (repeat (-1)%Z n))) (-1)%Z = (-1)%Z).
  rewrite !scat_miss; auto.
  - destruct n; reflexivity.
  - intros i Hi E. assert (C : child t i 0) by (left; auto). apply (child_lt t WF) in C. lia.
  - intros i Hi E. assert (C : child t i 0) by (right; auto). apply (child_lt t WF) in C. lia.
Qed.
Lemma calc_parent_child : forall p c, child t p c -> nth c (calc_parent t) (-1)%Z = Z.of_nat p.
Proof.
  intros p c H. pose proof (child_lt t WF p c H) as B.
  destruct (child_range (t_left t) (or_introl eq_refl)) as [L1 G1]. destruct (child_range (t_right t) (or_intror eq_refl)) as [L2 G2].
  unfold calc_parent. change (nth c (scat 0 (t_right t) (scat 0 (t_left t) (repeat (-1)%Z n))) (-1)%Z = Z.of_nat p).
  destruct H as [H|H].
  - rewrite scat_miss; auto.
    + rewrite (scat_hit _ 0 _ c p); auto; [rewrite L1; lia|rewrite repeat_length; lia|].
      intros j Hj EJ. apply (parent_unique t WF j p c); left; auto.
    + intros i Hi E. assert (i = p) by (apply (parent_unique t WF i p c); [right|left]; auto). subst i.
      destruct (wf_node t WF p ltac:(lia)) as [[A _]|(l&r&A1&A2&_&_&NE)]; unfold lc, rc in *; lia.
  - rewrite (scat_hit _ 0 _ c p); auto; [rewrite L2; lia| |].
    + unfold scat. pose proof (scatter_length (t_left t) (repeat (-1)%Z n)) as X. unfold scatter_parents in X. rewrite X, repeat_length. lia.
    + intros j Hj EJ. apply (parent_unique t WF j p c); right; auto.
Qed.

(** *** tables given by a function *)
Definition tab (F : nat -> prow R) : list (prow R) := map F (seq 0 n).
Lemma tab_length : forall F, length (tab F) = n.
Proof. intros. unfold tab. rewrite map_length, seq_length. auto. Qed.
Lemma tab_ext : forall F G, (forall u, (u < n)%nat -> F u = G u) -> tab F = tab G.
Proof. intros. apply map_ext_in. intros u Hu. apply in_seq in Hu. apply H. lia. Qed.
Lemma tab_nth_error : forall F v, (v < n)%nat -> nth_error (tab F) v = Some (F v).
Proof. intros F v Hv. unfold tab. apply map_nth_error with (f := F). rewrite nth_error_nth' with (d := 0%nat) by (rewrite seq_length; auto). rewrite seq_nth by auto. auto. Qed.
Lemma row_at_tab : forall F v, (v < n)%nat -> row_at (tab F) (Z.of_nat v) = Some (F v).
Proof. intros. unfold row_at. destruct (Z.ltb_spec (Z.of_nat v) 0); [lia|]. rewrite Nat2Z.id. apply tab_nth_error; auto. Qed.
Lemma get_tab : forall F v, (v < n)%nat -> get (tab F) (Z.of_nat v) = Ok (F v).
Proof. intros. unfold get. rewrite row_at_tab by auto. auto. Qed.
Lemma get_bad : forall F z, (forall v, (v < n)%nat -> z <> Z.of_nat v) -> get (tab F) z = Err IndexError.
Proof.
  intros F z H. unfold get, row_at. destruct (Z.ltb_spec z 0); auto.
  rewrite (proj2 (nth_error_None (tab F) (Z.to_nat z))); auto. rewrite tab_length.
  destruct (Nat.lt_ge_cases (Z.to_nat z) n); auto. exfalso. apply (H _ H1). lia.
Qed.
Lemma put_tab : forall F v r, (v < n)%nat -> put (tab F) (Z.of_nat v) r = tab (fun u => if Nat.eqb u v then r else F u).
Proof.
  intros F v r Hv. unfold put. rewrite Nat2Z.id. apply nth_eq_ext with (d := r).
  - rewrite upd_length, !tab_length. auto.
  - intros u Hu. rewrite upd_length, tab_length in Hu.
    assert (E : forall G, nth u (tab G) r = G u) by (intros G; apply nth_error_nth; apply tab_nth_error; auto).
    rewrite E. destruct (Nat.eqb_spec u v) as [->|NE]; [apply nth_upd_eq; rewrite tab_length; auto|].
    rewrite nth_upd_neq by auto. apply E.
Qed.

(** *** the cut tree, decidably *)
Definition rmb (P : list nat) (v : nat) : bool := existsb (fun a => (ancb t a v && negb (Nat.eqb a v))%bool) P.
Definition nlb (P : list nat) (u : nat) : bool := (negb (rmb P u) && (is_leafb t u || existsb (Nat.eqb u) P))%bool.
Definition below (P : list nat) (v u : nat) : bool := (nlb P u && ancb t v u)%bool.
Definition inb (P : list nat) : Prop := forall a, In a P -> (a < n)%nat.

Lemma inb_existsb : forall P u, existsb (Nat.eqb u) P = true <-> In u P.
Proof.
  intros P u. rewrite existsb_exists. split; [intros (x&I&E); apply Nat.eqb_eq in E; subst; auto|].
  intros I. exists u. rewrite Nat.eqb_refl. auto.
Qed.
Lemma rmb_iff : forall P v, inb P -> (v < n)%nat -> (rmb P v = true <-> removed t P v).
Proof.
  intros P v B Hv. unfold rmb, removed. rewrite existsb_exists. split.
  - intros (a&I&E). apply andb_prop in E. destruct E as [E1 E2]. apply (ancb_iff t WF) in E1; auto.
    exists a. split; auto. split; auto. intros ->. rewrite Nat.eqb_refl in E2. discriminate.
  - intros (a&I&A&NE). exists a. split; auto. rewrite (proj2 (ancb_iff t WF a v Hv (B a I)) A). cbn.
    destruct (Nat.eqb_spec a v); auto.
Qed.
Lemma nlb_iff : forall P u, inb P -> (u < n)%nat -> (nlb P u = true <-> now_leaf t P u).
Proof.
  intros P u B Hu. unfold nlb, now_leaf. rewrite andb_true_iff, negb_true_iff, orb_true_iff, inb_existsb.
  pose proof (rmb_iff P u B Hu) as X. destruct (rmb P u); intuition congruence.
Qed.
Lemma below_iff : forall P v u, inb P -> (u < n)%nat -> (v < n)%nat -> (below P v u = true <-> now_leaf t P u /\ anc t v u).
Proof. intros. unfold below. rewrite andb_true_iff, nlb_iff, (ancb_iff t WF); auto. tauto. Qed.

Lemma removed_down : forall P v u, removed t P v -> anc t v u -> removed t P u.
Proof.
  intros P v u (a&I&A&NE) V. exists a. split; auto. split; [apply (anc_trans t a v u); auto|].
  intros ->. pose proof (anc_antisym t WF u v A V). congruence.
Qed.
Lemma three_cases : forall P v, inb P -> (v < n)%nat -> removed t P v \/ now_leaf t P v \/ now_internal t P v.
Proof.
  intros P v B Hv. pose proof (rmb_iff P v B Hv) as X. destruct (rmb P v); [left; tauto|]. right.
  assert (NR : ~ removed t P v) by (intros Q; apply X in Q; discriminate).
  destruct (is_leafb t v) eqn:L; [left; split; auto|]. destruct (in_dec Nat.eq_dec v P); [left|right]; repeat split; auto.
Qed.
Lemma not_both : forall P v, now_leaf t P v -> now_internal t P v -> False.
Proof. intros P v (_&_&[A|A]) (_&_&B&C); [congruence|auto]. Qed.
Lemma child_not_removed : forall P v c, now_internal t P v -> child t v c -> ~ removed t P c.
Proof.
  intros P v c (Hv&NR&NL&NI) C (a&I&A&NE). destruct (proj1 (anc_child t WF v c C a) A) as [->|A']; [congruence|].
  apply NR. exists a. split; auto. split; auto. intros ->. auto.
Qed.

(** sums over the remaining leaves below a node *)
Definition SS (P : list nat) (f : nat -> R) (v : nat) : R := sum_sel n (below P v) f.
Definition cnt (P : list nat) (v : nat) : nat := count_sel t (below P v).
Lemma cnt_SS : forall P v, INR (cnt P v) = SS P (fun _ => 1) v.
Proof.
  intros. unfold cnt, SS, count_sel. rewrite sum_sel_nsum. generalize (filter (below P v) (seq 0 n)). intros l.
  induction l as [|a l IH]; [reflexivity|]. cbn [map length]. rewrite nsum_cons, S_INR, IH. lra.
Qed.
Lemma SS_leaf : forall P f v, inb P -> now_leaf t P v -> SS P f v = f v.
Proof.
  intros P f v B NL. pose proof (proj1 NL) as Hv. unfold SS, sum_sel. rewrite (sumto_single _ _ v); auto.
  - rewrite (proj2 (below_iff P v v B Hv Hv)); auto. split; auto. constructor. auto.
  - intros u Hu NE. destruct (below P v u) eqn:E; auto. exfalso. apply (below_iff P v u B Hu Hv) in E. destruct E as [(_&NR&_) A].
    destruct NL as (_&_&[L|I]).
    + assert (AX : forall x, anc t v x -> x = v).
      { intros x AX. induction AX as [|a p c AX IH C]; auto. rewrite (IH L Hv NE A) in C. exfalso. apply (leaf_no_child t WF _ _ L C). }
      apply NE. auto.
    + apply NR. exists v. auto.
Qed.
Lemma below_children : forall v l r u, lc t v = Z.of_nat l -> rc t v = Z.of_nat r -> (u < n)%nat ->
  (anc t v u <-> u = v \/ anc t l u \/ anc t r u) /\ ~ (anc t l u /\ anc t r u) /\ ~ anc t l v /\ ~ anc t r v.
Proof.
  intros v l r u HL HR Hu. assert (CL : child t v l) by (left; auto). assert (CR : child t v r) by (right; auto).
  pose proof (child_lt t WF v l CL) as BL. pose proof (child_lt t WF v r CR) as BR.
  assert (AV : anc t v v) by (constructor; lia).
  assert (NLR : l <> r).
  { destruct (wf_node t WF v ltac:(lia)) as [[A _]|(l'&r'&A1&A2&_&_&NE)]; [lia|]. intros ->. apply NE. lia. }
  split; [|split; [|split]].
  - split.
    + intros A. revert Hu. induction A as [|a p c A IH C]; intros Hu; auto. pose proof (child_lt t WF p c C).
      destruct (IH HL HR CL CR BL BR AV ltac:(lia)) as [->|[Q|Q]].
      * destruct (child_two t a c l r HL HR C) as [->| ->]; right; [left|right]; constructor; lia.
      * right; left. apply (anc_step t l p c); auto.
      * right; right. apply (anc_step t r p c); auto.
    + intros [->|[Q|Q]]; auto; [apply (anc_trans t v l u)|apply (anc_trans t v r u)]; auto; eapply anc_step; eauto.
  - intros [A B]. destruct (anc_comparable t WF l r u A B) as [Q|Q].
    + apply (anc_child t WF v r CR) in Q. destruct Q as [Q|Q]; [auto|]. apply anc_lt in Q; auto. lia.
    + apply (anc_child t WF v l CL) in Q. destruct Q as [Q|Q]; [auto|]. apply anc_lt in Q; auto. lia.
  - intros A. apply anc_lt in A; auto. lia.
  - intros A. apply anc_lt in A; auto. lia.
Qed.
Lemma SS_internal : forall P f v l r, inb P -> now_internal t P v -> lc t v = Z.of_nat l -> rc t v = Z.of_nat r ->
  SS P f v = SS P f l + SS P f r.
Proof.
  intros P f v l r B NI HL HR. pose proof (proj1 NI) as Hv.
  assert (BL : (l < n)%nat) by (apply (child_lt t WF v l); left; auto). assert (BR : (r < n)%nat) by (apply (child_lt t WF v r); right; auto).
  unfold SS, sum_sel. rewrite <- sumto_plus. apply sumto_ext. intros u Hu.
  destruct (below_children v l r u HL HR Hu) as (X1&X2&_).
  destruct (below P v u) eqn:EV; destruct (below P l u) eqn:EL; destruct (below P r u) eqn:ER;
    repeat match goal with
    | H : below P ?x u = true |- _ => apply (below_iff P x u B Hu ltac:(assumption)) in H
    | H : below P ?x u = false |- _ => assert (~ (now_leaf t P u /\ anc t x u)) by (rewrite <- (below_iff P x u B Hu ltac:(assumption)); congruence); clear H
    end; try lra; exfalso; try tauto.
  assert (u = v) by tauto. subst u. eapply not_both; [apply EV|exact NI].
Qed.
Lemma SS_removed : forall P f v, inb P -> (v < n)%nat -> removed t P v -> SS P f v = 0.
Proof.
  intros P f v B Hv RM. unfold SS, sum_sel. apply sumto_zero. intros u Hu. destruct (below P v u) eqn:E; auto. exfalso.
  apply (below_iff P v u B Hu Hv) in E. destruct E as [(_&NR&_) A]. apply NR. apply (removed_down P v u); auto.
Qed.
Lemma SS_pos : forall P v, inb P -> (v < n)%nat -> ~ removed t P v -> 1 <= SS P (fun _ => 1) v.
Proof.
  intros P v B. induction v as [v IH] using (well_founded_induction (well_founded_ltof nat (fun v => n - v)%nat)). intros Hv NR.
  destruct (three_cases P v B Hv) as [X|[X|X]]; [tauto|rewrite SS_leaf by auto; lra|].
  pose proof X as (_&_&NL&_). destruct (nonleaf_children t WF v Hv NL) as (l&r&HL&HR&BL&BR&_).
  rewrite (SS_internal P _ v l r B X HL HR).
  assert (1 <= SS P (fun _ => 1) l).
  { apply IH; [unfold ltof; lia|lia|]. apply (child_not_removed P v l); auto. left; auto. }
  assert (0 <= SS P (fun _ => 1) r); [|lra]. unfold SS, sum_sel. apply sumto_nonneg. intros u _. destruct (below P r u); lra.
Qed.
Lemma SS_two : forall P v, inb P -> now_internal t P v -> 2 <= SS P (fun _ => 1) v.
Proof.
  intros P v B X. pose proof X as (Hv&_&NL&_). destruct (nonleaf_children t WF v Hv NL) as (l&r&HL&HR&BL&BR&_).
  rewrite (SS_internal P _ v l r B X HL HR).
  assert (1 <= SS P (fun _ => 1) l) by (apply SS_pos; [auto|lia|]; apply (child_not_removed P v l); auto; left; auto).
  assert (1 <= SS P (fun _ => 1) r) by (apply SS_pos; [auto|lia|]; apply (child_not_removed P v r); auto; right; auto). lra.
Qed.

(** *** adding one more cut *)
Lemma removed_cons : forall P v u, removed t (v :: P) u <-> removed t P u \/ (anc t v u /\ v <> u).
Proof.
  intros. unfold removed. cbn [In]. split.
  - intros (a&[->|I]&A&NE); [right; auto|left; eauto].
  - intros [(a&I&A&NE)|[A NE]]; [exists a; auto|exists v; auto].
Qed.
Lemma inb_cons : forall P v, inb P -> (v < n)%nat -> inb (v :: P).
Proof. intros P v B Hv a [<-|I]; auto. Qed.
Lemma now_leaf_cons : forall P v u, inb P -> now_internal t P v -> (u < n)%nat ->
  (now_leaf t (v :: P) u <-> u = v \/ (now_leaf t P u /\ ~ anc t v u)).
Proof.
  intros P v u B NI Hu. pose proof NI as (Hv&NR&NL&NIn). unfold now_leaf. rewrite removed_cons. cbn [In]. split.
  - intros (_&X&Y). destruct (Nat.eq_dec v u) as [->|NE]; [auto|]. right.
    assert (~ anc t v u) by tauto. split; [|auto]. split; auto. split; [tauto|]. destruct Y as [Y|[Y|Y]]; auto; congruence.
  - intros [->|[(_&X&Y) NA]].
    + split; auto. split; [|auto]. intros [Q|[_ Q]]; auto.
    + split; auto. split; [|tauto]. intros [Q|[Q _]]; auto.
Qed.
Lemma SS_cons : forall P v f a, inb P -> now_internal t P v -> anc t a v ->
  SS (v :: P) f a = SS P f a - SS P f v + f v.
Proof.
  intros P v f a B NI A. pose proof (proj1 NI) as Hv. pose proof (anc_lt t WF a v A) as BA.
  assert (B' : inb (v :: P)) by (apply inb_cons; auto).
  assert (E : SS (v :: P) f a = sumto n (fun u => (if below P a u then f u else 0) + -1 * (if below P v u then f u else 0) + (if Nat.eqb u v then f u else 0))).
  { unfold SS, sum_sel. apply sumto_ext. intros u Hu.
    assert (V1 : anc t v v) by (constructor; auto).
    pose proof (below_iff (v :: P) a u B' Hu ltac:(lia)) as Q1. rewrite (now_leaf_cons P v u B NI Hu) in Q1.
    pose proof (below_iff P a u B Hu ltac:(lia)) as Q2. pose proof (below_iff P v u B Hu Hv) as Q3.
    assert (TR : anc t v u -> anc t a u) by (apply (anc_trans t a v u); auto).
    assert (NB : now_leaf t P u -> u <> v) by (intros Q ->; eapply not_both; eauto).
    destruct (Nat.eqb_spec u v) as [->|NE];
    destruct (below (v :: P) a _), (below P a _), (below P v _); try lra; exfalso; intuition congruence. }
  rewrite E, sumto_plus, sumto_plus, sumto_scal. unfold SS, sum_sel. rewrite (sumto_single _ (fun u => if Nat.eqb u v then f u else 0) v).
  - rewrite Nat.eqb_refl. lra.
  - auto.
  - intros u _ NE. destruct (Nat.eqb_spec u v); [congruence|auto].
Qed.
Lemma below_cons_other : forall P v a u, inb P -> now_internal t P v -> (a < n)%nat -> (u < n)%nat -> ~ anc t a v -> ~ anc t v a ->
  below (v :: P) a u = below P a u.
Proof.
  intros P v a u B NI Ha Hu N1 N2. pose proof (proj1 NI) as Hv. assert (B' : inb (v :: P)) by (apply inb_cons; auto).
  pose proof (below_iff (v :: P) a u B' Hu Ha) as Q1. rewrite (now_leaf_cons P v u B NI Hu) in Q1.
  pose proof (below_iff P a u B Hu Ha) as Q2.
  assert (NV : anc t a u -> ~ anc t v u).
  { intros A V. destruct (anc_comparable t WF a v u A V); auto. }
  assert (V1 : u = v -> anc t a u -> False) by (intros ->; auto).
  destruct (below (v :: P) a u), (below P a u); auto; exfalso; intuition congruence.
Qed.
End Tree.
