(** L_Prune2: initial table and single prunes as functions of the set of pruned nodes. *)
From Verif Require Import Base TreeSpec Spec M_Tree M_Prune SpecPrune.
From Verif Require Import L_Base L_Tree L_TreeModel L_Gamma L_Gamma2 L_Sgd L_Prune.
From Coq Require Import Reals Lra Lia.
Local Open Scope R_scope.

Section Tree.
Variable t : tree R.
Hypothesis WF : wf_tree t.
Variable rs : nat -> R.
Hypothesis PW : forall v, (v < size t)%nat -> 0 < node_w t v.
Notation n := (size t).
Notation tab := (tab t).
Notation SS := (SS t).
Notation cnt := (cnt t).
Notation rmb := (rmb t).
Notation nlb := (nlb t).
Notation inb := (inb t).

Definition nr (u : nat) : R := node_w t u * rs u.
Definition par (v : nat) : Z := nth v (calc_parent t) (-1)%Z.
Definition subR (P : list nat) (v : nat) : R := SS P nr v / node_w t v.
Definition g1of (P : list nat) (v : nat) : gval R := GFin ((rs v - subR P v) / (INR (cnt P v) - 1)).
Definition mkrow (P : list nat) (gs : nat -> gval R) (v : nat) : prow R :=
  if rmb P v then mkRow (rs v) (rs v) (-2) (-2) 0 (par v) (node_w t v) GNaN
  else if nlb P v then mkRow (rs v) (rs v) (-1) (-1) 1 (par v) (node_w t v) (gs v)
  else mkRow (rs v) (subR P v) (lc t v) (rc t v) (cnt P v) (par v) (node_w t v) (g1of P v).

Lemma row_removed : forall P gs v, inb P -> (v < n)%nat -> removed t P v ->
  mkrow P gs v = mkRow (rs v) (rs v) (-2) (-2) 0 (par v) (node_w t v) GNaN.
Proof. intros P gs v B Hv RM. unfold mkrow. rewrite (proj2 (rmb_iff t WF P v B Hv) RM). auto. Qed.
Lemma row_leaf : forall P gs v, inb P -> now_leaf t P v ->
  mkrow P gs v = mkRow (rs v) (rs v) (-1) (-1) 1 (par v) (node_w t v) (gs v).
Proof.
  intros P gs v B NL. pose proof NL as (Hv&NR&_). unfold mkrow.
  destruct (rmb P v) eqn:E; [apply (rmb_iff t WF P v B Hv) in E; tauto|].
  rewrite (proj2 (nlb_iff t WF P v B Hv) NL). auto.
Qed.
Lemma row_internal : forall P gs v, inb P -> now_internal t P v ->
  mkrow P gs v = mkRow (rs v) (subR P v) (lc t v) (rc t v) (cnt P v) (par v) (node_w t v) (g1of P v).
Proof.
  intros P gs v B NI. pose proof NI as (Hv&NR&_). unfold mkrow.
  destruct (rmb P v) eqn:E; [apply (rmb_iff t WF P v B Hv) in E; tauto|].
  destruct (nlb P v) eqn:E2; [apply (nlb_iff t WF P v B Hv) in E2; exfalso; eapply not_both; eauto|]. auto.
Qed.
Lemma row_fixed : forall P gs v, pr_single (mkrow P gs v) = rs v /\ pr_par (mkrow P gs v) = par v /\ pr_n (mkrow P gs v) = node_w t v.
Proof. intros. unfold mkrow. destruct (rmb P v); [auto|]. destruct (nlb P v); auto. Qed.
Lemma subR_leaf : forall P v, inb P -> now_leaf t P v -> subR P v = rs v.
Proof.
  intros P v B NL. unfold subR. rewrite SS_leaf by auto. unfold nr. field. pose proof (PW v (proj1 NL)). lra.
Qed.
Lemma subR_mul : forall P v, (v < n)%nat -> subR P v * node_w t v = SS P nr v.
Proof. intros P v Hv. unfold subR. field. pose proof (PW v Hv). lra. Qed.
Lemma cnt_leaf : forall P v, inb P -> now_leaf t P v -> cnt P v = 1%nat.
Proof. intros P v B NL. apply INR_eq. rewrite cnt_SS, SS_leaf by auto. reflexivity. Qed.
Lemma row_alive : forall P gs v, inb P -> (v < n)%nat -> ~ removed t P v ->
  pr_nl (mkrow P gs v) = cnt P v /\ pr_sub (mkrow P gs v) = subR P v.
Proof.
  intros P gs v B Hv NR. destruct (three_cases t WF P v B Hv) as [X|[X|X]]; [tauto| |].
  - rewrite row_leaf by auto. cbn. rewrite cnt_leaf, subR_leaf by auto. auto.
  - rewrite row_internal by auto. auto.
Qed.
Lemma row_cl : forall P gs v, inb P -> (v < n)%nat ->
  (removed t P v -> pr_cl (mkrow P gs v) = (-2)%Z) /\ (now_leaf t P v -> pr_cl (mkrow P gs v) = (-1)%Z) /\
  (now_internal t P v -> pr_cl (mkrow P gs v) = lc t v /\ pr_cr (mkrow P gs v) = rc t v).
Proof.
  intros P gs v B Hv. split; [|split]; intros X.
  - rewrite row_removed by auto. auto.
  - rewrite row_leaf by auto. auto.
  - rewrite row_internal by auto. auto.
Qed.
Lemma par_child : forall p c, child t p c -> par c = Z.of_nat p.
Proof. intros. apply calc_parent_child; auto. Qed.
Lemma par_root : par 0 = (-1)%Z.
Proof. apply calc_parent_root; auto. Qed.

Lemma nil_cases : forall v, (v < n)%nat -> (now_leaf t [] v <-> is_leafb t v = true) /\ (now_internal t [] v <-> is_leafb t v = false) /\ ~ removed t [] v.
Proof.
  intros v Hv. assert (NR : ~ removed t [] v) by (intros (a&[]&_)).
  unfold now_leaf, now_internal. cbn [In]. intuition.
Qed.
Lemma inb_nil : inb []. Proof. intros a []. Qed.

(** *** the initial table *)
Definition s0 (v : nat) : prow R := mkRow (rs v) (rs v) (lc t v) (rc t v) 0 (par v) (node_w t v) GNaN.
Definition d0 (v : nat) : prow R := mkRow (rs v) (subR [] v) (lc t v) (rc t v) (cnt [] v) (par v) (node_w t v) GNaN.

Lemma from_children_row : forall P v l r (x lr rr : prow R), inb P -> now_internal t P v -> lc t v = Z.of_nat l -> rc t v = Z.of_nat r ->
  pr_n x = node_w t v -> pr_nl lr = cnt P l -> pr_nl rr = cnt P r -> pr_sub lr = subR P l -> pr_sub rr = subR P r ->
  pr_n lr = node_w t l -> pr_n rr = node_w t r ->
  from_children x lr rr = mkRow (pr_single x) (subR P v) (pr_cl x) (pr_cr x) (cnt P v) (pr_par x) (node_w t v) (pr_g1 x).
Proof.
  intros P v l r x lr rr B NI HL HR E1 E2 E3 E4 E5 E6 E7. unfold from_children. rewrite E1, E2, E3, E4, E5, E6, E7.
  assert (BL : (l < n)%nat) by (apply (child_lt t WF v l); left; auto). assert (BR : (r < n)%nat) by (apply (child_lt t WF v r); right; auto).
  assert (C : (cnt P l + cnt P r)%nat = cnt P v).
  { apply INR_eq. rewrite plus_INR, !cnt_SS. symmetry. apply SS_internal; auto. }
  rewrite C. f_equal. rn. rewrite !subR_mul by auto. rewrite <- (SS_internal t WF P nr v l r) by auto. reflexivity.
Qed.

Lemma initial_rec : forall f F v, (v < n)%nat -> (n <= v + f)%nat -> (forall u, anc t v u -> F u = s0 u) ->
  recursive_initial f (tab F) (Z.of_nat v) = Ok (tab (fun u => if ancb t v u then d0 u else F u)).
Proof.
  induction f as [|f IH]; intros F v Hv Hf HF; [lia|]. cbn [recursive_initial]. rewrite get_tab by auto. cbn [bind].
  destruct (nil_cases v Hv) as (NL&NI&_).
  rewrite (HF v (anc_refl t v Hv)). change (pr_cl (s0 v)) with (lc t v). change (Z.eqb (lc t v) (-1)) with (is_leafb t v).
  destruct (is_leafb t v) eqn:L.
  - rewrite put_tab by auto. f_equal. apply tab_ext. intros u Hu. destruct (Nat.eqb_spec u v) as [->|NE].
    + rewrite (proj2 (ancb_iff t WF v v Hv Hv) (anc_refl t v Hv)). unfold set_leaf1, s0, d0. cbn.
      rewrite subR_leaf, cnt_leaf by (try apply inb_nil; tauto). auto.
    + destruct (ancb t v u) eqn:A; auto. exfalso. apply (ancb_iff t WF v u Hu Hv) in A.
      assert (X : forall x, anc t v x -> x = v).
      { clear - WF L. intros x A. induction A as [|a p c A IHA C]; auto. rewrite (IHA L) in C. exfalso. apply (leaf_no_child t WF _ _ L C). }
      apply NE. auto.
  - destruct (nonleaf_children t WF v Hv L) as (l&r&HL&HR&BL&BR&NLR). rewrite HL.
    rewrite (IH F l) by first [lia | intros u Hu; apply HF; apply (anc_trans t v l u); auto; apply (anc_step t v v l); [constructor; auto|left; auto]].
    cbn [bind]. rewrite get_tab by auto. cbn [bind].
    destruct (below_children t WF v l r v HL HR Hv) as (_&_&NAL&NAR).
    assert (EAL : ancb t l v = false) by (destruct (ancb t l v) eqn:Q; auto; apply (ancb_iff t WF) in Q; auto; [tauto|lia]).
    assert (EAR : ancb t r v = false) by (destruct (ancb t r v) eqn:Q; auto; apply (ancb_iff t WF) in Q; auto; [tauto|lia]).
    rewrite EAL, (HF v (anc_refl t v Hv)). change (pr_cr (s0 v)) with (rc t v). rewrite HR.
    rewrite (IH _ r); try lia.
    2: { intros u Hu. pose proof (anc_lt t WF r u Hu). destruct (below_children t WF v l r u HL HR ltac:(lia)) as (_&ND&_).
         destruct (ancb t l u) eqn:Q; [apply (ancb_iff t WF) in Q; auto; [tauto|lia|lia]|].
         apply HF. apply (anc_trans t v r u); auto. apply (anc_step t v v r); [constructor; auto|right; auto]. }
    cbn [bind]. rewrite get_tab by auto. cbn [bind]. rewrite EAR, EAL, (HF v (anc_refl t v Hv)).
    change (pr_cl (s0 v)) with (lc t v). change (pr_cr (s0 v)) with (rc t v). rewrite HL, HR. rewrite !get_tab by lia. cbn [bind].
    assert (XL : ancb t r l = false).
    { destruct (ancb t r l) eqn:Q; auto. apply (ancb_iff t WF) in Q; try lia. exfalso.
      destruct (below_children t WF v l r l HL HR ltac:(lia)) as (_&ND&_). apply ND. split; auto. constructor; lia. }
    rewrite XL, (proj2 (ancb_iff t WF l l ltac:(lia) ltac:(lia)) (anc_refl t l ltac:(lia))).
    rewrite (proj2 (ancb_iff t WF r r ltac:(lia) ltac:(lia)) (anc_refl t r ltac:(lia))).
    rewrite put_tab by auto. f_equal. apply tab_ext. intros u Hu.
    destruct (Nat.eqb_spec u v) as [->|NE].
    + rewrite (proj2 (ancb_iff t WF v v Hv Hv) (anc_refl t v Hv)).
      rewrite (from_children_row [] v l r) by (try apply inb_nil; try tauto; reflexivity). reflexivity.
    + destruct (below_children t WF v l r u HL HR Hu) as (X1&X2&_).
      pose proof (ancb_iff t WF v u Hu Hv) as Q1. pose proof (ancb_iff t WF l u Hu ltac:(lia)) as Q2. pose proof (ancb_iff t WF r u Hu ltac:(lia)) as Q3.
      destruct (ancb t v u), (ancb t l u), (ancb t r u); auto; exfalso; intuition congruence.
Qed.

Lemma init_row : forall v, (v < n)%nat -> set_g1 (d0 v) = mkrow [] (fun _ => GNaN) v.
Proof.
  intros v Hv. destruct (nil_cases v Hv) as (NL&NI&_). pose proof inb_nil as B. destruct (is_leafb t v) eqn:L.
  - rewrite row_leaf by tauto. unfold set_g1, d0. cbn [pr_single pr_sub pr_cl pr_cr pr_nl pr_par pr_n].
    rewrite subR_leaf, cnt_leaf by tauto. unfold is_leafb in L. apply Z.eqb_eq in L.
    destruct (wf_node t WF v Hv) as [[A1 A2]|(l&r&A1&_)]; [|lia]. rewrite A1, A2. f_equal.
    unfold gdiv. rn. rewrite (Reqb_true (INR 1 - 1) 0) by (cbn; lra). rewrite (Reqb_true (rs v - rs v) 0) by lra. auto.
  - rewrite row_internal by tauto. unfold set_g1, d0. cbn [pr_single pr_sub pr_cl pr_cr pr_nl pr_par pr_n]. f_equal.
    unfold gdiv, g1of. rn. rewrite Reqb_false; auto. rewrite cnt_SS.
    pose proof (SS_two t WF [] v B (proj2 NI eq_refl)). lra.
Qed.
Lemma init_table : recursive_initial n (tab s0) 0 = Ok (tab d0).
Proof.
  change 0%Z with (Z.of_nat 0). rewrite initial_rec; [|apply wf_pos; auto|lia|auto]. f_equal. apply tab_ext. intros u Hu.
  rewrite (proj2 (ancb_iff t WF 0 u Hu (wf_pos t WF)) (anc_root t WF u Hu)). auto.
Qed.
Lemma append_table : append_g1 (tab d0) = tab (mkrow [] (fun _ => GNaN)).
Proof. unfold append_g1, L_Prune.tab. rewrite map_map. apply map_ext_in. intros v Hv. apply in_seq in Hv. apply init_row. lia. Qed.

(** *** pruning below a node *)
Definition gone (v : nat) : prow R := mkRow (rs v) (rs v) (-2) (-2) 0 (par v) (node_w t v) GNaN.

Lemma prune_rec : forall P gs, inb P -> forall f O v, (v < n)%nat -> (n <= v + f)%nat -> ~ removed t P v ->
  (forall u, anc t v u -> O u = mkrow P gs u) ->
  recursive_inner_prune f (tab (mkrow P gs)) (tab O) (Z.of_nat v) = Ok (tab (fun u => if ancb t v u then gone u else O u)).
Proof.
  intros P gs B. induction f as [|f IH]; intros O v Hv Hf NR HO; [lia|]. cbn [recursive_inner_prune].
  rewrite row_at_tab by auto.
  assert (SR : forall x, pr_single x = rs v -> pr_par x = par v -> pr_n x = node_w t v -> set_removed (pr_single (mkrow P gs v)) x = gone v).
  { intros x E1 E2 E3. unfold set_removed, gone. rewrite E1, E2, E3, (proj1 (row_fixed P gs v)). auto. }
  pose proof (row_cl P gs v B Hv) as (_&CLF&CI).
  destruct (three_cases t WF P v B Hv) as [X|[X|X]]; [tauto| |].
  - rewrite (CLF X). change (Z.eqb (-1) (-1)) with true. cbn [bind]. rewrite get_tab by auto. cbn [bind].
    rewrite put_tab by auto. f_equal. apply tab_ext. intros u Hu. destruct (Nat.eqb_spec u v) as [->|NE].
    + rewrite (proj2 (ancb_iff t WF v v Hv Hv) (anc_refl t v Hv)). rewrite (HO v (anc_refl t v Hv)). apply SR; apply row_fixed.
    + destruct (ancb t v u) eqn:A; auto. apply (ancb_iff t WF v u Hu Hv) in A. rewrite (HO u A). apply row_removed; auto.
      destruct X as (_&_&[L|I]).
      * exfalso. assert (Y : forall x, anc t v x -> x = v).
        { clear - WF L. intros x A. induction A as [|a p c A IHA C]; auto. rewrite (IHA L) in C. exfalso. apply (leaf_no_child t WF _ _ L C). }
        apply NE. auto.
      * exists v. auto.
  - pose proof X as (_&_&L&_). destruct (CI X) as [-> ->]. destruct (nonleaf_children t WF v Hv L) as (l&r&HL&HR&BL&BR&NLR).
    rewrite HL. destruct (Z.eqb_spec (Z.of_nat l) (-1)) as [Y1l|Y1l]; [lia|].
    assert (CL : child t v l) by (left; auto). assert (CR : child t v r) by (right; auto).
    rewrite (IH O l); try lia; [|apply (child_not_removed t WF P v l); auto|
      intros u Hu; apply HO; apply (anc_trans t v l u); auto; apply (anc_step t v v l); [constructor; auto|auto]].
    cbn [bind]. rewrite HR.
    rewrite (IH _ r); try lia; [|apply (child_not_removed t WF P v r); auto|].
    2: { intros u Hu. pose proof (anc_lt t WF r u Hu). destruct (below_children t WF v l r u HL HR ltac:(lia)) as (_&ND&_).
         destruct (ancb t l u) eqn:Q; [apply (ancb_iff t WF) in Q; auto; [tauto|lia|lia]|].
         apply HO. apply (anc_trans t v r u); auto. apply (anc_step t v v r); [constructor; auto|auto]. }
    cbn [bind]. rewrite get_tab by auto. cbn [bind].
    destruct (below_children t WF v l r v HL HR Hv) as (_&_&NAL&NAR).
    assert (EAL : ancb t l v = false) by (destruct (ancb t l v) eqn:Q; auto; apply (ancb_iff t WF) in Q; auto; [tauto|lia]).
    assert (EAR : ancb t r v = false) by (destruct (ancb t r v) eqn:Q; auto; apply (ancb_iff t WF) in Q; auto; [tauto|lia]).
    rewrite EAL, EAR, put_tab by auto. f_equal. apply tab_ext. intros u Hu. destruct (Nat.eqb_spec u v) as [->|NE].
    + rewrite (proj2 (ancb_iff t WF v v Hv Hv) (anc_refl t v Hv)). rewrite (HO v (anc_refl t v Hv)). apply SR; apply row_fixed.
    + destruct (below_children t WF v l r u HL HR Hu) as (X1&X2&_).
      pose proof (ancb_iff t WF v u Hu Hv) as Q1. pose proof (ancb_iff t WF l u Hu ltac:(lia)) as Q2. pose proof (ancb_iff t WF r u Hu ltac:(lia)) as Q3.
      destruct (ancb t v u), (ancb t l u), (ancb t r u); auto; exfalso; intuition congruence.
Qed.

Lemma prune_down : forall P gs v, inb P -> now_internal t P v ->
  inner_prune_down (tab (mkrow P gs)) (Z.of_nat v) =
  Ok (tab (fun u => if Nat.eqb u v then mkRow (rs v) (rs v) (-1) (-1) 1 (par v) (node_w t v) (g1of P v)
                    else if ancb t v u then gone u else mkrow P gs u)).
Proof.
  intros P gs v B X. pose proof X as (Hv&_&L&_). unfold inner_prune_down. rewrite get_tab by auto. cbn [bind].
  destruct (row_cl P gs v B Hv) as (_&_&CI). destruct (CI X) as [-> ->]. rewrite tab_length.
  destruct (nonleaf_children t WF v Hv L) as (l&r&HL&HR&BL&BR&NLR).
  assert (CL : child t v l) by (left; auto). assert (CR : child t v r) by (right; auto).
  rewrite HL. destruct (Z.eqb_spec (Z.of_nat l) (-1)) as [Y1l|Y1l]; [lia|]. rewrite put_tab by auto.
  assert (AV : forall c u, child t v c -> anc t c u -> u <> v).
  { intros c u C A ->. apply (child_lt t WF) in C. apply (anc_lt t WF) in A. lia. }
  rewrite (prune_rec P gs B n _ l); try lia; [|apply (child_not_removed t WF P v l); auto|].
  2: { intros u Hu. destruct (Nat.eqb_spec u v); auto. exfalso. apply (AV l u); auto. }
  cbn [bind]. rewrite HR. rewrite (prune_rec P gs B n _ r); try lia; [|apply (child_not_removed t WF P v r); auto|].
  2: { intros u Hu. pose proof (anc_lt t WF r u Hu). destruct (below_children t WF v l r u HL HR ltac:(lia)) as (_&ND&_).
       destruct (ancb t l u) eqn:Q; [apply (ancb_iff t WF) in Q; auto; [tauto|lia|lia]|].
       destruct (Nat.eqb_spec u v); auto. exfalso. apply (AV r u); auto. }
  f_equal. apply tab_ext. intros u Hu.
  destruct (below_children t WF v l r u HL HR Hu) as (X1&X2&_).
  pose proof (ancb_iff t WF v u Hu Hv) as Q1. pose proof (ancb_iff t WF l u Hu ltac:(lia)) as Q2. pose proof (ancb_iff t WF r u Hu ltac:(lia)) as Q3.
  pose proof (AV l u CL) as Y1. pose proof (AV r u CR) as Y2.
  destruct (Nat.eqb_spec u v) as [->|NE].
  - destruct (ancb t l v); [exfalso; intuition|]. destruct (ancb t r v); [exfalso; intuition|].
    rewrite row_internal by auto. reflexivity.
  - destruct (ancb t v u), (ancb t l u), (ancb t r u); auto; exfalso; intuition congruence.
Qed.

(** *** updating the ancestors *)
Section Up.
Variables (P : list nat) (gs : nat -> gval R) (v0 : nat).
Hypothesis B : inb P.
Hypothesis X0 : now_internal t P v0.
Definition gs' (u : nat) : gval R := if Nat.eqb u v0 then g1of P v0 else gs u.
Definition P' : list nat := v0 :: P.

Lemma B' : inb P'.
Proof. apply inb_cons; auto. apply X0. Qed.
Lemma anc_internal : forall a, anc t a v0 -> a <> v0 -> now_internal t P' a /\ now_internal t P a.
Proof.
  intros a A NE. pose proof (anc_lt t WF a v0 A) as L. pose proof X0 as (Hv&NR&NL&NI).
  assert (NRa : ~ removed t P a) by (intros Q; apply NR; apply (removed_down t WF P a v0); auto).
  assert (NIa : ~ In a P) by (intros Q; apply NR; exists a; auto).
  assert (NLa : is_leafb t a = false).
  { destruct (is_leafb t a) eqn:E; auto. exfalso. apply NE.
    clear - WF E A. symmetry. revert E. induction A as [|a p c A IHA C]; auto. intros E. rewrite (IHA E) in C. exfalso. apply (leaf_no_child t WF _ _ E C). }
  split; (split; [lia|]); split; auto; try (split; auto).
  - unfold P'. rewrite removed_cons. intros [Q|[Q _]]; auto. apply NE. apply (anc_antisym t WF); auto.
  - unfold P'. cbn [In]. intuition.
Qed.
Lemma row_new_v0 : mkrow P' gs' v0 = mkRow (rs v0) (rs v0) (-1) (-1) 1 (par v0) (node_w t v0) (g1of P v0).
Proof.
  rewrite row_leaf; [unfold gs'; rewrite Nat.eqb_refl; auto|apply B'|].
  apply (now_leaf_cons t P v0 v0 B X0 (proj1 X0)). auto.
Qed.
Lemma row_new_below : forall u, anc t v0 u -> u <> v0 -> mkrow P' gs' u = gone u.
Proof.
  intros u A NE. pose proof (anc_lt t WF v0 u A). apply row_removed; [apply B'|lia|]. exists v0. split; [left; auto|]. auto.
Qed.
Lemma row_new_other : forall u, (u < n)%nat -> ~ anc t v0 u -> ~ anc t u v0 -> mkrow P' gs' u = mkrow P gs u.
Proof.
  intros u Hu N1 N2. pose proof B' as B1.
  assert (RM : removed t P' u <-> removed t P u) by (unfold P'; rewrite removed_cons; tauto).
  assert (NV : u <> v0) by (intros ->; apply N1; constructor; auto).
  assert (NL : now_leaf t P' u <-> now_leaf t P u).
  { unfold now_leaf. rewrite RM. unfold P'. cbn [In]. intuition. }
  destruct (three_cases t WF P u B Hu) as [X|[X|X]].
  - rewrite !row_removed by (auto; tauto). auto.
  - rewrite !row_leaf by (auto; tauto). unfold gs'. destruct (Nat.eqb_spec u v0); [congruence|auto].
  - assert (X' : now_internal t P' u).
    { destruct X as (_&A1&A2&A3). split; auto. split; [tauto|]. split; auto. unfold P'. cbn [In]. intuition. }
    rewrite !row_internal by auto.
    assert (EC : forall w, (w < n)%nat -> below t P' u w = below t P u w) by (intros; apply below_cons_other; auto).
    assert (ES : SS P' nr u = SS P nr u) by (apply sum_sel_ext; auto).
    assert (EN : cnt P' u = cnt P u).
    { unfold L_Prune.cnt, count_sel. f_equal. apply filter_ext_in. intros w Hw. apply in_seq in Hw. apply EC. lia. }
    unfold subR, g1of, subR. rewrite ES, EN. auto.
Qed.

Definition mix (a u : nat) : prow R := if ancb t u a then mkrow P gs u else mkrow P' gs' u.

Lemma up_loop : forall f a, anc t a v0 -> a <> v0 -> (a < f)%nat ->
  update_loop f (tab (mix a)) (Z.of_nat a) = Ok (tab (mkrow P' gs')).
Proof.
  induction f as [|f IH]; intros a A NE Hf; [lia|]. cbn [update_loop].
  pose proof (anc_lt t WF a v0 A) as L. destruct (anc_internal a A NE) as [I1 I2]. pose proof B' as B1.
  assert (Ha : (a < n)%nat) by lia. rewrite get_tab by auto. cbn [bind].
  assert (EA : mix a a = mkrow P gs a) by (unfold mix; rewrite (proj2 (ancb_iff t WF a a Ha Ha) (anc_refl t a Ha)); auto).
  rewrite EA. destruct (row_cl P gs a B Ha) as (_&_&CI). destruct (CI I2) as [E1 E2]. rewrite E1, E2.
  pose proof I2 as (_&_&NLf&_). destruct (nonleaf_children t WF a Ha NLf) as (l&r&HL&HR&BL&BR&NLR).
  assert (CL : child t a l) by (left; auto). assert (CR : child t a r) by (right; auto).
  rewrite HL, HR. rewrite !get_tab by lia. cbn [bind].
  assert (EC : forall c, child t a c -> mix a c = mkrow P' gs' c).
  { intros c C. apply (child_lt t WF) in C. unfold mix. destruct (ancb t c a) eqn:Q; auto.
    apply (ancb_iff t WF) in Q; try lia. apply (anc_lt t WF) in Q. lia. }
  rewrite !EC by auto.
  destruct (row_alive P' gs' l B1 ltac:(lia) (child_not_removed t WF P' a l I1 CL)) as [F1 F2].
  destruct (row_alive P' gs' r B1 ltac:(lia) (child_not_removed t WF P' a r I1 CR)) as [F3 F4].
  rewrite (from_children_row P' a l r); auto; try apply row_fixed.
  assert (NEW : set_g1 (mkRow (pr_single (mkrow P gs a)) (subR P' a) (pr_cl (mkrow P gs a)) (pr_cr (mkrow P gs a)) (cnt P' a)
      (pr_par (mkrow P gs a)) (node_w t a) (pr_g1 (mkrow P gs a))) = mkrow P' gs' a).
  { destruct (row_fixed P gs a) as (G1&G2&_). rewrite G1, G2, E1, E2. rewrite (row_internal P' gs' a B1 I1). unfold set_g1.
    cbn [pr_single pr_sub pr_cl pr_cr pr_nl pr_par pr_n]. f_equal. unfold gdiv, g1of. rn. rewrite Reqb_false; auto.
    rewrite cnt_SS. pose proof (SS_two t WF P' a B1 I1). lra. }
  rewrite NEW. rewrite put_tab by auto. destruct (row_fixed P gs a) as (_&PA&_). rewrite PA.
  destruct (node_cases t WF a Ha) as [->|(p&C&Lp)].
  - rewrite par_root. change (Z.eqb (-1) (-1)) with true. cbn [bind]. f_equal. apply tab_ext. intros u Hu.
    destruct (Nat.eqb_spec u 0) as [->|NZ]; auto. unfold mix. destruct (ancb t u 0) eqn:Q; auto.
    apply (ancb_iff t WF) in Q; auto. apply (anc_zero t WF) in Q. congruence.
  - rewrite (par_child p a C). destruct (Z.eqb_spec (Z.of_nat p) (-1)) as [Y1p|Y1p]; [lia|].
    rewrite <- (IH p).
    + f_equal. apply tab_ext. intros u Hu. unfold mix.
      pose proof (anc_child t WF p a C u) as AC. pose proof (ancb_iff t WF u a Ha Hu) as Q1. pose proof (ancb_iff t WF u p ltac:(lia) Hu) as Q2.
      destruct (Nat.eqb_spec u a) as [->|NU].
      * destruct (ancb t a p) eqn:Q; auto. exfalso. assert (anc t a p) by tauto. apply (anc_lt t WF) in H. lia.
      * destruct (ancb t u a), (ancb t u p); auto; exfalso; intuition congruence.
    + apply (anc_trans t p a v0); auto. apply (anc_step t p p a); auto. constructor. lia.
    + intros ->. apply (anc_lt t WF) in A. lia.
    + lia.
Qed.

Lemma prune_ok : inner_prune (tab (mkrow P gs)) (Z.of_nat v0) = Ok (tab (mkrow P' gs')).
Proof.
  pose proof X0 as (Hv&_&L&_). unfold inner_prune. rewrite get_tab by auto. cbn [bind].
  destruct (row_cl P gs v0 B Hv) as (_&_&CI). destruct (CI X0) as [E1 E2]. rewrite E1.
  destruct (nonleaf_children t WF v0 Hv L) as (l&r&HL&HR&BL&BR&NLR). rewrite HL.
  destruct (Z.eqb_spec (Z.of_nat l) (-1)) as [Y1l|Y1l]; [lia|]. destruct (Z.eqb_spec (Z.of_nat l) (-2)) as [Y2l|Y2l]; [lia|]. cbn [orb].
  rewrite prune_down by auto. cbn [bind]. unfold inner_prune_update_upward. rewrite get_tab by auto. cbn [bind].
  rewrite Nat.eqb_refl. cbn [pr_par].
  assert (EQ : forall u, (u < n)%nat -> ~ (anc t u v0 /\ u <> v0) ->
     (if Nat.eqb u v0 then mkRow (rs v0) (rs v0) (-1) (-1) 1 (par v0) (node_w t v0) (g1of P v0)
      else if ancb t v0 u then gone u else mkrow P gs u) = mkrow P' gs' u).
  { intros u Hu NA. destruct (Nat.eqb_spec u v0) as [->|NE]; [rewrite row_new_v0; auto|].
    pose proof (ancb_iff t WF v0 u Hu Hv) as Q. destruct (ancb t v0 u).
    - rewrite row_new_below; tauto.
    - rewrite row_new_other; auto; intuition congruence. }
  destruct (node_cases t WF v0 Hv) as [Z|(p&C&Lp)].
  - rewrite Z, par_root. change (Z.eqb (-1) (-1)) with true. cbn [bind]. f_equal. apply tab_ext. intros u Hu.
    rewrite <- Z. rewrite <- EQ; auto; [rewrite Z, par_root; auto|]. rewrite Z. intros [A NZ]. apply (anc_zero t WF) in A. congruence.
  - rewrite (par_child p v0 C). destruct (Z.eqb_spec (Z.of_nat p) (-1)) as [Y1p|Y1p]; [lia|]. rewrite tab_length.
    assert (AP : anc t p v0) by (apply (anc_step t p p v0); auto; constructor; lia).
    rewrite <- (up_loop n p AP ltac:(lia) ltac:(lia)). f_equal. apply tab_ext. intros u Hu. unfold mix.
    pose proof (anc_child t WF p v0 C u) as AC. pose proof (ancb_iff t WF u p ltac:(lia) Hu) as Q2.
    destruct (ancb t u p) eqn:Q.
    + assert (U : anc t u p) by tauto. pose proof (anc_lt t WF u p U). destruct (Nat.eqb_spec u v0); [lia|].
      destruct (ancb t v0 u) eqn:Q3; auto. apply (ancb_iff t WF) in Q3; auto. apply (anc_lt t WF) in Q3. lia.
    + rewrite <- EQ; auto; [rewrite (par_child p v0 C); auto|]. intros [A NE]. destruct (proj1 AC A) as [|A']; [congruence|]. apply Q2 in A'. congruence.
Qed.
End Up.

Lemma prune_rejects : forall P gs v, inb P -> (v < n)%nat -> ~ now_internal t P v ->
  inner_prune (tab (mkrow P gs)) (Z.of_nat v) = Err ValueError.
Proof.
  intros P gs v B Hv NI. unfold inner_prune. rewrite get_tab by auto. cbn [bind].
  destruct (row_cl P gs v B Hv) as (C1&C2&_). destruct (three_cases t WF P v B Hv) as [X|[X|X]]; [| |tauto].
  - rewrite C1 by auto. reflexivity.
  - rewrite C2 by auto. reflexivity.
Qed.
Lemma prune_outside : forall P gs z, (forall v, (v < n)%nat -> z <> Z.of_nat v) -> inner_prune (tab (mkrow P gs)) z = Err IndexError.
Proof. intros. unfold inner_prune. rewrite get_bad by auto. auto. Qed.
End Tree.
