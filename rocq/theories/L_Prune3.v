(** L_Prune3: lemmas behind the pruning properties. *)
From Verif Require Import Base TreeSpec Spec M_Tree M_Prune SpecPrune.
From Verif Require Import L_Base L_Tree L_TreeModel L_Gamma L_Gamma2 L_Sgd L_Prune L_Prune2.
From Coq Require Import Reals Lra Lia.
Local Open Scope R_scope.

Section Tree.
Variable t : tree R.
Hypothesis WF : wf_tree t.
Variable rs : nat -> R.
Hypothesis GW : good_weights t.
Notation n := (size t).
Let PW : forall v, (v < n)%nat -> 0 < node_w t v := proj1 GW.
Notation inb := (inb t).

(** going down the remaining nodes *)
Lemma down_ind : forall P (Q : nat -> Prop), inb P ->
  (forall v, now_leaf t P v -> Q v) ->
  (forall v l r, now_internal t P v -> lc t v = Z.of_nat l -> rc t v = Z.of_nat r ->
     (l < n)%nat -> (r < n)%nat -> ~ removed t P l -> ~ removed t P r -> Q l -> Q r -> Q v) ->
  forall v, (v < n)%nat -> ~ removed t P v -> Q v.
Proof.
  intros P Q B HL HI. assert (H : forall k v, (n - v <= k)%nat -> (v < n)%nat -> ~ removed t P v -> Q v).
  { induction k as [|k IH]; intros v Hk Hv NR; [lia|].
    destruct (three_cases t WF P v B Hv) as [X|[X|X]]; [tauto|auto|].
    pose proof X as (_&_&L&_). destruct (nonleaf_children t WF v Hv L) as (l&r&EL&ER&BL&BR&_).
    assert (NL : ~ removed t P l) by (apply (child_not_removed t WF P v l); auto; left; auto).
    assert (NRr : ~ removed t P r) by (apply (child_not_removed t WF P v r); auto; right; auto).
    apply (HI v l r); auto; try lia; apply IH; auto; lia. }
  intros v Hv. apply (H n v); lia.
Qed.
Lemma SS_additive : forall P f, inb P -> additive t f -> forall v, (v < n)%nat -> ~ removed t P v -> SS t P f v = f v.
Proof.
  intros P f B A. apply down_ind; auto.
  - intros v X. apply SS_leaf; auto.
  - intros v l r X EL ER BL BR NL NR E1 E2. rewrite (SS_internal t WF P f v l r) by auto. rewrite E1, E2. symmetry. apply A; auto.
Qed.
Lemma SS_risk : forall P, inb P -> risk_nonincreasing t rs -> forall v, (v < n)%nat -> ~ removed t P v -> SS t P (nr t rs) v <= nr t rs v.
Proof.
  intros P B A. apply down_ind; auto.
  - intros v X. rewrite SS_leaf by auto. lra.
  - intros v l r X EL ER BL BR NL NR E1 E2. rewrite (SS_internal t WF P _ v l r) by auto. pose proof (A v l r EL ER). unfold nr in *. lra.
Qed.

(** the table only depends on what is left *)
Lemma row_ext : forall P Q gs gs', inb P -> inb Q -> forall v, (v < n)%nat ->
  (forall u, (u < n)%nat -> (removed t P u <-> removed t Q u)) -> (forall u, (u < n)%nat -> (now_leaf t P u <-> now_leaf t Q u)) ->
  (now_leaf t P v -> gs v = gs' v) -> mkrow t rs P gs v = mkrow t rs Q gs' v.
Proof.
  intros P Q gs gs' BP BQ v Hv RM NL G.
  destruct (three_cases t WF P v BP Hv) as [X|[X|X]].
  - rewrite !row_removed; auto. apply RM; auto.
  - rewrite !row_leaf; auto; [rewrite G; auto|apply NL; auto].
  - assert (Y : now_internal t Q v).
    { destruct (three_cases t WF Q v BQ Hv) as [Y|[Y|Y]]; auto; exfalso.
      - apply (proj1 (proj2 X)). apply RM; auto.
      - apply (not_both t P v); auto. apply NL; auto. }
    rewrite !row_internal by auto.
    assert (EB : forall u, (u < n)%nat -> below t P v u = below t Q v u).
    { intros u Hu. pose proof (below_iff t WF P v u BP Hu Hv). pose proof (below_iff t WF Q v u BQ Hu Hv). pose proof (NL u Hu).
      destruct (below t P v u), (below t Q v u); auto; exfalso; intuition congruence. }
    assert (ES : SS t P (nr t rs) v = SS t Q (nr t rs) v) by (apply sum_sel_ext; auto).
    assert (EN : cnt t P v = cnt t Q v).
    { unfold cnt, count_sel. f_equal. apply filter_ext_in. intros w Hw. apply in_seq in Hw. apply EB. lia. }
    unfold subR, g1of, subR. rewrite ES, EN. auto.
Qed.
Lemma mem_removed : forall P Q, (forall x, In x P <-> In x Q) -> forall u, removed t P u <-> removed t Q u.
Proof. intros P Q M u. unfold removed. split; intros (a&A&X); exists a; (split; [apply M; auto|auto]). Qed.
Lemma mem_leaf : forall P Q, (forall x, In x P <-> In x Q) -> forall u, now_leaf t P u <-> now_leaf t Q u.
Proof. intros P Q M u. unfold now_leaf. rewrite (mem_removed P Q M), (M u). tauto. Qed.
Lemma mem_internal : forall P Q, (forall x, In x P <-> In x Q) -> forall u, now_internal t P u <-> now_internal t Q u.
Proof. intros P Q M u. unfold now_internal. rewrite (mem_removed P Q M), (M u). tauto. Qed.

(** stale values: the g1 each pruned node had when it was pruned *)
Fixpoint gsof (P : list nat) (v : nat) : gval R :=
  match P with [] => GNaN | a :: P' => if Nat.eqb v a then g1of t rs P' a else gsof P' v end.
Fixpoint chain (P : list nat) : Prop := match P with [] => True | a :: P' => now_internal t P' a /\ chain P' end.
Notation state P := (tab t (mkrow t rs P (gsof P))).

Lemma chain_inb : forall P, chain P -> inb P.
Proof. induction P as [|a P IH]; intros C; [apply inb_nil|]. destruct C as [X C]. apply inb_cons; auto. apply X. Qed.
Lemma gsof_leaf : forall P v, chain P -> is_leafb t v = true -> gsof P v = GNaN.
Proof.
  induction P as [|a P IH]; intros v C L; auto. destruct C as [X C]. cbn. destruct (Nat.eqb_spec v a); auto. subst.
  destruct X as (_&_&NL&_). congruence.
Qed.
Lemma gsof_in : forall P v, chain P -> In v P -> exists x, gsof P v = GFin x.
Proof.
  induction P as [|a P IH]; intros v C I; [destruct I|]. destruct C as [X C]. cbn. destruct (Nat.eqb_spec v a); [unfold g1of; eauto|].
  destruct I as [->|I]; [congruence|auto].
Qed.
Lemma step_ok : forall P v, inb P -> now_internal t P v -> inner_prune (state P) (Z.of_nat v) = Ok (state (v :: P)).
Proof. intros P v B X. rewrite prune_ok by auto. f_equal. Qed.
Lemma step_inv : forall P z df, inb P -> inner_prune (state P) z = Ok df ->
  exists v, z = Z.of_nat v /\ now_internal t P v /\ df = state (v :: P).
Proof.
  intros P z df B H. assert (D : (exists v, (v < n)%nat /\ z = Z.of_nat v) \/ ~ (exists v, (v < n)%nat /\ z = Z.of_nat v)).
  { destruct (Z_lt_le_dec z 0); [right; intros (v&_&->); lia|]. destruct (Z_lt_le_dec z (Z.of_nat n)).
    - left. exists (Z.to_nat z). lia.
    - right. intros (v&Hv&->). lia. }
  destruct D as [(v&Hv&->)|N].
  - assert (D : now_internal t P v \/ ~ now_internal t P v).
    { destruct (three_cases t WF P v B Hv) as [X|[X|X]]; auto; right; [intros (_&Y&_); auto|intros Y; eapply not_both; eauto]. }
    destruct D as [X|X].
    + exists v. split; auto. split; auto. rewrite step_ok in H by auto. congruence.
    + rewrite prune_rejects in H by auto. discriminate.
  - rewrite prune_outside in H; [discriminate|]. intros v Hv ->. apply N. eauto.
Qed.
Lemma steps_inv : forall zs P df, chain P -> foldM inner_prune zs (state P) = Ok df ->
  exists Q, zs = map Z.of_nat (rev Q) /\ chain (Q ++ P) /\ df = state (Q ++ P).
Proof.
  induction zs as [|z zs IH]; intros P df C H.
  - exists []. cbn in *. split; auto. split; auto. congruence.
  - cbn [foldM] in H. destruct (inner_prune (state P) z) as [d1|e] eqn:E; [|discriminate]. cbn [bind] in H.
    destruct (step_inv P z d1 (chain_inb P C) E) as (v&->&X&->).
    destruct (IH (v :: P) df (conj X C) H) as (Q&->&C'&->). exists (Q ++ [v]). split.
    + rewrite rev_app_distr. reflexivity.
    + rewrite <- app_assoc. auto.
Qed.

(** the rows of a state satisfy the description *)
Lemma state_describes : forall P Q, chain P -> (forall x, In x P <-> In x Q) -> describes t rs Q (state P).
Proof.
  intros P Q C M. pose proof (chain_inb P C) as B. split; [apply tab_length|]. intros v r H.
  assert (Hv : (v < n)%nat).
  { rewrite <- (tab_length t (mkrow t rs P (gsof P))). apply nth_error_Some. congruence. }
  rewrite tab_nth_error in H by auto. injection H as <-. destruct (row_fixed t rs P (gsof P) v) as (F1&F2&F3).
  constructor; auto.
  - rewrite F2. destruct (node_cases t WF v Hv) as [->|(p&Cp&_)]; [left|right].
    + split; auto. apply par_root; auto.
    + exists p. split; auto. apply par_child; auto.
  - intros X. apply (mem_removed P Q M) in X. rewrite row_removed by auto. cbn. auto.
  - intros X. apply (mem_leaf P Q M) in X. rewrite row_leaf by auto. cbn. repeat (split; auto). intros L. apply gsof_leaf; auto.
  - intros X. apply (mem_internal P Q M) in X. rewrite row_internal by auto. cbn [pr_cl pr_cr pr_nl pr_sub pr_g1].
    split; auto. split; auto. exists (below t P v). split; [|split; [auto|split; [|split; auto]]].
    + intros u Hu. rewrite below_iff by auto. rewrite (mem_leaf P Q M). tauto.
    + apply INR_le. rewrite cnt_SS. pose proof (SS_two t WF P v B X). cbn. lra.
    + unfold mean_risk, subR, SS, nr. f_equal. symmetry. apply (SS_additive P (node_w t) B (proj2 GW) v Hv). apply X.
Qed.

(** one prune from a state *)
Lemma root_alive : forall P, ~ removed t P 0.
Proof. intros P (a&_&A&NE). apply NE. apply (anc_zero t WF). auto. Qed.
Lemma root_nl : forall P, inb P -> pr_nl (mkrow t rs P (gsof P) 0) = cnt t P 0 /\ pr_sub (mkrow t rs P (gsof P) 0) = subR t rs P 0.
Proof. intros P B. apply row_alive; auto; [apply wf_pos; auto|apply root_alive]. Qed.
Lemma cnt_step : forall P v, inb P -> now_internal t P v -> (cnt t (v :: P) 0 + 1 <= cnt t P 0)%nat.
Proof.
  intros P v B X. apply INR_le. rewrite plus_INR, !cnt_SS. rewrite SS_cons by (auto; apply (anc_root t WF); apply X).
  pose proof (SS_two t WF P v B X). cbn. lra.
Qed.
Lemma sub_step : forall P v, inb P -> now_internal t P v -> risk_nonincreasing t rs -> subR t rs P 0 <= subR t rs (v :: P) 0.
Proof.
  intros P v B X RN. unfold subR. apply Rmult_le_compat_r; [left; apply Rinv_0_lt_compat, PW, (wf_pos t WF)|].
  rewrite SS_cons by (auto; apply (anc_root t WF); apply X). pose proof (SS_risk P B RN v (proj1 X) (proj1 (proj2 X))). lra.
Qed.
Lemma steps_root : forall Q P, chain (Q ++ P) ->
  (cnt t (Q ++ P) 0 + length Q <= cnt t P 0)%nat /\ (risk_nonincreasing t rs -> subR t rs P 0 <= subR t rs (Q ++ P) 0).
Proof.
  induction Q as [|v Q IH]; intros P C; cbn [app length]; [split; [lia|lra]|].
  destruct C as [X C]. destruct (IH P C) as [I1 I2]. pose proof (chain_inb _ C) as B. split.
  - pose proof (cnt_step _ v B X). lia.
  - intros RN. pose proof (sub_step _ v B X RN). specialize (I2 RN). lra.
Qed.
Lemma state_other : forall P v u, inb P -> now_internal t P v -> (u < n)%nat -> ~ anc t v u -> ~ anc t u v ->
  nth_error (state (v :: P)) u = nth_error (state P) u.
Proof.
  intros P v u B X Hu N1 N2. rewrite !tab_nth_error by auto. f_equal.
  apply (row_new_other t WF rs P (gsof P) v B X u Hu N1 N2).
Qed.
Lemma state_new : forall P v, inb P -> now_internal t P v ->
  exists r r', nth_error (state P) v = Some r /\ nth_error (state (v :: P)) v = Some r' /\
    pr_cl r' = (-1)%Z /\ pr_cr r' = (-1)%Z /\ pr_nl r' = 1%nat /\ pr_sub r' = rs v /\ pr_g1 r' = pr_g1 r /\ exists x, pr_g1 r' = GFin x.
Proof.
  intros P v B X. pose proof (proj1 X) as Hv. do 2 eexists. split; [apply tab_nth_error; auto|]. split; [apply tab_nth_error; auto|].
  assert (E : mkrow t rs (v :: P) (gsof (v :: P)) v = mkRow (rs v) (rs v) (-1) (-1) 1 (par t v) (node_w t v) (g1of t rs P v)).
  { apply (row_new_v0 t WF rs P (gsof P) v B X). }
  rewrite E, row_internal by auto. cbn. repeat (split; auto). unfold g1of. eauto.
Qed.

(** the freshly pruned node keeps the smallest g1 *)
Lemma weight_anc : forall a v, anc t a v -> node_w t v <= node_w t a.
Proof.
  intros a v A. induction A as [v Hv|a p c A IH C]; [lra|].
  pose proof (child_lt t WF p c C) as L.
  assert (NL : is_leafb t p = false).
  { destruct (is_leafb t p) eqn:E; auto. exfalso. apply (leaf_no_child t WF _ _ E C). }
  destruct (nonleaf_children t WF p ltac:(lia) NL) as (l&r&EL&ER&BL&BR&_).
  pose proof (proj2 GW p l r EL ER) as AD. pose proof (PW l ltac:(lia)). pose proof (PW r ltac:(lia)).
  destruct C as [C|C]; [assert (c = l) by lia|assert (c = r) by lia]; subst c; lra.
Qed.
Lemma g1_ancestor : forall P v a g ga, inb P -> now_internal t P v -> anc t a v -> a <> v ->
  g1of t rs P v = GFin g -> g1of t rs P a = GFin ga -> 0 <= g ->
  exists ga', g1of t rs (v :: P) a = GFin ga' /\ (g <= ga -> g <= ga') /\ (g < ga -> g < ga').
Proof.
  intros P v a g ga B X A NE Eg Ega G0. unfold g1of in *. injection Eg as Eg. injection Ega as Ega. eexists. split; [reflexivity|].
  destruct (anc_internal t WF rs P (gsof P) v X a A NE) as [Xa' Xa]. unfold P' in Xa'.
  pose proof (proj1 X) as Hv. pose proof (proj1 Xa) as Ha.
  assert (B' : inb (v :: P)) by (apply inb_cons; auto).
  pose proof (SS_two t WF P v B X) as K1. pose proof (SS_two t WF P a B Xa) as K2. pose proof (SS_two t WF (v :: P) a B' Xa') as K3.
  rewrite SS_cons in K3 by auto. pose proof (weight_anc a v A) as W. pose proof (PW v Hv) as Wv. pose proof (PW a Ha) as Wa.
  rewrite cnt_SS in Eg, Ega. rewrite cnt_SS. rewrite SS_cons by auto. unfold subR in *. rewrite SS_cons by auto.
  fold (nr t rs v) in *. set (ka := SS t P (fun _ => 1) a) in *. set (kv := SS t P (fun _ => 1) v) in *.
  set (wa := node_w t a) in *. set (wv := node_w t v) in *. set (Sa := SS t P (nr t rs) a) in *. set (Sv := SS t P (nr t rs) v) in *.
  assert (D1 : wv * rs v - Sv = g * (kv - 1) * wv) by (rewrite <- Eg; field; lra).
  assert (D2 : wa * rs a - Sa = ga * (ka - 1) * wa) by (rewrite <- Ega; field; lra).
  assert (F : (rs a - (Sa - Sv + nr t rs v) / wa) / (ka - kv + 1 - 1) = (ga * (ka - 1) * wa - g * (kv - 1) * wv) / (wa * (ka - kv))).
  { unfold nr. fold wv. rewrite <- D1, <- D2. field. lra. }
  rewrite F. assert (DP : 0 < wa * (ka - kv)) by (apply Rmult_lt_0_compat; lra).
  assert (KEY : g * (wa * (ka - kv)) <= g * (ka - 1) * wa - g * (kv - 1) * wv).
  { assert (0 <= g * (kv - 1) * (wa - wv)) by (apply Rmult_le_pos; [apply Rmult_le_pos; lra|lra]). lra. }
  assert (PP : 0 < (ka - 1) * wa) by (apply Rmult_lt_0_compat; lra).
  split; intros L.
  - apply Rmult_le_reg_r with (wa * (ka - kv)); auto. unfold Rdiv. rewrite (Rmult_assoc (_ - _) (/ _)), Rinv_l, Rmult_1_r by lra.
    pose proof (Rmult_le_compat_r _ _ _ (Rlt_le _ _ PP) L). lra.
  - apply Rmult_lt_reg_r with (wa * (ka - kv)); auto. unfold Rdiv. rewrite (Rmult_assoc (_ - _) (/ _)), Rinv_l, Rmult_1_r by lra.
    pose proof (Rmult_lt_compat_r _ _ _ PP L). lra.
Qed.
Lemma g1_nonneg : forall P v g, inb P -> now_internal t P v -> risk_nonincreasing t rs -> g1of t rs P v = GFin g -> 0 <= g.
Proof.
  intros P v g B X RN E. unfold g1of in E. injection E as <-. pose proof (PW v (proj1 X)) as W.
  apply Rmult_le_pos.
  - pose proof (SS_risk P B RN v (proj1 X) (proj1 (proj2 X))) as S1. unfold subR, nr in *.
    apply Rmult_le_reg_r with (node_w t v); auto.
    assert (SS t P (fun u => node_w t u * rs u) v / node_w t v * node_w t v = SS t P (fun u => node_w t u * rs u) v) by (field; lra). unfold nr in *. lra.
  - left. apply Rinv_0_lt_compat. rewrite cnt_SS. pose proof (SS_two t WF P v B X). lra.
Qed.
Lemma stuck : forall P v, chain P -> now_internal t P v -> risk_nonincreasing t rs ->
  (minimal_g1 (state P) v -> minimal_g1 (state (v :: P)) v) /\
  (strictly_minimal_g1 (state P) v -> strictly_minimal_g1 (state (v :: P)) v).
Proof.
  intros P v C X RN. pose proof (chain_inb P C) as B. pose proof (proj1 X) as Hv.
  assert (B' : inb (v :: P)) by (apply inb_cons; auto).
  assert (E : mkrow t rs (v :: P) (gsof (v :: P)) v = mkRow (rs v) (rs v) (-1) (-1) 1 (par t v) (node_w t v) (g1of t rs P v)).
  { apply (row_new_v0 t WF rs P (gsof P) v B X). }
  assert (CMP : forall g u r y, g1of t rs P v = GFin g -> u <> v -> nth_error (state (v :: P)) u = Some r -> pr_g1 r = GFin y ->
     exists r0 y0, nth_error (state P) u = Some r0 /\ pr_g1 r0 = GFin y0 /\ (g <= y0 -> g <= y) /\ (g < y0 -> g < y)).
  { intros g u r y Eg NE Hr Hy.
    assert (Hu : (u < n)%nat). { rewrite <- (tab_length t (mkrow t rs (v :: P) (gsof (v :: P)))). apply nth_error_Some. congruence. }
    rewrite tab_nth_error in Hr by auto. injection Hr as <-.
    destruct (anc_dec t WF v u Hu) as [A|NA].
    { rewrite row_removed in Hy; auto; [discriminate|]. exists v. split; [left; auto|auto]. }
    destruct (anc_dec t WF u v Hv) as [A|NA2].
    - destruct (anc_internal t WF rs P (gsof P) v X u A NE) as [Xu' Xu].
      rewrite (row_internal t WF rs (v :: P)) in Hy by auto. cbn [pr_g1] in Hy.
      exists (mkrow t rs P (gsof P) u), ((rs u - subR t rs P u) / (INR (cnt t P u) - 1)).
      split; [apply tab_nth_error; auto|]. split; [rewrite row_internal by auto; reflexivity|].
      destruct (g1_ancestor P v u g _ B X A NE Eg eq_refl (g1_nonneg P v g B X RN Eg)) as (y'&Ey&I1&I2).
      assert (y' = y) by congruence. subst. auto.
    - exists (mkrow t rs P (gsof P) u), y. split; [apply tab_nth_error; auto|].
      split; [|split; auto]. rewrite <- Hy. f_equal. symmetry. apply (row_new_other t WF rs P (gsof P) v B X u Hu NA NA2). }
  split; intros (r&x&Hr&Hx&M); rewrite tab_nth_error in Hr by auto; injection Hr as <-; rewrite row_internal in Hx by auto; cbn [pr_g1] in Hx.
  - exists (mkrow t rs (v :: P) (gsof (v :: P)) v), x. split; [apply tab_nth_error; auto|]. rewrite E. split; auto.
    intros u r' y Hr' Hy. destruct (Nat.eq_dec u v) as [->|NE].
    + rewrite tab_nth_error in Hr' by auto. assert (Er : r' = mkrow t rs (v :: P) (gsof (v :: P)) v) by congruence. rewrite Er, E in Hy. cbn [pr_g1] in Hy. assert (x = y) by congruence. lra.
    + destruct (CMP x u r' y Hx NE Hr' Hy) as (r0&y0&H1&H2&H3&_). apply H3. eapply M; eauto.
  - exists (mkrow t rs (v :: P) (gsof (v :: P)) v), x. split; [apply tab_nth_error; auto|]. rewrite E. split; auto.
    intros u r' y NE Hr' Hy. destruct (CMP x u r' y Hx NE Hr' Hy) as (r0&y0&H1&H2&_&H3). apply H3. eapply M; eauto.
Qed.

(** order of prunes *)
Lemma state_absorb : forall P v a, chain P -> now_internal t P v -> now_internal t P a -> anc t a v -> a <> v ->
  now_internal t (v :: P) a /\
  forall u r r', nth_error (state (a :: v :: P)) u = Some r -> nth_error (state (a :: P)) u = Some r' ->
    (u <> a -> r = r') /\ same_but_g1 r r'.
Proof.
  intros P v a C Xv Xa A NE. pose proof (chain_inb P C) as B.
  destruct (anc_internal t WF rs P (gsof P) v Xv a A NE) as [Xa' _]. unfold P' in Xa'. split; auto.
  assert (B1 : inb (v :: P)) by (apply inb_cons; auto; apply Xv).
  assert (B2 : inb (a :: v :: P)) by (apply inb_cons; auto; apply Xa).
  assert (B3 : inb (a :: P)) by (apply inb_cons; auto; apply Xa).
  assert (RM : forall u, (u < n)%nat -> (removed t (a :: v :: P) u <-> removed t (a :: P) u)).
  { intros u Hu. rewrite !removed_cons. split; [|tauto]. intros [[H|[H1 H2]]|H]; auto. right.
    split; [apply (anc_trans t a v u); auto|]. intros <-. apply NE. apply (anc_antisym t WF); auto. }
  assert (NL : forall u, (u < n)%nat -> (now_leaf t (a :: v :: P) u <-> now_leaf t (a :: P) u)).
  { intros u Hu. unfold now_leaf. rewrite RM by auto. cbn [In]. split; [|tauto]. intros (H0&H1&H2). split; auto. split; auto.
    destruct H2 as [H2|[H2|[H2|H2]]]; auto. exfalso. subst u. apply H1. exists a. split; [left; auto|auto]. }
  intros u r r' H1 H2.
  assert (Hu : (u < n)%nat). { rewrite <- (tab_length t (mkrow t rs (a :: P) (gsof (a :: P)))). apply nth_error_Some. congruence. }
  rewrite tab_nth_error in H1, H2 by auto.
  assert (E1 : r = mkrow t rs (a :: v :: P) (gsof (a :: v :: P)) u) by congruence. assert (E2 : r' = mkrow t rs (a :: P) (gsof (a :: P)) u) by congruence.
  rewrite E1, E2. clear H1 H2 E1 E2.
  assert (G : u <> a -> mkrow t rs (a :: v :: P) (gsof (a :: v :: P)) u = mkrow t rs (a :: P) (gsof (a :: P)) u).
  { intros NU. apply row_ext; auto. intros (_&NR&_). cbn [gsof]. destruct (Nat.eqb_spec u a); [congruence|].
    destruct (Nat.eqb_spec u v); auto. subst u. exfalso. apply NR. exists a. split; [left; auto|auto]. }
  split; auto. destruct (Nat.eq_dec u a) as [->|NU]; [|rewrite (G NU); repeat split].
  rewrite (row_new_v0 t WF rs P (gsof P) a B Xa : mkrow t rs (a :: P) (gsof (a :: P)) a = _).
  rewrite (row_new_v0 t WF rs (v :: P) (gsof (v :: P)) a B1 Xa' : mkrow t rs (a :: v :: P) (gsof (a :: v :: P)) a = _).
  repeat split.
Qed.
Lemma unrelated_internal : forall P v w, now_internal t P v -> now_internal t P w -> ~ anc t v w -> now_internal t (v :: P) w.
Proof.
  intros P v w Xv (Hw&NR&NL&NI) NA. split; auto. split; [rewrite removed_cons; tauto|]. split; auto.
  cbn [In]. intros [->|I]; auto. apply NA. constructor; auto.
Qed.
Lemma state_commute : forall P v w, chain P -> now_internal t P v -> now_internal t P w -> ~ anc t v w -> ~ anc t w v ->
  state (w :: v :: P) = state (v :: w :: P).
Proof.
  intros P v w C Xv Xw N1 N2. pose proof (chain_inb P C) as B.
  assert (Bv : inb (v :: P)) by (apply inb_cons; auto; apply Xv). assert (Bw : inb (w :: P)) by (apply inb_cons; auto; apply Xw).
  assert (MEM : forall x, In x (w :: v :: P) <-> In x (v :: w :: P)) by (intros; cbn [In]; tauto).
  assert (G1 : forall a b, now_internal t P a -> now_internal t P b -> ~ anc t a b -> ~ anc t b a -> g1of t rs (a :: P) b = g1of t rs P b).
  { intros a b Xa Xb M1 M2. unfold g1of, subR.
    assert (EB : forall u, (u < n)%nat -> below t (a :: P) b u = below t P b u) by (intros; apply below_cons_other; auto; apply Xb).
    assert (ES : SS t (a :: P) (nr t rs) b = SS t P (nr t rs) b) by (apply sum_sel_ext; auto).
    assert (EN : cnt t (a :: P) b = cnt t P b).
    { unfold cnt, count_sel. f_equal. apply filter_ext_in. intros y Hy. apply in_seq in Hy. apply EB. lia. }
    rewrite ES, EN. auto. }
  apply tab_ext. intros u Hu. apply row_ext; auto.
  - apply inb_cons; auto. apply Xw.
  - apply inb_cons; auto. apply Xv.
  - intros. apply mem_removed; auto.
  - intros. apply mem_leaf; auto.
  - intros _. cbn [gsof]. destruct (Nat.eqb_spec u w) as [EW|NW], (Nat.eqb_spec u v) as [EV|NV]; auto.
    + exfalso. apply N1. assert (v = w) by congruence. subst. constructor. apply Xw.
    + symmetry. apply G1; auto.
Qed.
End Tree.
