(** L_Prune4: the pruning properties. *)
From Verif Require Import Base TreeSpec Spec M_Tree M_Prune SpecPrune.
From Verif Require Import L_Base L_Tree L_TreeModel L_Gamma L_Gamma2 L_Sgd L_Prune L_Prune2 L_Prune3.
From Coq Require Import Reals Lra Lia.
Local Open Scope R_scope.

(** *** np.argmax *)
Lemma argmax_fold : forall (r : list R) s m b m' b',
  fold_left (fun '(m, b) '(y, k) => if nltb m y then (y, k) else (m, b)) (combine r (seq s (length r))) (m, b) = (m', b') ->
  m <= m' /\ (forall i, (i < length r)%nat -> nth i r 0 <= m') /\
  ((m' = m /\ b' = b) \/ exists i, (i < length r)%nat /\ m' = nth i r 0 /\ b' = (s + i)%nat).
Proof.
  induction r as [|y r IH]; intros s m b m' b' H; cbn in H.
  - injection H as <- <-. split; [lra|]. split; [cbn; lia|auto].
  - assert (STEP : forall m1 b1, (m1 = m /\ b1 = b \/ m1 = y /\ b1 = s) -> m <= m1 -> y <= m1 ->
        fold_left (fun '(m, b) '(y, k) => if nltb m y then (y, k) else (m, b)) (combine r (seq (S s) (length r))) (m1, b1) = (m', b') ->
        m <= m' /\ (forall i, (i < length (y :: r))%nat -> nth i (y :: r) 0 <= m') /\
        ((m' = m /\ b' = b) \/ exists i, (i < length (y :: r))%nat /\ m' = nth i (y :: r) 0 /\ b' = (s + i)%nat)).
    { intros m1 b1 W L1 L2 F. destruct (IH (S s) m1 b1 m' b' F) as (A1&A2&A3). split; [lra|]. split.
      - intros [|i] Hi; cbn; [lra|]. apply A2. cbn in Hi. lia.
      - destruct A3 as [[-> ->]|(i&Hi&->&->)].
        + destruct W as [[-> ->]|[-> ->]]; auto. right. exists 0%nat. cbn. split; [lia|split; auto; lia].
        + right. exists (S i). cbn. split; [lia|split; auto; lia]. }
    change (@nltb R _ m y) with (Rltb m y) in H. destruct (Rltb_spec m y).
    + apply (STEP y s); auto; lra.
    + apply (STEP m b); auto; lra.
Qed.
Lemma argmax_spec : forall l : list R, l <> [] -> (argmax l < length l)%nat /\ forall i, (i < length l)%nat -> nth i l 0 <= nth (argmax l) l 0.
Proof.
  intros [|x r] NE; [congruence|]. unfold argmax.
  destruct (fold_left _ _ _) as [m' b'] eqn:F. cbn [snd]. destruct (argmax_fold r 1 x 0 m' b' F) as (A1&A2&A3).
  assert (H : (b' < length (x :: r))%nat /\ nth b' (x :: r) 0 = m').
  { destruct A3 as [[-> ->]|(i&Hi&->&->)]; cbn; split; auto; lia. }
  destruct H as [H1 H2]. split; auto. intros [|i] Hi; rewrite H2; cbn; [lra|]. apply A2. cbn in Hi. lia.
Qed.
Lemma nsum_upd0 : forall (l : list R) i, (i < length l)%nat -> nsum (upd l i 0) = nsum l - nth i l 0.
Proof.
  induction l as [|x l IH]; intros i Hi; [cbn in Hi; lia|]. destruct i as [|i].
  - change (upd (x :: l) 0 0) with (0 :: l). rewrite !nsum_cons. cbn. lra.
  - change (upd (x :: l) (S i) 0) with (x :: upd l i 0). rewrite !nsum_cons, IH by (cbn in Hi; lia). cbn. lra.
Qed.

(** *** node risks *)
Lemma risk_class : forall nc k (t : tree R) l, wf_tree t -> (0 < k)%nat -> class_tree t k -> (forall v, (v < size t)%nat -> 0 < node_w t v) ->
  r_single_t (TreeObj (Class nc) t) = Ok l -> length l = size t /\
  forall v, (v < size t)%nat -> exists m, (m < k)%nat /\ (forall c, (c < k)%nat -> node_v t c v <= node_v t m v) /\
    nth v l 0 = (node_w t v - node_v t m v) / node_w t v.
Proof.
  intros nc k t l WF K CT PW H. cbn in H. injection H as <-.
  assert (LV : length (t_value t) = size t) by (apply wf_len_value; auto). assert (LW : length (t_weight t) = size t) by (apply wf_len_weight; auto).
  split; [rewrite map2_length, LV, LW; lia|]. intros v Hv. destruct (CT v Hv) as (CL&CP&CS).
  set (c := nth v (t_value t) []) in *. assert (NE : c <> []) by (intros E; rewrite E in CL; cbn in CL; lia).
  destruct (argmax_spec c NE) as [A1 A2]. exists (argmax c). split; [lia|]. split.
  - intros i Hi. apply A2. lia.
  - rewrite nth_map2 with (da := []) (db := 0) by (rewrite ?LV, ?LW; auto). fold c. fold (node_w t v).
    rn. rewrite nsum_upd0 by auto. rewrite (nsum_sumto c), CL. f_equal. f_equal.
    rewrite <- CS. apply sumto_ext. intros. reflexivity.
Qed.
Definition majority_fraction k (t : tree R) v (x : R) : Prop := exists m, (m < k)%nat /\ (forall c, (c < k)%nat -> node_v t c v <= node_v t m v) /\
    x = sum_sel k (fun c => negb (Nat.eqb c m)) (fun c => node_v t c v) / node_w t v.
Lemma sum_but : forall k (f : nat -> R) m, (m < k)%nat -> sum_sel k (fun c => negb (Nat.eqb c m)) f = sumto k f - f m.
Proof.
  intros k f m Hm. unfold sum_sel.
  assert (E : sumto k f = sumto k (fun c => (if negb (Nat.eqb c m) then f c else 0) + (if Nat.eqb c m then f c else 0))).
  { apply sumto_ext. intros c Hc. destruct (Nat.eqb c m); cbn; lra. }
  rewrite E, sumto_plus. assert (S1 : sumto k (fun c => if Nat.eqb c m then f c else 0) = f m).
  { rewrite (sumto_single k _ m); [rewrite Nat.eqb_refl; auto|auto|]. intros c Hc NE. destruct (Nat.eqb_spec c m); [congruence|auto]. }
  lra.
Qed.
Lemma p_C47 : forall nc k (t : tree R), wf_tree t -> (0 < k)%nat -> class_tree t k -> (forall v, (v < size t)%nat -> 0 < node_w t v) ->
  exists l, r_single_t (TreeObj (Class nc) t) = Ok l /\ length l = size t /\
  forall v, (v < size t)%nat ->
    (exists m, (m < k)%nat /\ (forall c, (c < k)%nat -> node_v t c v <= node_v t m v) /\
       nth v l 0 = sum_sel k (fun c => negb (Nat.eqb c m)) (fun c => node_v t c v) / node_w t v) /\
    0 <= nth v l 0 < 1 /\
    (nth v l 0 = 0 <-> exists m, (m < k)%nat /\ forall c, (c < k)%nat -> c <> m -> node_v t c v = 0).
Proof.
  intros nc k t WF K CT PW.
  exists (map2 (fun v n => nsum (upd v (argmax v) 0) / n) (t_value t) (t_weight t)). split; [reflexivity|].
  destruct (risk_class nc k t _ WF K CT PW eq_refl) as (LL&H). split; [exact LL|]. intros v Hv.
  destruct (H v Hv) as (m&Hm&MX&E). destruct (CT v Hv) as (_&CP&CS). pose proof (PW v Hv) as W.
  match goal with |- _ /\ (0 <= ?q < 1) /\ _ => set (x := q) in * end.
  assert (SB : sum_sel k (fun c => negb (Nat.eqb c m)) (fun c => node_v t c v) = node_w t v - node_v t m v) by (rewrite sum_but, CS; auto).
  assert (EX : x = (node_w t v - node_v t m v) / node_w t v) by exact E. clearbody x.
  assert (MP : 0 < node_v t m v).
  { destruct (Rlt_le_dec 0 (node_v t m v)); auto. exfalso. assert (sumto k (fun c => node_v t c v) <= 0); [|lra].
    rewrite <- (sumto_zero k (fun _ => 0)) by auto. apply sumto_le. intros c Hc. pose proof (MX c Hc). lra. }
  assert (NN : forall c, (c < k)%nat -> 0 <= (if negb (Nat.eqb c m) then node_v t c v else 0)).
  { intros c Hc. destruct (negb (Nat.eqb c m)); [apply CP; auto|lra]. }
  assert (SN : 0 <= node_w t v - node_v t m v) by (rewrite <- SB; unfold sum_sel; apply sumto_nonneg; auto).
  assert (IV : 0 < / node_w t v) by (apply Rinv_0_lt_compat; auto).
  split; [|split; [split|]].
  - exists m. split; auto. split; auto. rewrite SB. auto.
  - rewrite EX. apply Rmult_le_pos; lra.
  - rewrite EX. apply Rmult_lt_reg_r with (node_w t v); auto. unfold Rdiv. rewrite Rmult_assoc, Rinv_l by lra. lra.
  - split.
    + intros Z. exists m. split; auto. intros c Hc NE.
      assert (Z2 : node_w t v - node_v t m v = 0).
      { apply Rmult_eq_reg_r with (/ node_w t v); [|lra]. rewrite Rmult_0_l, <- Z. auto. }
      rewrite <- SB in Z2. unfold sum_sel in Z2. pose proof (sumto_elem_le k _ c NN Hc) as EL.
      cbn beta in EL. destruct (Nat.eqb_spec c m); [congruence|]. cbn [negb] in EL. pose proof (CP c Hc). lra.
    + intros (m'&Hm'&Z). assert (Em : m = m').
      { destruct (Nat.eq_dec m m') as [|NE]; auto. exfalso. rewrite (Z m Hm NE) in MP. lra. }
      subst m'. rewrite EX, <- SB. unfold sum_sel. rewrite sumto_zero; [unfold Rdiv; lra|].
      intros c Hc. destruct (Nat.eqb_spec c m); cbn; auto.
Qed.
Lemma p_C47_other : (forall t, r_single_t (TreeObj Reg t) = Ok (@t_imp R t)) /\ forall t : tree R, r_single_t (OtherTree t) = Err ValueError.
Proof. split; reflexivity. Qed.

Lemma p_C46_class : forall nc k (t : tree R) rs, wf_tree t -> (0 < k)%nat -> class_tree t k -> good_weights t ->
  (forall c, (c < k)%nat -> additive t (node_v t c)) -> risk_of (TreeObj (Class nc) t) rs -> risk_nonincreasing t rs.
Proof.
  intros nc k t rs WF K CT [PW AD] AV (l&Hl&Er) v a b HA HB.
  destruct (risk_class nc k t l WF K CT PW Hl) as (_&H).
  assert (Hv : (v < size t)%nat /\ (a < size t)%nat /\ (b < size t)%nat).
  { pose proof (child_lt t WF v a (or_introl HA)). pose proof (child_lt t WF v b (or_intror HB)). lia. }
  destruct Hv as (Hv&Ha&Hb).
  assert (EQ : forall u, (u < size t)%nat -> exists m, (m < k)%nat /\ (forall c, (c < k)%nat -> node_v t c u <= node_v t m u) /\ node_w t u * rs u = node_w t u - node_v t m u).
  { intros u Hu. destruct (H u Hu) as (m&Hm&MX&E). exists m. split; auto. split; auto. rewrite Er, E. field. pose proof (PW u Hu). lra. }
  destruct (EQ v Hv) as (mv&Bv&_&->). destruct (EQ a Ha) as (ma&Ba&Xa&->). destruct (EQ b Hb) as (mb&Bb&Xb&->).
  pose proof (AD v a b HA HB). pose proof (AV mv Bv v a b HA HB). pose proof (Xa mv Bv). pose proof (Xb mv Bv). lra.
Qed.

(** *** the table *)
Lemma p_C40 : forall t : tree R, wf_tree t -> length (calc_parent t) = size t /\ nth 0 (calc_parent t) (-1)%Z = (-1)%Z /\
  forall v, (0 < v < size t)%nat -> exists p, child t p v /\ nth v (calc_parent t) (-1)%Z = Z.of_nat p /\ forall q, child t q v -> q = p.
Proof.
  intros t WF. split; [apply calc_parent_length; auto|]. split; [apply calc_parent_root; auto|]. intros v Hv.
  destruct (node_cases t WF v ltac:(lia)) as [->|(p&C&_)]; [lia|]. exists p. split; auto. split; [apply calc_parent_child; auto|].
  intros q Cq. apply (parent_unique t WF) with v; auto.
Qed.

Section Props.
Variables (kd : kind) (t : tree R).
Hypothesis WF : wf_tree t.
Hypothesis GW : good_weights t.
Notation o := (TreeObj kd t).
Notation state rs P := (tab t (mkrow t rs P (gsof t rs P))).

Lemma risk_ex : exists l, r_single_t o = Ok l.
Proof. destruct kd; cbn; eauto. Qed.
Lemma init_state : forall rs, risk_of o rs -> initialize_prune_df o = Ok (state rs []).
Proof.
  intros rs (l&Hl&Er). unfold initialize_prune_df. rewrite Hl. cbn [bind].
  assert (E : start_table l t = tab t (s0 t rs)).
  { unfold start_table, tab. apply map_ext_in. intros v Hv. unfold s0, par. rewrite Er. reflexivity. }
  rewrite E, init_table by (auto; apply GW). cbn [bind]. rewrite append_table by (auto; apply GW). reflexivity.
Qed.
Lemma reach_state : forall rs prunes df, risk_of o rs -> reachable o prunes df ->
  exists P, prunes = map Z.of_nat (rev P) /\ chain t P /\ df = state rs P.
Proof.
  intros rs prunes df RO (df0&I0&F). rewrite (init_state rs RO) in I0. injection I0 as <-.
  destruct (steps_inv t WF rs GW prunes [] df I F) as (Q&E&C&D). rewrite app_nil_r in C, D. eauto.
Qed.
Lemma reach_risk : forall prunes df, reachable o prunes df -> exists rs, risk_of o rs.
Proof. intros. destruct risk_ex as (l&Hl). exists (fun v => nth v l 0). exists l. auto. Qed.
Lemma map_of_nat_inj : forall P Q, map Z.of_nat P = map Z.of_nat Q -> P = Q.
Proof. induction P as [|a P IH]; intros [|b Q] H; auto; try discriminate. cbn in H. injection H as H1 H2. f_equal; auto. lia. Qed.
Lemma reach_snoc : forall prunes df z df', reachable o prunes df -> inner_prune df z = Ok df' -> reachable o (prunes ++ [z]) df'.
Proof. intros prunes df z df' (d0&I0&F) H. exists d0. split; auto. rewrite foldM_snoc, F. auto. Qed.

Lemma p_C41 : forall rs, risk_of o rs -> exists df, initialize_prune_df o = Ok df /\ describes t rs [] df.
Proof.
  intros rs RO. eexists. split; [apply (init_state rs RO)|]. apply (state_describes t WF rs GW []); [exact I|tauto].
Qed.
Lemma p_C42 : forall rs prunes df, risk_of o rs -> reachable o prunes df ->
  exists P, prunes = map Z.of_nat P /\ describes t rs P df.
Proof.
  intros rs prunes df RO RE. destruct (reach_state rs prunes df RO RE) as (P&E&C&->).
  exists (rev P). split; auto. apply state_describes; auto. intros. apply in_rev.
Qed.
(** a reachable table, seen through the nodes pruned in order *)
Lemma reach_mem : forall rs P df, risk_of o rs -> reachable o (map Z.of_nat P) df ->
  chain t (rev P) /\ df = state rs (rev P) /\ (forall x, In x (rev P) <-> In x P).
Proof.
  intros rs P df RO RE. destruct (reach_state rs _ df RO RE) as (Q&E&C&->). apply map_of_nat_inj in E. subst P.
  rewrite rev_involutive. split; auto. split; auto. intros. apply in_rev.
Qed.
Lemma p_C43_error : forall P df, reachable o (map Z.of_nat P) df ->
  (forall v, (v < size t)%nat -> (inner_prune df (Z.of_nat v) = Err ValueError <-> now_leaf t P v \/ removed t P v)) /\
  (forall z, (z < 0)%Z \/ (Z.of_nat (size t) <= z)%Z -> inner_prune df z = Err IndexError).
Proof.
  intros P df RE. destruct (reach_risk _ _ RE) as (rs&RO). destruct (reach_mem rs P df RO RE) as (C&->&M).
  pose proof (chain_inb t (rev P) C) as B. split.
  - intros v Hv. rewrite <- (mem_leaf t rs (rev P) P M), <- (mem_removed t (rev P) P M).
    destruct (three_cases t WF (rev P) v B Hv) as [X|[X|X]].
    + rewrite prune_rejects; auto; [tauto|]. intros (_&Y&_). auto.
    + rewrite prune_rejects; auto; [tauto|]. intros Y. eapply not_both; eauto.
    + rewrite step_ok by auto. split; [discriminate|]. intros [Y|Y]; exfalso; [eapply not_both; eauto|]. apply (proj1 (proj2 X)). auto.
  - intros z Hz. apply prune_outside. intros v Hv ->. lia.
Qed.
Lemma p_C43_ok : forall P df v, reachable o (map Z.of_nat P) df -> now_internal t P v ->
  exists df', inner_prune df (Z.of_nat v) = Ok df' /\
    (exists r, nth_error df' v = Some r /\ pr_cl r = (-1)%Z /\ pr_cr r = (-1)%Z /\ pr_nl r = 1%nat) /\
    (forall r r', nth_error df 0 = Some r -> nth_error df' 0 = Some r' -> (pr_nl r' < pr_nl r)%nat) /\
    (forall u, (u < size t)%nat -> ~ anc t v u -> ~ anc t u v -> nth_error df' u = nth_error df u).
Proof.
  intros P df v RE X. destruct (reach_risk _ _ RE) as (rs&RO). destruct (reach_mem rs P df RO RE) as (C&->&M).
  pose proof (chain_inb t (rev P) C) as B. apply (mem_internal t rs (rev P) P M) in X.
  exists (state rs (v :: rev P)). split; [apply step_ok; auto|]. split; [|split].
  - destruct (state_new t WF rs (rev P) v B X) as (r&r'&_&E&A1&A2&A3&_). exists r'. auto.
  - intros r r' H1 H2. rewrite tab_nth_error in H1, H2 by (apply wf_pos; auto).
    assert (E1 : r = mkrow t rs (rev P) (gsof t rs (rev P)) 0) by congruence.
    assert (E2 : r' = mkrow t rs (v :: rev P) (gsof t rs (v :: rev P)) 0) by congruence. rewrite E1, E2.
    rewrite (proj1 (root_nl t WF rs GW (rev P) B)), (proj1 (root_nl t WF rs GW (v :: rev P) ltac:(apply inb_cons; auto; apply X))).
    pose proof (cnt_step t WF (rev P) v B X). lia.
  - intros u Hu N1 N2. apply state_other; auto.
Qed.

(** the value of g1 left behind *)
Lemma p_C44 : forall rs P df v df', risk_of o rs -> reachable o (map Z.of_nat P) df -> inner_prune df (Z.of_nat v) = Ok df' ->
  (forall u r, nth_error df' u = Some r ->
     (now_internal t (v :: P) u -> exists sel, leaves_below t (v :: P) u sel /\
        pr_g1 r = GFin ((rs u - mean_risk t rs sel) / (INR (count_sel t sel) - 1))) /\
     (removed t (v :: P) u -> pr_g1 r = GNaN)) /\
  exists r r' x, nth_error df v = Some r /\ nth_error df' v = Some r' /\ now_leaf t (v :: P) v /\ pr_g1 r = GFin x /\ pr_g1 r' = GFin x.
Proof.
  intros rs P df v df' RO RE H. destruct (reach_mem rs P df RO RE) as (C&->&M). pose proof (chain_inb t (rev P) C) as B.
  destruct (step_inv t WF rs GW (rev P) _ df' B H) as (v'&Ev&X&->). assert (v' = v) by lia. subst v'.
  assert (M' : forall x, In x (v :: rev P) <-> In x (v :: P)) by (intros; cbn [In]; rewrite M; tauto).
  destruct (state_describes t WF rs GW (v :: rev P) (v :: P) (conj X C) M') as [_ D]. split.
  - intros u r Hr. destruct (D u r Hr) as [D1 D2 D3 D4 D5 D6]. split.
    + intros Y. destruct (D6 Y) as (_&_&sel&L&E1&_&E3&E4). exists sel. split; auto. rewrite E4, E3, E1. auto.
    + intros Y. apply D4; auto.
  - destruct (state_new t WF rs (rev P) v B X) as (r&r'&E&E'&_&_&_&_&G&x&Gx). exists r, r', x.
    split; auto. split; auto. split; [|split; [rewrite <- G; auto|auto]].
    apply (mem_leaf t rs (v :: rev P) (v :: P) M'). apply (now_leaf_cons t (rev P) v v B X (proj1 X)). auto.
Qed.
Lemma p_C44_stuck : forall rs P df v df', risk_of o rs -> risk_nonincreasing t rs -> reachable o (map Z.of_nat P) df ->
  inner_prune df (Z.of_nat v) = Ok df' ->
  (minimal_g1 df v -> minimal_g1 df' v) /\ (strictly_minimal_g1 df v -> strictly_minimal_g1 df' v) /\
  inner_prune df' (Z.of_nat v) = Err ValueError.
Proof.
  intros rs P df v df' RO RN RE H. destruct (reach_mem rs P df RO RE) as (C&->&M). pose proof (chain_inb t (rev P) C) as B.
  destruct (step_inv t WF rs GW (rev P) _ df' B H) as (v'&Ev&X&->). assert (v' = v) by lia. subst v'.
  destruct (stuck t WF rs GW (rev P) v C X RN) as [S1 S2]. split; auto. split; auto.
  apply prune_rejects; auto; [apply inb_cons; auto; apply X|apply X|]. intros Y. destruct Y as (_&_&_&N). apply N. left. auto.
Qed.

(** order of prunes *)
Lemma p_C45_absorb : forall P df v a d1 d2 d3, reachable o (map Z.of_nat P) df -> anc t a v -> a <> v ->
  inner_prune df (Z.of_nat v) = Ok d1 -> inner_prune d1 (Z.of_nat a) = Ok d2 -> inner_prune df (Z.of_nat a) = Ok d3 ->
  forall u r r', nth_error d2 u = Some r -> nth_error d3 u = Some r' -> (u <> a -> r = r') /\ same_but_g1 r r'.
Proof.
  intros P df v a d1 d2 d3 RE A NE H1 H2 H3. destruct (reach_risk _ _ RE) as (rs&RO). destruct (reach_mem rs P df RO RE) as (C&->&M).
  pose proof (chain_inb t (rev P) C) as B.
  destruct (step_inv t WF rs GW (rev P) _ d1 B H1) as (v'&Ev&X&->). assert (v' = v) by lia. subst v'.
  destruct (step_inv t WF rs GW (rev P) _ d3 B H3) as (a'&Ea&Xa&->). assert (a' = a) by lia. subst a'.
  destruct (step_inv t WF rs GW (v :: rev P) _ d2 ltac:(apply inb_cons; auto; apply X) H2) as (a'&Ea'&Xa'&->). assert (a' = a) by lia. subst a'.
  apply (state_absorb t WF rs (rev P) v a C X Xa A NE).
Qed.
Lemma p_C45_absorb_ok : forall P df v a, reachable o (map Z.of_nat P) df -> anc t a v -> a <> v -> now_internal t P v ->
  exists d1 d2 d3, inner_prune df (Z.of_nat v) = Ok d1 /\ inner_prune d1 (Z.of_nat a) = Ok d2 /\ inner_prune df (Z.of_nat a) = Ok d3.
Proof.
  intros P df v a RE A NE X. destruct (reach_risk _ _ RE) as (rs&RO). destruct (reach_mem rs P df RO RE) as (C&->&M).
  pose proof (chain_inb t (rev P) C) as B. apply (mem_internal t rs (rev P) P M) in X.
  destruct (anc_internal t WF rs (rev P) (gsof t rs (rev P)) v X a A NE) as [Xa' Xa]. unfold P' in Xa'.
  exists (state rs (v :: rev P)), (state rs (a :: v :: rev P)), (state rs (a :: rev P)).
  split; [apply step_ok; auto|]. split; apply step_ok; auto. apply inb_cons; auto. apply X.
Qed.
Lemma p_C45_commute : forall P df v w, reachable o (map Z.of_nat P) df -> now_internal t P v -> now_internal t P w ->
  ~ anc t v w -> ~ anc t w v ->
  exists d, (do d1 <- inner_prune df (Z.of_nat v); inner_prune d1 (Z.of_nat w)) = Ok d /\
            (do d1 <- inner_prune df (Z.of_nat w); inner_prune d1 (Z.of_nat v)) = Ok d.
Proof.
  intros P df v w RE Xv Xw N1 N2. destruct (reach_risk _ _ RE) as (rs&RO). destruct (reach_mem rs P df RO RE) as (C&->&M).
  pose proof (chain_inb t (rev P) C) as B. apply (mem_internal t rs (rev P) P M) in Xv. apply (mem_internal t rs (rev P) P M) in Xw.
  assert (Bv : inb t (v :: rev P)) by (apply inb_cons; auto; apply Xv). assert (Bw : inb t (w :: rev P)) by (apply inb_cons; auto; apply Xw).
  exists (state rs (w :: v :: rev P)). rewrite !step_ok by auto. cbn [bind]. split.
  - apply step_ok; auto. apply unrelated_internal; auto.
  - rewrite (state_commute t WF rs (rev P) v w C Xv Xw N1 N2). apply step_ok; auto. apply unrelated_internal; auto.
Qed.

Lemma p_C46 : forall P df more df' r r', reachable o (map Z.of_nat P) df -> foldM inner_prune more df = Ok df' ->
  nth_error df 0 = Some r -> nth_error df' 0 = Some r' ->
  (pr_nl r' + length more <= pr_nl r)%nat /\ (1 <= pr_nl r')%nat /\
  forall rs, risk_of o rs -> risk_nonincreasing t rs -> pr_sub r <= pr_sub r'.
Proof.
  intros P df more df' r r' RE F H1 H2.
  assert (K : forall rs, risk_of o rs -> (pr_nl r' + length more <= pr_nl r)%nat /\ (1 <= pr_nl r')%nat /\ (risk_nonincreasing t rs -> pr_sub r <= pr_sub r')).
  { intros rs RO. destruct (reach_mem rs P df RO RE) as (C&->&M). pose proof (chain_inb t (rev P) C) as B.
    destruct (steps_inv t WF rs GW more (rev P) df' C F) as (Q&Em&C'&->). pose proof (chain_inb t _ C') as B'.
    rewrite tab_nth_error in H1, H2 by (apply wf_pos; auto).
    assert (E1 : r = mkrow t rs (rev P) (gsof t rs (rev P)) 0) by congruence.
    assert (E2 : r' = mkrow t rs (Q ++ rev P) (gsof t rs (Q ++ rev P)) 0) by congruence. rewrite E1, E2.
    destruct (root_nl t WF rs GW (rev P) B) as [-> ->]. destruct (root_nl t WF rs GW (Q ++ rev P) B') as [-> ->].
    destruct (steps_root t WF rs GW Q (rev P) C') as [S1 S2]. rewrite Em, map_length, rev_length. split; auto. split; auto.
    apply INR_le. rewrite cnt_SS. apply (SS_pos t WF); auto; [apply wf_pos; auto|apply root_alive; auto]. }
  destruct (reach_risk _ _ RE) as (rs0&RO0). destruct (K rs0 RO0) as (K1&K2&_). split; auto. split; auto.
  intros rs RO. apply (K rs RO).
Qed.

Lemma p_C48 : prune_tree o = Err NameError.
Proof.
  destruct risk_ex as (l&Hl). assert (RO : risk_of o (fun v => nth v l 0)) by (exists l; auto).
  unfold prune_tree. rewrite (init_state _ RO). reflexivity.
Qed.
End Props.
Lemma p_C48_any : forall o d, @prune_tree R _ o <> Ok d.
Proof. intros o d. unfold prune_tree. destruct (initialize_prune_df o); cbn; discriminate. Qed.

(** *** the scale of g1 *)
Lemma p_C67 : forall kd (t : tree R) P df v r, wf_tree t -> good_weights t -> reachable (TreeObj kd t) (map Z.of_nat P) df ->
  now_internal t P v -> nth_error df v = Some r -> pr_g1 r = GFin (cart_g r / node_w t v).
Proof.
  intros kd t P df v r WF GW RE X H. destruct (reach_risk kd t _ _ RE) as (rs&RO).
  destruct (p_C42 kd t WF GW rs _ df RO RE) as (Q&E&_&D). apply map_of_nat_inj in E. subst Q.
  destruct (D v r H) as [D1 D2 D3 D4 D5 D6]. destruct (D6 X) as (_&_&sel&_&_&TW&_&G). rewrite G. f_equal. unfold cart_g. rn.
  rewrite D1, D2. pose proof (proj1 GW v (proj1 X)). apply le_INR in TW. cbn in TW. field. lra.
Qed.

(** *** examples *)
Ltac exw := unfold node_w, node_v; cbn; rewrite ?INR_IPR; unfold IPR, IPR_2; cbn; lra.
Lemma prune7_ok : wf_tree (@prune7 R _) /\ good_weights (@prune7 R _) /\ class_tree (@prune7 R _) 2 /\ forall c, (c < 2)%nat -> additive (@prune7 R _) (node_v prune7 c).
Proof.
  split; [reflexivity|]. split; [split|split].
  - intros v Hv. do 7 (destruct v as [|v]; [exw|]). cbn in Hv. lia.
  - intros p l r HL HR. unfold lc, rc in *. do 7 (destruct p as [|p]; [cbn in HL, HR; try lia; assert (El : l = Z.to_nat (Z.of_nat l)) by lia; assert (Er : r = Z.to_nat (Z.of_nat r)) by lia; rewrite <- HL in El; rewrite <- HR in Er; vm_compute in El, Er; subst l r; exw|]). destruct p; cbn in HL; lia.
  - intros v Hv. do 7 (destruct v as [|v]; [split; [reflexivity|split; [intros c Hc; do 2 (destruct c as [|c]; [exw|]); lia|exw]]|]). cbn in Hv. lia.
  - intros c Hc p l r HL HR. unfold lc, rc in *. do 7 (destruct p as [|p]; [cbn in HL, HR; try lia; assert (El : l = Z.to_nat (Z.of_nat l)) by lia; assert (Er : r = Z.to_nat (Z.of_nat r)) by lia; rewrite <- HL in El; rewrite <- HR in Er; vm_compute in El, Er; subst l r; do 2 (destruct c as [|c]; [exw|]); lia|]). destruct p; cbn in HL; lia.
Qed.
Lemma full7_ok : wf_tree (@full7 R _) /\ good_weights (@full7 R _) /\ class_tree (@full7 R _) 2 /\ forall c, (c < 2)%nat -> additive (@full7 R _) (node_v full7 c).
Proof.
  split; [reflexivity|]. split; [split|split].
  - intros v Hv. do 7 (destruct v as [|v]; [exw|]). cbn in Hv. lia.
  - intros p l r HL HR. unfold lc, rc in *. do 7 (destruct p as [|p]; [cbn in HL, HR; try lia; assert (El : l = Z.to_nat (Z.of_nat l)) by lia; assert (Er : r = Z.to_nat (Z.of_nat r)) by lia; rewrite <- HL in El; rewrite <- HR in Er; vm_compute in El, Er; subst l r; exw|]). destruct p; cbn in HL; lia.
  - intros v Hv. do 7 (destruct v as [|v]; [split; [reflexivity|split; [intros c Hc; do 2 (destruct c as [|c]; [exw|]); lia|exw]]|]). cbn in Hv. lia.
  - intros c Hc p l r HL HR. unfold lc, rc in *. do 7 (destruct p as [|p]; [cbn in HL, HR; try lia; assert (El : l = Z.to_nat (Z.of_nat l)) by lia; assert (Er : r = Z.to_nat (Z.of_nat r)) by lia; rewrite <- HL in El; rewrite <- HR in Er; vm_compute in El, Er; subst l r; do 2 (destruct c as [|c]; [exw|]); lia|]). destruct p; cbn in HL; lia.
Qed.
