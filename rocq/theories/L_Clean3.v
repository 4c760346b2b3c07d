(** L_Clean3: the descent of smooth_clean and the forest it returns. *)
From Verif Require Import Base TreeSpec Spec M_Tree M_Gamma M_Levels M_Prox M_Grad M_Sgd M_Smooth M_Clean SpecSmooth SpecTune SpecClean.
From Verif Require Import L_Base L_Tree L_TreeModel L_TreeModel2 L_Dist L_Gamma L_Gamma2 L_Prox L_Sgd L_Grad L_Smooth L_Smooth2 L_Smooth3 L_Smooth4 L_Route L_Tune L_Depth2 L_Box L_Clean L_Clean2.
From Coq Require Import Reals Lra Lia.
Local Open Scope R_scope.

Lemma sumto_minus : forall n f g, sumto n f - sumto n g = sumto n (fun q => f q - g q).
Proof. induction n as [|n IH]; intros f g; cbn [sumto]; [ring|]. rewrite <- IH. ring. Qed.

(** *** C34: the derivative of the loss *)
Lemma derivable_local : forall f g x d, (exists dl, 0 < dl /\ forall z, Rabs (z - x) < dl -> f z = g z) -> derivable_pt_lim g x d -> derivable_pt_lim f x d.
Proof.
  intros f g x d (dl&Pd&E) D eps He. destruct (D eps He) as (d1&H1). assert (PM : 0 < Rmin d1 dl) by (apply Rmin_pos; [apply cond_pos|auto]).
  exists (mkposreal _ PM). intros h Hh Hl. cbn in Hl.
  rewrite (E (x + h)) by (replace (x + h - x) with h by ring; eapply Rlt_le_trans; [apply Hl|apply Rmin_r]).
  rewrite (E x) by (replace (x - x) with 0 by ring; rewrite Rabs_R0; auto).
  apply H1; auto. eapply Rlt_le_trans; [apply Hl|apply Rmin_l].
Qed.

Section Deriv.
Variables (ts : list (tree R)) (oob : nat -> list nat) (X : mat R) (lf : nat -> nat -> nat) (idx : list (list nat)) (w : list R).
Variables (Gamma eta : mat R) (y : list R).
Hypothesis WF : Forall wf_tree ts.
Hypothesis NE : ts <> [].
Hypothesis OR : oob_rows oob (length ts) (length X).
Hypothesis LV : leaves_of ts X lf.
Hypothesis EI : generate_oob_info ts oob X = Ok (idx, w).
Hypothesis LG : length Gamma = offset ts (length ts).
Hypothesis LE : length eta = offset ts (length ts).
Hypothesis LY : length y = length X.
Variables (lamb : list R) (k : nat) (obs : list nat).
Hypothesis Hk : (k < length lamb)%nat.
Hypothesis OB : forall o, In o obs -> (o < length X)%nat.
Hypothesis NO : obs <> [].
Hypothesis NZ : forall o q, In o obs -> (q < length ts)%nat -> out_of_bag oob o q = true -> rowsum eta lamb (leaf_row ts lf q o) <> 0.

Definition true_deriv o := oob_mean oob (length ts) o (fun q => let r := leaf_row ts lf q o in
      let G := rowsum Gamma lamb r in let H := rowsum eta lamb r in
      (nth k (nth r Gamma []) 0 * H - G * nth k (nth r eta []) 0) / (H * H)).

Lemma pred_derivative : forall o, In o obs -> derivable_pt_lim (fun x => pred ts oob lf Gamma eta (upd lamb k x) o) (nth k lamb 0) (true_deriv o).
Proof.
  intros o Ho. destruct (In_nth _ _ 0%nat Ho) as (j&Hj&EJ).
  destruct (y_oob_derivative ts oob X lf idx w Gamma eta obs WF NE OR LV EI LG LE OB NO lamb k j Hk Hj) as (f&dl&Pd&F&D).
  { rewrite EJ. intros; apply NZ; auto. }
  rewrite EJ in D. fold (true_deriv o) in D. eapply derivable_local; [|exact D]. exists dl. split; auto. intros z Hz.
  destruct (F z Hz) as (y1&ev&E&<-).
  destruct (y_oob_forest ts oob X lf idx w Gamma eta obs WF NE OR LV EI LG LE OB NO (upd lamb k z)) as (y2&ev2&E2&_&_&V).
  rewrite E in E2. assert (y2 = y1) by congruence. subst y2. rewrite (V j Hj), EJ. auto.
Qed.
Lemma mse_derivative : derivable_pt_lim (fun x => oob_mse oob (length ts) obs y (pred ts oob lf Gamma eta (upd lamb k x))) (nth k lamb 0)
  (sumto (length obs) (fun j => let o := nth j obs 0%nat in
     if ever oob (length ts) o then 2 * (pred ts oob lf Gamma eta lamb o - nth o y 0) * true_deriv o else 0) / n_ever oob (length ts) obs).
Proof.
  unfold oob_mse. set (N := n_ever oob (length ts) obs).
  set (T := fun j x => if ever oob (length ts) (nth j obs 0%nat)
     then (pred ts oob lf Gamma eta (upd lamb k x) (nth j obs 0%nat) - nth (nth j obs 0%nat) y 0) * (pred ts oob lf Gamma eta (upd lamb k x) (nth j obs 0%nat) - nth (nth j obs 0%nat) y 0) else 0).
  set (D := fun j => if ever oob (length ts) (nth j obs 0%nat)
     then 2 * (pred ts oob lf Gamma eta lamb (nth j obs 0%nat) - nth (nth j obs 0%nat) y 0) * true_deriv (nth j obs 0%nat) else 0).
  assert (DS : derivable_pt_lim (fun z => nsum (map (fun j => T j z) (seq 0 (length obs)))) (nth k lamb 0) (nsum (map D (seq 0 (length obs))))).
  { apply derivable_nsum. intros j Hj. apply in_seq in Hj. assert (HJ : (j < length obs)%nat) by lia. unfold T, D. destruct (ever oob (length ts) (nth j obs 0%nat)).
    - pose proof (pred_derivative (nth j obs 0%nat) (nth_In obs 0%nat HJ)) as DP.
      pose proof (derivable_pt_lim_minus _ _ _ _ _ DP (derivable_pt_lim_const (nth (nth j obs 0%nat) y 0) (nth k lamb 0))) as DM.
      pose proof (derivable_pt_lim_mult _ _ _ _ _ DM DM) as DQ. eapply derivable_val; [eapply derivable_ext; [|exact DQ]|].
      + intros z. unfold mult_fct, minus_fct, fct_cte. auto.
      + unfold minus_fct, fct_cte. assert (UL : upd lamb k (nth k lamb 0) = lamb).
        { apply (nth_eq_ext _ _ 0); [apply upd_length|]. intros i Hi. rewrite upd_length in Hi. destruct (Nat.eq_dec i k) as [->|N'].
          - rewrite nth_upd_eq by auto. auto. - rewrite nth_upd_neq by auto. auto. }
        rewrite UL. ring.
    - apply derivable_pt_lim_const. }
  pose proof (derivable_pt_lim_scal _ (/ N) _ _ DS) as DQ. eapply derivable_val; [eapply derivable_ext; [|exact DQ]|].
  - intros z. unfold mult_real_fct. rewrite nsum_sumto, map_length, seq_length. unfold Rdiv. rewrite Rmult_comm. f_equal.
    apply sumto_ext. intros j Hj. rewrite nth_map_seq by auto. auto.
  - rewrite nsum_sumto, map_length, seq_length. unfold Rdiv. rewrite Rmult_comm. f_equal.
    apply sumto_ext. intros j Hj. rewrite nth_map_seq by auto. auto.
Qed.
Lemma grad_agrees : (forall o q, In o obs -> (q < length ts)%nat -> out_of_bag oob o q = true ->
    rowsum Gamma lamb (leaf_row ts lf q o) = rowsum eta lamb (leaf_row ts lf q o)) ->
  exists g, calc_y_oob_grad lamb Gamma eta idx w obs = Ok g /\ forall j, (j < length obs)%nat -> nth k (nth j g []) 0 = true_deriv (nth j obs 0%nat).
Proof.
  intros GH. destruct (grad_forest ts oob X lf idx w Gamma eta obs WF NE OR LV EI LG LE OB NO lamb) as (g&E3&L3&V3).
  exists g. split; auto. intros j Hj. destruct (V3 j Hj) as [_ G3]. rewrite (G3 k Hk); [|intros; apply NZ; auto; apply nth_In; auto].
  apply oob_mean_ext. intros q Hq B. cbn zeta. specialize (GH (nth j obs 0%nat) q (nth_In _ _ Hj) Hq B).
  specialize (NZ (nth j obs 0%nat) q (nth_In _ _ Hj) Hq B). rewrite GH.
  destruct (Req_EM_T (rowsum eta lamb (leaf_row ts lf q (nth j obs 0%nat))) 0); [contradiction|]. field; auto.
Qed.
Lemma grad_error : (forall o q, In o obs -> (q < length ts)%nat -> out_of_bag oob o q = true -> rowsum Gamma lamb (leaf_row ts lf q o) <> 0) ->
  exists g, calc_y_oob_grad lamb Gamma eta idx w obs = Ok g /\ forall j, (j < length obs)%nat -> let o := nth j obs 0%nat in
    nth k (nth j g []) 0 - true_deriv o =
    oob_mean oob (length ts) o (fun q => let r := leaf_row ts lf q o in nth k (nth r Gamma []) 0 * (/ rowsum Gamma lamb r - / rowsum eta lamb r)).
Proof.
  intros GZ. destruct (grad_forest ts oob X lf idx w Gamma eta obs WF NE OR LV EI LG LE OB NO lamb) as (g&E3&L3&V3).
  exists g. split; auto. intros j Hj. cbn zeta. destruct (V3 j Hj) as [_ G3]. rewrite (G3 k Hk); [|intros; apply NZ; auto; apply nth_In; auto].
  unfold true_deriv. rewrite <- !weights_mean. rewrite sumto_minus.
  apply sumto_ext. intros q Hq. destruct (out_of_bag oob (nth j obs 0%nat) q) eqn:B; [|ring]. cbn zeta.
  specialize (GZ (nth j obs 0%nat) q (nth_In _ _ Hj) Hq B). specialize (NZ (nth j obs 0%nat) q (nth_In _ _ Hj) Hq B).
  pose proof (oob_count_pos oob (length ts) (nth j obs 0%nat) q Hq B).
  destruct (Req_EM_T (rowsum Gamma lamb (leaf_row ts lf q (nth j obs 0%nat))) 0); [contradiction|]. field. repeat split; auto. lra.
Qed.
Lemma l2_agrees : (forall o q, In o obs -> (q < length ts)%nat -> out_of_bag oob o q = true ->
    rowsum Gamma lamb (leaf_row ts lf q o) = rowsum eta lamb (leaf_row ts lf q o)) ->
  exists r f, calc_l2_grad lamb Gamma eta idx w obs y = Ok r /\ length r = length lamb /\
    (forall x, part_cost (cP idx w Gamma eta y) (upd lamb k x) obs = Ok (f x)) /\ derivable_pt_lim f (nth k lamb 0) (nth k r 0).
Proof.
  intros GH. destruct (grad_agrees GH) as (g&E1&V1).
  destruct (l2_grad_val ts oob X lf idx w Gamma eta y WF NE OR LV EI LG LE LY lamb obs OB NO NZ) as (g'&r&E2&E3&L3&V3).
  rewrite E1 in E2. assert (g' = g) by congruence. subst g'.
  exists r, (fun x => oob_mse oob (length ts) obs y (pred ts oob lf Gamma eta (upd lamb k x))). split; auto. split; auto. split.
  - intros x. apply (part_cost_val ts oob X lf idx w Gamma eta y); auto.
  - rewrite (V3 k Hk). eapply derivable_val; [apply mse_derivative|]. f_equal. apply sumto_ext. intros j Hj. cbn zeta. rewrite V1 by auto. auto.
Qed.
End Deriv.

(** *** C35 *)
Lemma combine_snoc : forall {A} (d : list A) x s, combine (seq s (length (d ++ [x]))) (d ++ [x]) = combine (seq s (length d)) d ++ [((s + length d)%nat, x)].
Proof.
  induction d as [|a d IH]; intros x s; [cbn; rewrite Nat.add_0_r; auto|]. cbn [app length seq combine]. rewrite IH. cbn. do 3 f_equal. f_equal. lia.
Qed.
Definition st_init (lamb : list R) : clean_state R := {| cs_lamb := lamb; cs_iv := None; cs_best := None; cs_costs := [] |}.
Definition cost_of (full : bool) (P : clean_problem R) (lamb : list R) (obs : list nat) : result R :=
  if full then full_cost P lamb else part_cost P lamb obs.

Lemma clean_fold : forall full cons t ad (P : clean_problem R) n_obs init draws st, draws <> [] ->
  foldM (clean_step full cons t ad P n_obs) (combine (seq 0 (length draws)) draws) (st_init init) = Ok st ->
  exists its ivs, length its = S (length draws) /\ length ivs = S (length draws) /\ length (cs_costs st) = S (length draws) /\
    nth 0 its [] = init /\ nth 0 ivs None = None /\ nth (length draws) its [] = cs_lamb st /\ nth (length draws) ivs None = cs_iv st /\
    (n_obs <= length (c_idx P))%nat /\
    (forall s, (s < length draws)%nat ->
       clean_move cons t ad P (nth s its []) (nth s ivs None) (nth s draws []) = Ok (nth (S s) its [], nth (S s) ivs None) /\
       cost_of full P (nth (S s) its []) (nth s draws []) = Ok (nth (S s) (cs_costs st) 0)) /\
    cost_of full P init (nth 0 draws []) = Ok (nth 0 (cs_costs st) 0) /\
    cs_best st = if full then Some (init, nth 0 (cs_costs st) 0) else None.
Proof.
  intros full cons t ad P n_obs init draws. induction draws as [|x d IH] using rev_ind; intros st NE H; [congruence|]. clear NE.
  rewrite combine_snoc in H. cbn [Nat.add] in H. rewrite foldM_app in H. apply bind_ok in H. destruct H as (st1&H1&H2).
  cbn [foldM] in H2. apply bind_ok in H2. destruct H2 as (st2&H2&H3). assert (st2 = st) by congruence. subst st2. clear H3.
  unfold clean_step in H2. destruct (Nat.ltb_spec (length (c_idx P)) n_obs) as [|LN]; [discriminate|].
  rewrite app_length. cbn [length]. rewrite Nat.add_1_r.
  destruct d as [|d0 d].
  - cbn in H1. assert (st1 = st_init init) by congruence. subst st1. clear H1 IH. cbn [length Nat.eqb app] in *. cbn [st_init cs_lamb cs_iv cs_best cs_costs] in H2.
    exists [init; cs_lamb st], [None; cs_iv st]. apply bind_ok in H2. destruct H2 as (s0&A&B). apply bind_ok in B. destruct B as ((l2&iv1)&B1&B2).
    destruct full; cbn [cost_of].
    + apply bind_ok in A. destruct A as (c0&A1&A2). assert (s0 = {| cs_lamb := init; cs_iv := None; cs_best := Some (init, c0); cs_costs := [c0] |}) by (cbn in A2; congruence). subst s0.
      cbn [cs_lamb cs_iv cs_best cs_costs] in B1, B2. apply bind_ok in B2. destruct B2 as (c1&C1&C2).
      change (@nltb R _ c1 c1) with (Rltb c1 c1) in C2. destruct (Rltb_spec c1 c1); [lra|].
      assert (st = {| cs_lamb := l2; cs_iv := iv1; cs_best := Some (init, c0); cs_costs := [c0] ++ [c1] |}) by congruence. subst st. cbn.
      repeat split; auto. destruct s; [cbn; auto|lia]. destruct s; [cbn; auto|lia].
    + apply bind_ok in A. destruct A as (c0&A1&A2). assert (s0 = {| cs_lamb := init; cs_iv := None; cs_best := None; cs_costs := [c0] |}) by (cbn in A2; congruence). subst s0.
      cbn [cs_lamb cs_iv cs_best cs_costs] in B1, B2. apply bind_ok in B2. destruct B2 as (c1&C1&C2).
      assert (st = {| cs_lamb := l2; cs_iv := iv1; cs_best := None; cs_costs := [c0] ++ [c1] |}) by congruence. subst st. cbn.
      repeat split; auto. destruct s; [cbn; auto|lia]. destruct s; [cbn; auto|lia].
  - destruct (IH st1 ltac:(discriminate) H1) as (its&ivs&L1&L2&L3&A0&A1&A2&A3&A4&A5&A6&A7). clear IH H1.
    set (dd := d0 :: d) in *. assert (LD : (0 < length dd)%nat) by (unfold dd; cbn; lia).
    replace (Nat.eqb (length dd) 0) with false in H2 by (symmetry; apply Nat.eqb_neq; lia). cbn [bind] in H2.
    apply bind_ok in H2. destruct H2 as ((l2&iv1)&B1&B2).
    assert (Q : exists c1, cost_of full P l2 x = Ok c1 /\ cs_lamb st = l2 /\ cs_iv st = iv1 /\ cs_best st = cs_best st1 /\ cs_costs st = cs_costs st1 ++ [c1]).
    { destruct full; apply bind_ok in B2; destruct B2 as (c1&C1&C2); exists c1.
      - change (@nltb R _ c1 c1) with (Rltb c1 c1) in C2. destruct (Rltb_spec c1 c1); [lra|]. injection C2 as <-. auto.
      - injection C2 as <-. auto. }
    destruct Q as (c1&C1&Q1&Q2&Q3&Q4).
    exists (its ++ [l2]), (ivs ++ [iv1]). rewrite Q4, !app_length, L1, L2, L3. cbn [length].
    split; [lia|]. split; [lia|]. split; [lia|]. rewrite !(app_nth1 its), !(app_nth1 ivs) by lia.
    split; auto. split; auto.
    rewrite (app_nth2 its), (app_nth2 ivs) by lia. rewrite L1, L2, Nat.sub_diag. cbn [nth]. split; auto. split; auto. split; auto. split; [|split].
    + intros s Hs. destruct (Nat.eq_dec s (length dd)) as [->|N].
      * rewrite (app_nth1 its), (app_nth1 ivs) by lia. rewrite (app_nth2 its), (app_nth2 ivs), (app_nth2 (cs_costs st1)), (app_nth2 dd) by lia.
        rewrite L1, L2, L3, !Nat.sub_diag. cbn [nth]. rewrite A2, A3. auto.
      * rewrite !(app_nth1 its), !(app_nth1 ivs), (app_nth1 (cs_costs st1)), (app_nth1 dd) by lia. apply A5. lia.
    + rewrite (app_nth1 (cs_costs st1)), (app_nth1 dd) by lia. auto.
    + rewrite Q3. rewrite (app_nth1 (cs_costs st1)) by lia. auto.
Qed.

Lemma clean_trajectory : forall (P : clean_problem R) init n_obs full t cons ad draws best lst costs, draws <> [] ->
  stocastic_grad_descent_clean P init n_obs full t cons ad draws = Ok (best, lst, costs) ->
  exists its ivs, length its = S (length draws) /\ length ivs = S (length draws) /\ length costs = S (length draws) /\
    nth 0 its [] = init /\ nth 0 ivs None = None /\ nth (length draws) its [] = lst /\
    (forall s, (s < length draws)%nat ->
       clean_move cons t ad P (nth s its []) (nth s ivs None) (nth s draws []) = Ok (nth (S s) its [], nth (S s) ivs None) /\
       (if full then full_cost P (nth (S s) its []) else part_cost P (nth (S s) its []) (nth s draws [])) = Ok (nth (S s) costs 0)) /\
    (if full then full_cost P init else part_cost P init (nth 0 draws [])) = Ok (nth 0 costs 0) /\
    best = if full then init else lst.
Proof.
  intros P init n_obs full t cons ad draws best lst costs NE H. unfold stocastic_grad_descent_clean in H.
  destruct (negb _) in H; [discriminate|]. destruct (_ && _)%bool in H; [discriminate|]. apply bind_ok in H. destruct H as (st&H1&H2).
  destruct (clean_fold full cons t ad P n_obs init draws st NE H1) as (its&ivs&L1&L2&L3&A0&A1&A2&A3&A4&A5&A6&A7).
  destruct full.
  - rewrite A7 in H2. assert (best = init) by congruence. assert (lst = cs_lamb st) by congruence. assert (costs = cs_costs st) by congruence. subst.
    exists its, ivs. repeat (split; auto).
  - assert (best = cs_lamb st) by congruence. assert (lst = cs_lamb st) by congruence. assert (costs = cs_costs st) by congruence. subst.
    exists its, ivs. repeat (split; auto).
Qed.
Lemma clean_no_steps : forall (P : clean_problem R) init n_obs t cons ad,
  ncols (c_Gamma P) = length init -> (cons = true -> nsum init = 1 /\ forall x, In x init -> 0 <= x) ->
  stocastic_grad_descent_clean P init n_obs true t cons ad [] = Err UnboundLocalError /\
  stocastic_grad_descent_clean P init n_obs false t cons ad [] = Ok (init, init, []).
Proof.
  intros P init n_obs t cons ad NC C. unfold stocastic_grad_descent_clean. rewrite NC, Nat.eqb_refl. cbn [negb].
  assert (E : (cons && (negb (allclose1 (nsum init)) || existsb (fun x => nltb x n0) init))%bool = false).
  { destruct cons; auto. destruct (C eq_refl) as [S1 PO]. cbn [andb]. apply Bool.orb_false_iff. split.
    - rewrite S1. apply Bool.negb_false_iff. unfold allclose1. rn. replace (1 - 1) with 0 by ring.
      assert (TP : 0 <= npow (1 / INR 10) 8 + npow (1 / INR 10) 5).
      { rewrite (npow_pow (1 / INR 10) 8), (npow_pow (1 / INR 10) 5). assert (0 <= 1 / INR 10) by (apply Rlt_le, Rdiv_lt_0_compat; [lra|apply lt_0_INR; lia]).
        pose proof (pow_le (1 / INR 10) 8 H). pose proof (pow_le (1 / INR 10) 5 H). lra. }
      unfold nleb. rn. destruct (Rltb_spec (npow (1 / INR 10) 8 + npow (1 / INR 10) 5) 0); [lra|auto].
    - apply Bool.not_true_is_false. intros E. apply existsb_exists in E. destruct E as (x&Hx&E).
      change (@nltb R _ x n0) with (Rltb x 0) in E. destruct (Rltb_spec x 0); [|discriminate]. specialize (PO x Hx). lra. }
  rewrite E. split; reflexivity.
Qed.

(** each move is a gradient step (with the gradient of the drawn observations), projected when constrained *)
Lemma l2_grad_length : forall lamb (Gamma eta : mat R) idx w obs y g, calc_l2_grad lamb Gamma eta idx w obs y = Ok g -> length g = length lamb.
Proof.
  intros lamb Gamma eta idx w obs y g H. unfold calc_l2_grad in H. apply bind_ok in H. destruct H as (yi&_&H).
  apply bind_ok in H. destruct H as ((yo&ev)&_&H). apply bind_ok in H. destruct H as (m&_&H).
  injection H as <-. rewrite map_length, seq_length. auto.
Qed.
Definition grad_at (P : clean_problem R) (lamb : list R) (obs : list nat) : result (list R) :=
  calc_l2_grad lamb (c_Gamma P) (c_eta P) (c_idx P) (c_w P) obs (c_y P).
Lemma clean_move_detail : forall cons t ad (P : clean_problem R) lamb iv obs l2 iv1 K gs,
  clean_move cons t ad P lamb iv obs = Ok (l2, iv1) -> length lamb = K -> iv_hist K ad gs iv ->
  exists g raw, grad_at P lamb obs = Ok g /\ length g = K /\ length raw = K /\
    (forall k, (k < K)%nat -> nth k raw 0 = step_target t ad (gs ++ [g]) k (nth k lamb 0)) /\
    (if cons then prox_value raw else Ok raw) = Ok l2 /\ length l2 = K /\ iv_hist K ad (gs ++ [g]) iv1.
Proof.
  intros cons t ad P lamb iv obs l2 iv1 K gs H LK HI. unfold clean_move in H.
  apply bind_ok in H. destruct H as ([l1 iv2]&E1&H).
  assert (X : exists g, grad_at P lamb obs = Ok g /\ length g = K /\ length l1 = K /\
     (forall k, (k < K)%nat -> nth k l1 0 = step_target t ad (gs ++ [g]) k (nth k lamb 0)) /\ iv_hist K ad (gs ++ [g]) iv2).
  { destruct ad as [p|].
    - apply bind_ok in E1. destruct E1 as (rr&E&E1). inversion E1; subst l1 iv2; clear E1.
      assert (Y : exists g, grad_at P lamb obs = Ok g).
      { unfold adam_step in E. destruct iv; cbn [bind iv_lamb] in E; apply bind_ok in E; destruct E as (g&E&_); exists g; exact E. }
      destruct Y as (g&Hg). exists g. assert (Lg : length g = K) by (rewrite <- LK; eapply l2_grad_length; exact Hg).
      destruct (adam_step_moments p K gs iv (fun l => grad_at P l obs) lamb g HI LK Hg Lg) as (l'&v'&E'&EL&LL&M'&VL).
      unfold grad_at in E'. rewrite E' in E. inversion E; subst rr. cbn [fst snd]. split; auto.
    - apply bind_ok in E1. destruct E1 as (g&E&E1). inversion E1; subst l1 iv2; clear E1. exists g. split; auto.
      assert (Lg : length g = K) by (rewrite <- LK; eapply l2_grad_length; exact E).
      split; auto. split; [rewrite map2_length; lia|]. split; [|exact I].
      intros k Hk. rewrite nth_map2 with (da := 0) (db := 0) by lia. unfold step_target. rewrite last_last. rn. reflexivity. }
  destruct X as (g&Hg&Lg&Ll&Hv&HI'). apply bind_ok in H. destruct H as (l3&E&H). inversion H; subst l3 iv2; clear H.
  exists g, l1. repeat (split; [solve [auto]|]).
  split; auto. destruct cons; [|inversion E; subst; auto]. rewrite <- Ll. eapply prox_value_ok; eauto.
Qed.
Lemma p_C35_traj : forall (P : clean_problem R) init n_obs full t cons ad draws best lst costs, draws <> [] ->
  stocastic_grad_descent_clean P init n_obs full t cons ad draws = Ok (best, lst, costs) ->
  exists its gs, length its = S (length draws) /\ length gs = length draws /\ length costs = S (length draws) /\
    nth 0 its [] = init /\ nth (length draws) its [] = lst /\
    (forall s, (s <= length draws)%nat -> length (nth s its []) = length init /\ ((0 < s)%nat -> cons = true -> forall x, In x (nth s its []) -> 0 <= x)) /\
    (forall s, (s < length draws)%nat ->
       calc_l2_grad (nth s its []) (c_Gamma P) (c_eta P) (c_idx P) (c_w P) (nth s draws []) (c_y P) = Ok (nth s gs []) /\
       (exists raw, length raw = length init /\
         (forall k, (k < length init)%nat -> nth k raw 0 = step_target t ad (firstn (S s) gs) k (nth k (nth s its []) 0)) /\
         (if cons then exists over, prox_project raw = Ok (nth (S s) its [], over) else nth (S s) its [] = raw)) /\
       (if full then full_cost P (nth (S s) its []) else part_cost P (nth (S s) its []) (nth s draws [])) = Ok (nth (S s) costs 0)) /\
    (if full then full_cost P init else part_cost P init (nth 0 draws [])) = Ok (nth 0 costs 0) /\
    best = if full then init else lst.
Proof.
  intros P init n_obs full t cons ad draws best lst costs NE H.
  destruct (clean_trajectory P init n_obs full t cons ad draws best lst costs NE H) as (its&ivs&L1&L2&L3&A0&A1&A2&A3&A4&A5).
  set (gr := fun s => match grad_at P (nth s its []) (nth s draws []) with Ok g => g | Err _ => [] end).
  set (gs := map gr (seq 0 (length draws))). assert (LG : length gs = length draws) by (unfold gs; rewrite map_length, seq_length; auto).
  assert (FN : forall s, (s < length draws)%nat -> firstn (S s) gs = firstn s gs ++ [gr s]).
  { intros s Hs. assert (E : gr s = nth s gs []) by (unfold gs; rewrite nth_map_seq by auto; auto). rewrite E. clear - Hs LG. revert s Hs. rewrite <- LG. clear LG.
    induction gs as [|g l IH]; intros s Hs; [cbn in Hs; lia|]. destruct s; [reflexivity|]. cbn [firstn nth app]. f_equal. apply IH. cbn in Hs. lia. }
  assert (INV : forall s, (s <= length draws)%nat -> length (nth s its []) = length init /\ iv_hist (length init) ad (firstn s gs) (nth s ivs None)).
  { induction s as [|s IH]; intros Hs; [rewrite A0, A1; split; auto; destruct ad; cbn; auto|].
    destruct (IH ltac:(lia)) as [B1 B2]. destruct (A3 s ltac:(lia)) as [M _].
    destruct (clean_move_detail _ _ _ _ _ _ _ _ _ _ _ M B1 B2) as (g&raw&Hg&_&_&_&_&LL&HI).
    split; auto. rewrite FN by lia. unfold gr. rewrite Hg. auto. }
  exists its, gs. repeat (split; [solve [auto]|]). split; [|split; [|split; auto]].
  - intros s Hs. destruct (INV s Hs) as [B1 B2]. split; auto. intros SP C x Hx. destruct s as [|s]; [lia|]. destruct (A3 s ltac:(lia)) as [M _].
    destruct (INV s ltac:(lia)) as [B3 B4].
    destruct (clean_move_detail _ _ _ _ _ _ _ _ _ _ _ M B3 B4) as (g&raw&_&_&_&_&PX&_). subst cons. apply prox_value_ok in PX. apply PX; auto.
  - intros s Hs. destruct (INV s ltac:(lia)) as [B1 B2]. destruct (A3 s Hs) as [M C].
    destruct (clean_move_detail _ _ _ _ _ _ _ _ _ _ _ M B1 B2) as (g&raw&Hg&Lg&Lr&Hv&PX&_).
    assert (EG : gr s = g) by (unfold gr; rewrite Hg; auto).
    split; [unfold gs; rewrite nth_map_seq by auto; cbn [Nat.add]; rewrite EG; exact Hg|]. split; [|exact C].
    exists raw. split; auto. rewrite FN by auto. rewrite EG. split; auto.
    destruct cons; [|congruence]. unfold prox_value in PX. apply bind_ok in PX. destruct PX as ((r&ov)&PX&E). exists ov. cbn [fst] in E. congruence.
Qed.

(** *** the forest *)
Lemma clean_start_length : forall (o : clean_opts R) K, length (clean_start o K) = K.
Proof.
  intros. unfold clean_start. destruct (k_lamb_draws o); [unfold normalise; rewrite !map_length, seq_length|rewrite upd_length, repeat_length]; auto.
Qed.
Lemma smooth_clean_inv : forall ts (o : clean_opts R) oob draws f lamb c,
  smooth_clean (Forest Reg ts) o oob draws = Ok (f, lamb, c) -> Forall wf_tree ts -> ts <> [] ->
  exists G E Ti K sel idx w, clean_matrices o ts = Ok (G, E, Ti) /\ generate_oob_info ts oob (k_X o) = Ok (idx, w) /\
    (0 < K)%nat /\ mats Reg ts K sel G E Ti /\ ncols (concat G) = K /\ length lamb = K /\ length f = length ts /\
    (k_sanity o = true -> lamb = upd (repeat 0 K) 0 1) /\
    (k_sanity o = false -> exists lst, stocastic_grad_descent_clean (cP idx w (concat G) E (k_y o)) (clean_start o K)
        (if k_all_obs o then length (k_X o) else k_n_obs o) (k_all_obs o || k_use_full o)%bool (k_t_fix o) (negb (k_no_constraint o)) (k_adam o) draws = Ok (lamb, lst, c)) /\
    (forall q t, nth_error ts q = Some t -> exists t', nth_error f q = Some t' /\ same_but_leaf_values t t' /\
       forall i, (i < n_leaves t)%nat -> smooth_kernel (as_smooth o) ts t lamb i (kap_sel sel lamb q i) /\
         length (nth (leaf_id t i) (t_value t') []) = 1%nat /\
         node_v t' 0 (leaf_id t i) = kmean t Reg (kap_sel sel lamb q i) 0 /\
         rowsum E lamb (offset ts q + i) = kmass t (kap_sel sel lamb q i) /\
         rowsum (concat G) lamb (offset ts q + i) = sumto (n_leaves t) (fun j => kap_sel sel lamb q i j * leaf_ny t Reg 0 j)).
Proof.
  intros ts o oob draws f lamb c H W NE. unfold smooth_clean in H.
  apply bind_ok in H. destruct H as ([[G E] Ti]&HM&H). apply bind_ok in H. destruct H as ([idx w]&HI&H).
  destruct (forest_matrices_mats Reg (as_smooth o) ts G E Ti W NE HM) as (K&sel&KP&M&KK).
  destruct (ncols_mats _ _ _ _ _ _ _ W NE M) as (NC&NC2&_). specialize (NC2 ltac:(cbn; lia)).
  cbv zeta in H. rewrite NC2 in H. apply bind_ok in H. destruct H as ([l c']&HO&H).
  apply bind_ok in H. destruct H as (f'&HW&H). assert (f' = f) by congruence. assert (l = lamb) by congruence. assert (c' = c) by congruence. subst f' l c'. clear H.
  assert (LL : length lamb = K /\ (k_sanity o = true -> lamb = upd (repeat 0 K) 0 1) /\
    (k_sanity o = false -> exists lst, stocastic_grad_descent_clean (cP idx w (concat G) E (k_y o)) (clean_start o K)
        (if k_all_obs o then length (k_X o) else k_n_obs o) (k_all_obs o || k_use_full o)%bool (k_t_fix o) (negb (k_no_constraint o)) (k_adam o) draws = Ok (lamb, lst, c))).
  { destruct (k_sanity o).
    - inversion HO; subst. rewrite upd_length, repeat_length. split; auto. split; auto. discriminate.
    - apply bind_ok in HO. destruct HO as ([[b ls] c']&HS&HO). inversion HO; subst b c'. clear HO. split; [|split; [discriminate|intros _; exists ls; exact HS]].
      destruct draws as [|d ds].
      + unfold stocastic_grad_descent_clean in HS. destruct (negb _) in HS; [discriminate|]. destruct (negb (k_no_constraint o) && _)%bool in HS; [discriminate|].
        cbn [length seq combine foldM bind cs_best cs_lamb cs_costs] in HS. destruct (k_all_obs o || k_use_full o)%bool; [discriminate|].
        inversion HS. apply clean_start_length.
      + assert (DN : d :: ds <> []) by discriminate. destruct (p_C35_traj _ _ _ _ _ _ _ _ _ _ _ DN HS) as (its&gs&_&_&_&_&A2&A3&_&_&B).
        subst lamb. destruct (_ || _)%bool; [apply clean_start_length|]. rewrite <- A2. rewrite (proj1 (A3 _ (le_n _))). apply clean_start_length. }
  destruct LL as (LL&L1&L2). pose proof M as M'. destruct M' as (LG&LE&LT&LC&V).
  assert (CG : concat G = nth 0 G []).
  { cbn in LG. destruct G as [|g0 [|]]; cbn in LG; try lia. cbn. apply app_nil_r. }
  assert (LCG : length (concat G) = length E) by (rewrite CG; apply LC; cbn; lia).
  destruct (write_forest_ok (unflatten 1 (length E) (new_values (concat G) E lamb)) ts 0 W) as (f1&E1&LF1&V1); [rewrite unflatten_length; lia|].
  rewrite E1 in HW. assert (f1 = f) by congruence. subst f1.
  exists G, E, Ti, K, sel, idx, w. repeat (split; [solve [auto]|]).
  intros q t N. destruct (V1 q t N) as (t'&N'&S1&VV). exists t'. split; auto. split; auto. intros i Hi.
  destruct (KK q t i lamb N Hi LL) as [K1 _]. split; auto. specialize (VV i Hi). cbn [Nat.add] in VV.
  destruct (V q t N i Hi) as (Hr&_&LR&VE&VG). destruct (VG 0%nat ltac:(cbn; lia)) as [LR2 VG2]. rewrite <- CG in LR2, VG2.
  split; [rewrite VV; apply unflatten_row_length; auto|].
  assert (DE : dot (nth (offset ts q + i) E []) lamb = kmass t (kap_sel sel lamb q i)) by (apply sum_sel_kap; [lia|intros; apply VE; lia]).
  assert (DG : dot (nth (offset ts q + i) (concat G) []) lamb = sumto (n_leaves t) (fun j => kap_sel sel lamb q i j * leaf_ny t Reg 0 j))
    by (apply sum_sel_kap; [lia|intros; apply VG2; lia]).
  rewrite !rowsum_dot, DE, DG. split; auto. unfold node_v. rewrite VV. rewrite unflatten_nth by (auto; lia). cbn [Nat.mul Nat.add].
  rewrite new_values_nth by lia. rewrite DE, DG. auto.
Qed.

Lemma mass_zero : forall t (kap : nat -> R) f, pos_leaves t -> (forall j, (j < n_leaves t)%nat -> 0 <= kap j) -> kmass t kap = 0 ->
  sumto (n_leaves t) (fun j => kap j * f j) = 0.
Proof.
  intros t kap f PL KN Z. apply sumto_zero. intros j Hj. assert (E : kap j * leaf_w t j <= kmass t kap).
  { unfold kmass. apply (sumto_elem_le (n_leaves t) (fun j => kap j * leaf_w t j) j); auto. intros i Hi. specialize (PL i Hi). specialize (KN i Hi). apply Rmult_le_pos; lra. }
  specialize (PL j Hj). specialize (KN j Hj). rewrite Z in E. assert (kap j = 0) by nra. rewrite H. ring.
Qed.
Lemma p_C35_smooth : forall ts (o : clean_opts R) oob draws f lamb c,
  smooth_clean (Forest Reg ts) o oob draws = Ok (f, lamb, c) ->
  Forall wf_tree ts -> Forall (wf_values Reg) ts -> Forall pos_leaves ts -> ts <> [] -> separated (as_smooth o) ts ->
  (k_sanity o = true \/ ((k_all_obs o || k_use_full o)%bool = true /\ k_lamb_draws o = None)) -> f = ts.
Proof.
  intros ts o oob draws f lamb c H W WV PL NE SEP HY.
  destruct (smooth_clean_inv ts o oob draws f lamb c H W NE) as (G&E&Ti&K&sel&idx&w&HM&HI&KP&M&NC&LL&LF&HS&HD&V).
  assert (UL : lamb = upd (repeat 0 K) 0 1).
  { destruct HY as [S1|[FU SD]]; [auto|]. destruct (k_sanity o) eqn:SA; [auto|]. destruct (HD eq_refl) as (lst&HG). clear HD HS.
    rewrite FU in HG. assert (ST : clean_start o K = upd (repeat 0 K) 0 1) by (unfold clean_start; rewrite SD; reflexivity).
    destruct draws as [|d ds].
    - unfold stocastic_grad_descent_clean in HG. destruct (negb _) in HG; [discriminate|]. destruct (negb (k_no_constraint o) && _)%bool in HG; discriminate.
    - assert (DN : d :: ds <> []) by discriminate. destruct (p_C35_traj _ _ _ _ _ _ _ _ _ _ _ DN HG) as (its&gs&_&_&_&_&_&_&_&_&B). congruence. }
  apply nth_error_eq. intros q. destruct (nth_error ts q) as [t|] eqn:N.
  - destruct (V q t N) as (t'&->&S1&VV). f_equal. pose proof (nth_error_In _ _ N) as It.
    assert (WF : wf_tree t) by (rewrite Forall_forall in W; auto).
    apply (tree_eq t t' WF S1). intros i Hi. destruct (VV i Hi) as (KK&LR&VN&_). rewrite UL in KK.
    pose proof (unit_kernel (as_smooth o) ts t K i _ W It SEP KP Hi KK) as U. rewrite <- UL in U.
    rewrite Forall_forall in PL. pose proof (PL t It i Hi) as WP.
    rewrite (kmean_unit t Reg _ i 0 Hi ltac:(lra) U) in VN.
    assert (EV : node_v t' 0 (leaf_id t i) = leaf_v t 0 i).
    { rewrite VN. unfold leaf_ny, node_ny. fold (leaf_w t i). fold (leaf_v t 0 i). field. lra. }
    rewrite (nth_row1 _ _ LR eq_refl).
    rewrite Forall_forall in WV. pose proof (WV t It (leaf_id t i) (leaf_id_lt t i Hi)) as LR'. cbn in LR'.
    rewrite (nth_row1 _ _ LR' eq_refl). f_equal. exact EV.
  - apply nth_error_None in N. apply nth_error_None. lia.
Qed.
Lemma p_C33_forest : forall ts (o : clean_opts R) oob draws f lamb c lf,
  smooth_clean (Forest Reg ts) o oob draws = Ok (f, lamb, c) ->
  Forall wf_tree ts -> Forall pos_leaves ts -> ts <> [] -> k_X o <> [] -> oob_rows oob (length ts) (length (k_X o)) ->
  leaves_of ts (k_X o) lf -> (forall x, In x lamb -> 0 <= x) ->
  exists G E Ti idx w y ev, clean_matrices o ts = Ok (G, E, Ti) /\ generate_oob_info ts oob (k_X o) = Ok (idx, w) /\
    calc_y_oob lamb (concat G) E idx w (seq 0 (length (k_X o))) = Ok (y, ev) /\
    (forall i, (i < length (k_X o))%nat -> (nth i ev false = true <-> exists q, (q < length ts)%nat /\ out_of_bag oob i q = true) /\
       (nth i ev false = true -> nth i y 0 = oob_mean oob (length ts) i (fun q => leaf_v (nth q f no_tree) 0 (lf q i)))) /\
    (length (k_y o) = length (k_X o) ->
       full_cost {| c_Gamma := concat G; c_eta := E; c_idx := idx; c_w := w; c_y := k_y o |} lamb =
       Ok (oob_mse oob (length ts) (seq 0 (length (k_X o))) (k_y o) (fun i => oob_mean oob (length ts) i (fun q => leaf_v (nth q f no_tree) 0 (lf q i))))).
Proof.
  intros ts o oob draws f lamb c lf H W PL NE NX OR LV PO.
  destruct (smooth_clean_inv ts o oob draws f lamb c H W NE) as (G&E&Ti&K&sel&idx&w&HM&HI&KP&M&NC&LL&LF&HS&HD&V).
  pose proof M as M'. destruct M' as (LG&LE&LT&LC&_). cbn in LG.
  assert (CG : concat G = nth 0 G []) by (destruct G as [|g0 [|]]; cbn in LG; try lia; cbn; apply app_nil_r).
  assert (LCG : length (concat G) = offset ts (length ts)) by (rewrite CG, <- LE; apply LC; cbn; lia).
  assert (FACT : forall i q, (i < length (k_X o))%nat -> (q < length ts)%nat ->
    (rowsum E lamb (leaf_row ts lf q i) = 0 -> rowsum (concat G) lamb (leaf_row ts lf q i) = 0) /\
    smoothed (concat G) E lamb (leaf_row ts lf q i) = leaf_v (nth q f no_tree) 0 (lf q i)).
  { intros i q Hi Hq. destruct (nth_error ts q) as [t|] eqn:N; [|apply nth_error_None in N; lia].
    destruct (V q t N) as (t'&N'&S1&VV). destruct (LV q t i N Hi) as [LB _].
    assert (WF : wf_tree t) by (rewrite Forall_forall in W; apply W; eapply nth_error_In; eauto).
    assert (PT : pos_leaves t) by (rewrite Forall_forall in PL; apply PL; eapply nth_error_In; eauto).
    destruct (VV (lf q i) LB) as (KK&LR&VN&RE&RG). fold (leaf_row ts lf q i) in RE, RG.
    pose proof (kernel_nonneg (as_smooth o) ts t lamb (lf q i) _ PO KK) as KN. split.
    - intros Z. rewrite RE in Z. rewrite RG. apply mass_zero; auto.
    - unfold smoothed. rewrite RE, RG. rewrite (nth_error_nth _ _ no_tree N'). unfold leaf_v. rewrite (proj1 (same_leaf_id t t' _ S1)). rewrite VN. auto. }
  destruct (p_C33 ts oob (k_X o) lf idx w (concat G) E (seq 0 (length (k_X o))) W NE OR LV HI LCG LE) with (lamb := lamb) as (y&ev&EY&L1&L2&VY).
  - intros i Hi. apply in_seq in Hi. lia.
  - destruct (k_X o); [congruence|discriminate].
  - intros i q Hi Hq _. apply in_seq in Hi. apply FACT; [lia|auto].
  - exists G, E, Ti, idx, w, y, ev. repeat (split; [solve [auto]|]). split.
    + intros i Hi. rewrite seq_length in VY. specialize (VY i Hi). cbn zeta in VY. rewrite seq_nth in VY by auto. cbn [Nat.add] in VY.
      destruct VY as (A&B&_). split; auto. intros T. rewrite (B T). apply oob_mean_ext. intros q Hq _. apply FACT; auto.
    + intros LY. change {| c_Gamma := concat G; c_eta := E; c_idx := idx; c_w := w; c_y := k_y o |} with (cP idx w (concat G) E (k_y o)).
      rewrite (p_C33_cost ts oob (k_X o) lf idx w (concat G) E (k_y o) W NE OR LV HI LCG LE LY lamb NX).
      * f_equal. apply oob_mse_ext. intros i Hi. apply in_seq in Hi. apply oob_mean_ext. intros q Hq _. apply FACT; [lia|auto].
      * intros i q Hi Hq _. apply FACT; auto.
Qed.
Lemma p_C68 : forall ts (o : clean_opts R) oob draws f lamb c,
  smooth_clean (Forest Reg ts) o oob draws = Ok (f, lamb, c) -> Forall wf_tree ts -> ts <> [] ->
  length f = length ts /\ forall q t, nth_error ts q = Some t -> exists t', nth_error f q = Some t' /\ same_but_leaf_values t t' /\
    (forall i, (i < n_leaves t)%nat -> exists kap, smooth_kernel (as_smooth o) ts t lamb i kap /\ leaf_v t' 0 i = kmean t Reg kap 0) /\
    (forall lo hi, pos_leaves t -> (forall x, In x lamb -> 0 <= x) -> (forall j, (j < n_leaves t)%nat -> lo <= leaf_v t 0 j <= hi) ->
       forall i, (i < n_leaves t)%nat -> lo <= leaf_v t' 0 i <= hi \/ leaf_v t' 0 i = 0).
Proof.
  intros ts o oob draws f lamb c H W NE.
  destruct (smooth_clean_inv ts o oob draws f lamb c H W NE) as (G&E&Ti&K&sel&idx&w&HM&HI&KP&M&NC&LL&LF&HS&HD&V).
  split; auto. intros q t N. destruct (V q t N) as (t'&N'&S1&VV). exists t'. split; auto. split; auto.
  assert (WF : wf_tree t) by (rewrite Forall_forall in W; apply W; eapply nth_error_In; eauto).
  assert (X : forall i, (i < n_leaves t)%nat -> leaf_v t' 0 i = kmean t Reg (kap_sel sel lamb q i) 0).
  { intros i Hi. unfold leaf_v. rewrite (proj1 (same_leaf_id t t' _ S1)). apply VV; auto. }
  split.
  - intros i Hi. exists (kap_sel sel lamb q i). split; [apply VV; auto|apply X; auto].
  - intros lo hi PL PO B i Hi. rewrite X by auto. destruct (VV i Hi) as (KK&_).
    destruct (kmean_range t (kap_sel sel lamb q i) lo hi PL (kernel_nonneg (as_smooth o) ts t lamb i _ PO KK) B) as [A|[A _]]; auto.
Qed.

(** *** smooth_clean returns *)
Lemma checks_pass : forall init : list R, nsum init = 1 -> (forall x, In x init -> 0 <= x) ->
  (negb (allclose1 (nsum init)) || existsb (fun x => nltb x n0) init)%bool = false.
Proof.
  intros init S1 PO. apply Bool.orb_false_iff. split.
  - rewrite S1. apply Bool.negb_false_iff. unfold allclose1. rn. replace (1 - 1) with 0 by ring.
    assert (TP : 0 <= npow (1 / INR 10) 8 + npow (1 / INR 10) 5).
    { rewrite (npow_pow (1 / INR 10) 8), (npow_pow (1 / INR 10) 5). assert (0 <= 1 / INR 10) by (apply Rlt_le, Rdiv_lt_0_compat; [lra|apply lt_0_INR; lia]).
      pose proof (pow_le (1 / INR 10) 8 H). pose proof (pow_le (1 / INR 10) 5 H). lra. }
    unfold nleb. rn. destruct (Rltb_spec (npow (1 / INR 10) 8 + npow (1 / INR 10) 5) 0); [lra|auto].
  - apply Bool.not_true_is_false. intros E. apply existsb_exists in E. destruct E as (x&Hx&E).
    change (@nltb R _ x n0) with (Rltb x 0) in E. destruct (Rltb_spec x 0); [|discriminate]. specialize (PO x Hx). lra.
Qed.
Lemma prox_value_total : forall y : list R, y <> [] -> exists r, prox_value y = Ok r /\ length r = length y.
Proof.
  intros y NE. destruct (prox_value y) as [r|e] eqn:E; [exists r; split; auto; eapply prox_value_ok; eauto|]. exfalso.
  destruct (prox_general y NE) as (r&PP&_). unfold prox_value in E. rewrite PP in E. discriminate.
Qed.
Section Total.
Variables (ts : list (tree R)) (oob : nat -> list nat) (X : mat R) (idx : list (list nat)) (w : list R).
Variables (Gamma eta : mat R) (y : list R).
Hypothesis WF : Forall wf_tree ts.
Hypothesis NE : ts <> [].
Hypothesis OR : oob_rows oob (length ts) (length X).
Hypothesis EI : generate_oob_info ts oob X = Ok (idx, w).
Hypothesis LG : length Gamma = offset ts (length ts).
Hypothesis LE : length eta = offset ts (length ts).
Hypothesis LY : length y = length X.
Hypothesis NX : X <> [].
Definition valid_draw (d : list nat) : Prop := d <> [] /\ forall i, In i d -> (i < length X)%nat.
Let P := cP idx w Gamma eta y.

Lemma cost_total : forall lamb d, valid_draw d -> (exists c, full_cost P lamb = Ok c) /\ (exists c, part_cost P lamb d = Ok c).
Proof.
  intros lamb d [ND VD]. destruct (leaves_of_ex ts X WF) as (lf&LV). split; eexists.
  - apply (full_cost_val ts oob X lf idx w Gamma eta y); auto.
  - apply (part_cost_val ts oob X lf idx w Gamma eta y); auto.
Qed.
Lemma grad_total : forall lamb d, valid_draw d -> exists g, grad_at P lamb d = Ok g.
Proof.
  intros lamb d [ND VD]. destruct (leaves_of_ex ts X WF) as (lf&LV). unfold grad_at, calc_l2_grad. cbn [P cP c_Gamma c_eta c_idx c_w c_y].
  destruct (take_rows_val y d) as (yi&E1&_&_); [intros; rewrite LY; auto|]. rewrite E1. cbn [bind].
  destruct (y_oob_forest ts oob X lf idx w Gamma eta d WF NE OR LV EI LG LE VD ND lamb) as (yo&ev&E2&_). rewrite E2. cbn [bind].
  destruct (grad_forest ts oob X lf idx w Gamma eta d WF NE OR LV EI LG LE VD ND lamb) as (g&E3&_). rewrite E3. cbn [bind]. eauto.
Qed.
Lemma move_total : forall t ad lamb iv d, valid_draw d -> (0 < length lamb)%nat -> iv_len (length lamb) iv ->
  exists l2 iv2, clean_move true t ad P lamb iv d = Ok (l2, iv2) /\ length l2 = length lamb /\ iv_len (length lamb) iv2.
Proof.
  intros t ad lamb iv d VD PL IL. unfold clean_move. destruct ad as [p|].
  - destruct (adam_step (fun l => grad_at P l d) (Some lamb) p iv) as [r|e] eqn:E.
    + destruct (adam_step_length _ _ _ _ _ E) as [L1 L2]; auto; [intros; eapply l2_grad_length; eauto|].
      unfold grad_at in E. rewrite E. cbn [bind]. destruct (prox_value_total (fst r)) as (l2&PV&LL); [destruct (fst r); [cbn in L1; lia|discriminate]|].
      rewrite PV. cbn [bind]. exists l2, (Some (snd r)). split; auto. split; auto. lia.
    + exfalso. destruct (adam_step_err _ _ _ _ _ E) as (x&F). destruct (grad_total x d VD) as (g&G). congruence.
  - destruct (grad_total lamb d VD) as (g&G). pose proof (l2_grad_length _ _ _ _ _ _ _ _ G) as Lg. unfold grad_at in G. rewrite G. cbn [bind].
    match goal with |- context [prox_value ?v] => destruct (prox_value_total v) as (l2&PV&LL) end.
    { intros Z. apply (f_equal (@length R)) in Z. rewrite map2_length in Z. cbn in Z. lia. }
    rewrite PV. cbn [bind]. exists l2, None. split; auto. rewrite map2_length in LL. split; [lia|exact I].
Qed.
Lemma fold_total : forall full t ad n_obs draws init, (n_obs <= length X)%nat -> (0 < length init)%nat -> (forall d, In d draws -> valid_draw d) ->
  exists st, foldM (clean_step full true t ad P n_obs) (combine (seq 0 (length draws)) draws) (st_init init) = Ok st /\
    length (cs_lamb st) = length init /\ iv_len (length init) (cs_iv st).
Proof.
  intros full t ad n_obs draws init LN PI. unfold P. assert (LI : length idx = length X).
  { destruct (leaves_of_ex ts X WF) as (lf&LV). destruct (oob_info_val ts oob X lf WF NE NX OR LV) as (i'&w'&E&L&_). congruence. }
  induction draws as [|d ds IH] using rev_ind; intros VD; [exists (st_init init); split; [reflexivity|split; [reflexivity|exact I]]|].
  destruct IH as (st&E&L1&L2); [intros; apply VD, in_app_iff; auto|]. pose proof (VD d ltac:(apply in_app_iff; right; left; auto)) as Vd.
  rewrite combine_snoc, foldM_app, E. cbn [bind foldM]. unfold clean_step at 1. change (c_idx (cP idx w Gamma eta y)) with idx. rewrite LI.
  destruct (Nat.ltb_spec (length X) n_obs) as [G|_]; [lia|]. 
  assert (FIN : forall st0, length (cs_lamb st0) = length init -> iv_len (length init) (cs_iv st0) -> exists st1,
    (do a <- (do '(lamb2, iv1) <- clean_move true t ad (cP idx w Gamma eta y) (cs_lamb st0) (cs_iv st0) d;
      if full then do c <- full_cost (cP idx w Gamma eta y) lamb2; Ok {| cs_lamb := lamb2; cs_iv := iv1; cs_best := if nltb c c then Some (lamb2, c) else cs_best st0; cs_costs := cs_costs st0 ++ [c] |}
      else do c <- part_cost (cP idx w Gamma eta y) lamb2 d; Ok {| cs_lamb := lamb2; cs_iv := iv1; cs_best := cs_best st0; cs_costs := cs_costs st0 ++ [c] |}); Ok a) = Ok st1 /\
    length (cs_lamb st1) = length init /\ iv_len (length init) (cs_iv st1)).
  { intros st0 A1 A2. destruct (move_total t ad (cs_lamb st0) (cs_iv st0) d Vd ltac:(lia) ltac:(rewrite A1; auto)) as (l2&iv2&M1&M2&M3). unfold P in M1. rewrite M1. cbn [bind].
    destruct (cost_total l2 d Vd) as [[c1 C1] [c2 C2]]. unfold P in C1, C2. rewrite A1 in M3.
    destruct full; [rewrite C1|rewrite C2]; cbn [bind]; eexists; (split; [reflexivity|]); cbn [cs_lamb cs_iv]; split; auto; lia. }
  destruct (Nat.eqb (0 + length ds) 0); [|cbn [bind]; apply FIN; auto].
  destruct (cost_total (cs_lamb st) d Vd) as [[c1 C1] [c2 C2]]. unfold P in C1, C2.
  destruct full; [rewrite C1|rewrite C2]; cbn [bind]; refine (FIN {| cs_lamb := cs_lamb st; cs_iv := None; cs_best := _; cs_costs := _ |} L1 I).
Qed.
End Total.
Lemma p_C68_returns : forall ts (o : clean_opts R) oob draws,
  Forall wf_tree ts -> ts <> [] -> matrices_exist (as_smooth o) ts -> k_X o <> [] -> length (k_y o) = length (k_X o) ->
  oob_rows oob (length ts) (length (k_X o)) -> draws_ok (as_smooth o) -> k_no_constraint o = false ->
  (k_all_obs o = true \/ (k_n_obs o <= length (k_X o))%nat) ->
  (forall d, In d draws -> d <> [] /\ forall i, In i d -> (i < length (k_X o))%nat) ->
  (draws <> [] \/ (k_all_obs o = false /\ k_use_full o = false) \/ k_sanity o = true) ->
  exists f lamb c, smooth_clean (Forest Reg ts) o oob draws = Ok (f, lamb, c).
Proof.
  intros ts o oob draws W NE ME NX LY OR DO NC NO VD DR. unfold smooth_clean.
  destruct (forest_matrices_total Reg (as_smooth o) ts W NE ME) as ([[G E] Ti]&HM). assert (HM2 : clean_matrices o ts = Ok (G, E, Ti)) by exact HM.
  rewrite HM2. cbn [bind]. destruct (leaves_of_ex ts (k_X o) W) as (lf&LV).
  destruct (oob_info_val ts oob (k_X o) lf W NE NX OR LV) as (idx&w&EI&_). rewrite EI. cbn [bind].
  destruct (forest_matrices_mats Reg (as_smooth o) ts G E Ti W NE HM) as (K&sel&KP&M&_).
  destruct (ncols_mats _ _ _ _ _ _ _ W NE M) as (_&NC2&_). specialize (NC2 ltac:(cbn; lia)). cbv zeta. rewrite NC2.
  pose proof M as M'. destruct M' as (LG&LE&_&LC&_). cbn in LG.
  assert (CG : concat G = nth 0 G []) by (destruct G as [|g0 [|]]; cbn in LG; try lia; cbn; apply app_nil_r).
  assert (LCG : length (concat G) = offset ts (length ts)) by (rewrite CG, <- LE; apply LC; cbn; lia).
  assert (WR : forall lamb, exists f, write_forest (unflatten 1 (length E) (new_values (concat G) E lamb)) 0 ts = Ok f).
  { intros lamb. destruct (write_forest_ok (unflatten 1 (length E) (new_values (concat G) E lamb)) ts 0 W) as (f1&E1&_); [rewrite unflatten_length; lia|]. eauto. }
  destruct (k_sanity o) eqn:SA.
  - cbn [bind]. destruct (WR (upd (repeat n0 K) 0 n1)) as (f&F). rewrite F. cbn [bind]. eauto.
  - unfold stocastic_grad_descent_clean. cbn [c_Gamma]. rewrite NC2, clean_start_length, Nat.eqb_refl. cbn [negb].
    change (clean_start o K) with (initial_lamb Reg (as_smooth o) K).
    assert (CK : (negb (k_no_constraint o) && (negb (allclose1 (nsum (initial_lamb Reg (as_smooth o) K))) || existsb (fun x => nltb x n0) (initial_lamb Reg (as_smooth o) K)))%bool = false).
    { rewrite checks_pass, Bool.andb_false_r; auto; [apply start_simplex; auto|apply initial_lamb_nonneg; auto]. 
      unfold draws_ok in DO. unfold start_ok. destruct (o_lamb_draws (as_smooth o)); auto. apply DO. }
    rewrite CK.
    destruct (fold_total ts oob (k_X o) idx w (concat G) E (k_y o) W NE OR EI LCG LE LY NX (k_all_obs o || k_use_full o)%bool (k_t_fix o) (k_adam o)
       (if k_all_obs o then length (k_X o) else k_n_obs o) draws (initial_lamb Reg (as_smooth o) K)) as (st&EF&L1&_).
    + destruct (k_all_obs o); [lia|]. destruct NO as [NO|NO]; [discriminate|auto].
    + rewrite initial_lamb_length. auto.
    + intros d Hd. exact (VD d Hd).
    + change {| c_Gamma := concat G; c_eta := E; c_idx := idx; c_w := w; c_y := k_y o |} with (cP idx w (concat G) E (k_y o)).
      rewrite NC. cbn [negb]. fold (st_init (initial_lamb Reg (as_smooth o) K)). rewrite EF. cbn [bind].
      destruct (k_all_obs o || k_use_full o)%bool eqn:FU.
      * assert (DN : draws <> []). { destruct DR as [D|[[A B]|D]]; auto; [rewrite A, B in FU|]; discriminate. }
        destruct (clean_fold _ _ _ _ _ _ _ _ _ DN EF) as (its&ivs&_&_&_&_&_&_&_&_&_&_&BB). rewrite BB. cbn [bind].
        match goal with |- context [new_values _ _ ?l] => destruct (WR l) as (f&F) end. rewrite F. cbn [bind]. eauto.
      * cbn [bind]. destruct (WR (cs_lamb st)) as (f&F). rewrite F. cbn [bind]. eauto.
Qed.
Lemma p_C68_weights : forall ts (o : clean_opts R) oob draws f lamb c,
  smooth_clean (Forest Reg ts) o oob draws = Ok (f, lamb, c) -> Forall wf_tree ts -> ts <> [] ->
  k_no_constraint o = false -> forall x, In x lamb -> 0 <= x.
Proof.
  intros ts o oob draws f lamb c H W NE NC x Hx.
  destruct (smooth_clean_inv _ _ _ _ _ _ _ H W NE) as (G&E&Ti&K&sel&idx&w&_&_&KP&_&NCL&_&_&SA&SB&_).
  destruct (k_sanity o); [rewrite (SA eq_refl) in Hx|].
  - apply (In_nth _ _ 0) in Hx. destruct Hx as (j&Hj&<-). rewrite upd_length, repeat_length in Hj.
    destruct (Nat.eq_dec j 0) as [->|N]; [rewrite nth_upd_eq by (rewrite repeat_length; lia); lra|].
    rewrite nth_upd_neq by lia. rewrite nth_repeat_lt by lia. lra.
  - destruct (SB eq_refl) as (lst&D). rewrite NC in D. cbn [negb] in D.
    assert (I0 : forall z, In z (clean_start o K) -> 0 <= z).
    { intros z Hz. unfold stocastic_grad_descent_clean in D. destruct (negb (Nat.eqb _ _)); [discriminate|].
      match type of D with context [if ?b then Err TypeError else _] => destruct b eqn:EB; [discriminate|] end.
      cbn [andb] in EB. apply Bool.orb_false_iff in EB. destruct EB as [_ EB].
      destruct (Rltb_spec z 0) as [L|L]; [|lra]. exfalso. enough (T : existsb (fun x => nltb x n0) (clean_start o K) = true) by congruence.
      apply existsb_exists. exists z. split; auto. change (@nltb R _ z n0) with (Rltb z 0). destruct (Rltb_spec z 0); auto; lra. }
    destruct draws as [|d ds].
    + unfold stocastic_grad_descent_clean in D. destruct (negb (Nat.eqb _ _)); [discriminate|].
      match type of D with context [if ?b then Err TypeError else _] => destruct b eqn:EB; [discriminate|] end.
      cbn [length seq combine foldM bind] in D. destruct (k_all_obs o || k_use_full o)%bool; cbn [cs_best cs_lamb] in D; [discriminate|].
      assert (lamb = clean_start o K) by congruence. subst. auto.
    + assert (DN : d :: ds <> []) by discriminate. destruct (p_C35_traj _ _ _ _ _ _ _ _ _ _ _ DN D) as (its&gs&_&_&_&_&LL&PO&_&_&BB).
      destruct (k_all_obs o || k_use_full o)%bool; [subst; auto|]. subst lamb. rewrite <- LL in Hx.
      apply (PO (length (d :: ds))) with (x := x); auto. cbn. lia.
Qed.

Lemma p_C68_errors : forall ts (o : clean_opts R) oob draws,
  Forall wf_tree ts -> ts <> [] -> matrices_exist (as_smooth o) ts -> k_X o <> [] ->
  oob_rows oob (length ts) (length (k_X o)) -> draws_ok (as_smooth o) -> k_sanity o = false ->
  (k_all_obs o = false -> draws <> [] -> (length (k_X o) < k_n_obs o)%nat -> smooth_clean (Forest Reg ts) o oob draws = Err ValueError) /\
  (draws = [] -> (k_all_obs o = true \/ k_use_full o = true) -> smooth_clean (Forest Reg ts) o oob draws = Err UnboundLocalError).
Proof.
  intros ts o oob draws W NE ME NX OR DO SA. unfold smooth_clean.
  destruct (forest_matrices_total Reg (as_smooth o) ts W NE ME) as ([[G E] Ti]&HM). assert (HM2 : clean_matrices o ts = Ok (G, E, Ti)) by exact HM.
  rewrite HM2. cbn [bind]. destruct (leaves_of_ex ts (k_X o) W) as (lf&LV).
  destruct (oob_info_val ts oob (k_X o) lf W NE NX OR LV) as (idx&w&EI&LI&_). rewrite EI. cbn [bind].
  destruct (forest_matrices_mats Reg (as_smooth o) ts G E Ti W NE HM) as (K&sel&KP&M&_).
  destruct (ncols_mats _ _ _ _ _ _ _ W NE M) as (_&NC2&_). specialize (NC2 ltac:(cbn; lia)). cbv zeta. rewrite NC2, SA.
  unfold stocastic_grad_descent_clean. cbn [c_Gamma]. rewrite NC2, clean_start_length, Nat.eqb_refl. cbn [negb].
  change (clean_start o K) with (initial_lamb Reg (as_smooth o) K).
  assert (CK : (negb (k_no_constraint o) && (negb (allclose1 (nsum (initial_lamb Reg (as_smooth o) K))) || existsb (fun x => nltb x n0) (initial_lamb Reg (as_smooth o) K)))%bool = false).
  { rewrite checks_pass, Bool.andb_false_r; auto; [apply start_simplex; auto|apply initial_lamb_nonneg; auto].
    unfold draws_ok in DO. unfold start_ok. destruct (o_lamb_draws (as_smooth o)); auto. apply DO. }
  rewrite CK. split.
  - intros AO DN LT. rewrite AO. destruct draws as [|d ds]; [contradiction|]. cbn [length seq combine foldM].
    unfold clean_step at 1. cbn [c_idx]. rewrite LI. destruct (Nat.ltb_spec (length (k_X o)) (k_n_obs o)); [reflexivity|lia].
  - intros -> FU. cbn [length seq combine foldM bind cs_best]. destruct FU as [->| ->]; cbn [orb]; rewrite ?Bool.orb_true_r; reflexivity.
Qed.
