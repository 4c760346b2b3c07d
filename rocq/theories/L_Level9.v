(** L_Level9: when smooth_all returns; the statements in terms of the forest's depth. *)
From Verif Require Import Base TreeSpec Spec M_Tree M_Gamma M_Levels M_Grad M_Smooth M_Level SpecSmooth SpecTune SpecClean SpecLevel.
From Verif Require Import L_Base L_Tree L_TreeModel L_Dist L_Gamma L_Gamma2 L_Sgd L_Grad L_Smooth L_Smooth2 L_Smooth3 L_Smooth4 L_Route L_Tune L_Level3 L_Level4 L_Level5 L_Level6 L_Level7 L_Level8.
From Coq Require Import Reals Lra Lia.
Local Open Scope R_scope.

Lemma deepest_K : forall ts D, Forall wf_tree ts -> deepest ts D -> K_of ts = S D.
Proof.
  intros ts D WF [U A]. unfold K_of. rewrite Nat.add_1_r. f_equal. destruct A as [[-> ->]|(t&v&I1&DV)]; [reflexivity|].
  apply Nat.le_antisymm; [|eapply calc_depth_upper; eauto]. destruct (calc_depth_attained ts WF) as (t0&v0&I0&D0); [intros ->; inversion I1|]. eapply U; eauto.
Qed.
Lemma deepest_ex : forall ts, Forall wf_tree ts -> deepest ts (snd (calc_depth_for_forest ts)).
Proof.
  intros ts WF. split; [intros; eapply calc_depth_upper; eauto|]. destruct ts as [|t ts']; [left; auto|right]. apply calc_depth_attained; auto. discriminate.
Qed.

Lemma targets_total : forall (o : all_opts R) oob boot ts, (forall q t, nth_error ts q = Some t -> exists d, tuning_set o oob boot q d /\ fst d <> [] /\ length (snd d) = length (fst d)) ->
  exists w yl, all_leaf_targets o oob boot ts = Ok (w, yl).
Proof.
  intros o oob boot ts H. unfold all_leaf_targets.
  assert (G : forall l s acc, (forall q t, nth_error l q = Some t -> exists d, tuning_set o oob boot (s + q) d /\ fst d <> [] /\ length (snd d) = length (fst d)) ->
    exists w yl, foldM (fun acc it => do '(X, y) <- all_tuning o oob boot (fst it); do '(w, yl) <- process_tuning_leaf_attributes_tree (snd it) (nopp n1) X y; Ok (fst acc ++ w, snd acc ++ yl)) (combine (seq s (length l)) l) acc = Ok (w, yl)).
  { induction l as [|t l IH]; intros s acc HL; cbn [length seq combine foldM]; [exists (fst acc), (snd acc); destruct acc; auto|].
    destruct (HL 0%nat t eq_refl) as ([X y]&T1&NX&LN). rewrite Nat.add_0_r in T1. apply tuning_set_ok in T1. cbn [fst snd] in *. rewrite T1. cbn [bind].
    destruct (attr_total t (nopp n1) X y NX LN) as ([w yl]&->). cbn [bind]. apply IH. intros q t' N. specialize (HL (S q) t' N). rewrite Nat.add_succ_r in HL. exact HL. }
  apply G. exact H.
Qed.
Lemma retry_fuel : forall {A} (at0 : mat R -> option A) eps fuel G r, at0 G = Some r -> retry fuel at0 eps 0 G = Ok (G, r).
Proof. intros A at0 eps fuel G r E. destruct fuel; cbn [retry]; rewrite E; auto. Qed.

Lemma p_C72 : forall feps solve in_null (o : all_opts R) oob boot ts, Forall wf_tree ts -> Forall pos_leaves ts -> 0 < feps ->
  length (a_y o) = length (a_X o) ->
  (forall q t, nth_error ts q = Some t -> exists d, tuning_set o oob boot q d /\ fst d <> [] /\ length (snd d) = length (fst d)) ->
  (forall G a, length a = K_of ts -> square (K_of ts) G -> symmetric (K_of ts) G -> pos_def (K_of ts) G -> exists l, solve (a_no_constraint o) G a = Some l) ->
  (forall G a l, length a = K_of ts -> solve (a_no_constraint o) G a = Some l -> feasible (a_no_constraint o) (K_of ts) l /\
     forall l', feasible (a_no_constraint o) (K_of ts) l' -> qp_objective (K_of ts) G a l <= qp_objective (K_of ts) G a l') ->
  exists fuel0, forall fuel, (fuel0 <= fuel)%nat -> exists f lamb, smooth_all fuel feps solve in_null o oob boot ts = Ok (f, lamb).
Proof.
  intros feps solve in_null o oob boot ts WF PL FP LXY TS SV OPT. destruct (targets_total o oob boot ts TS) as (w&yl&HT).
  destruct (all_targets_spec o oob boot ts w yl WF HT) as (LW&LY&_).
  destruct (depth_mats Reg (a_parents_all o) Standard ts WF) as (G&E&Ti&HG&M).
  pose proof M as (LG&LE&LT&LC&V). cbn [n_gamma] in LG, LC. destruct G as [|G0 [|G9 ?]]; try discriminate LG.
  specialize (LC 0%nat ltac:(lia)). cbn [nth] in LC.
  assert (RL : forall r, (r < length E)%nat -> length (nth r G0 []) = K_of ts /\ length (nth r E []) = K_of ts).
  { intros r Hr. rewrite LE in Hr. destruct (offset_find ts r Hr) as (q&t&i&Nq&Hi&->). destruct (V q t Nq i Hi) as (_&_&A1&_&A2). destruct (A2 0%nat ltac:(cbn; lia)) as [A3 _]. cbn [nth] in A3. split; auto. }
  assert (RO : ratio_ok G0 E = true).
  { unfold ratio_ok. apply forallb_forall. intros p Hp. apply (in_combine_concat G0 E p 0) in Hp; [|congruence|intros i Hi; destruct (RL i) as [-> ->]; congruence].
    destruct Hp as (r&k&Hr&Hk&->). cbn [fst snd]. rewrite LC in Hr. destruct (RL r ltac:(congruence)) as [R1 R2]. rewrite R1 in Hk.
    destruct (offset_find ts r ltac:(lia)) as (q&t&i&Nq&Hi&->). destruct (V q t Nq i Hi) as (A0&_&A1&A2&A3). destruct (A3 0%nat ltac:(cbn; lia)) as [A4 A5]. cbn [nth] in A4, A5. rewrite A2, A5 by auto.
    rn.
    match goal with |- context[if Reqb ?x 0 then _ else _] => destruct (Reqb_spec x 0) as [Z1|]; auto end. match goal with |- Reqb ?x 0 = true => destruct (Reqb_spec x 0) as [|NZ]; auto end. exfalso. apply NZ. eapply sum_sel_pos_zero; [|exact Z1]. rewrite Forall_forall in PL. apply (PL t). eapply nth_error_In; eauto. }
  set (eps := @ndiv R _ n1 (nof (length (a_X o)))). set (Gs := ratio_rows eps G0 E).
  assert (LGs : length Gs = offset ts (length ts)) by (unfold Gs, ratio_rows; rewrite map2_length; lia).
  assert (RG : forall r, (r < length Gs)%nat -> length (nth r Gs []) = K_of ts).
  { intros r Hr. unfold Gs, ratio_rows. rewrite nth_map2 with (da := []) (db := []) by lia. destruct (RL r ltac:(lia)). rewrite map2_length. lia. }
  set (seen := map (fun x => negb (neqb x (nopp n1))) w).
  assert (Ls : length seen = length w) by (unfold seen; apply map_length).
  set (Gm := mask_select seen Gs). set (wm := mask_select seen w). set (ym := mask_select seen yl).
  assert (LM : length Gm = length wm) by (apply mask_len3; congruence).
  assert (Lym : length ym = length wm) by (apply mask_len3; congruence).
  destruct (sym_gram (K_of ts) Gm wm ym LM Lym) as [SG EG].
  set (S0 := symmetrise (gram_w (K_of ts) Gm wm)) in *. set (a := rhs_w (K_of ts) Gm wm ym).
  assert (LA : length a = K_of ts) by (unfold a, rhs_w; rewrite map_length, seq_length; auto).
  assert (SY : symmetric (K_of ts) S0). { intros i j Hi Hj. rewrite !EG by auto. apply sumto_ext. intros; ring. }
  destruct (p_C58_terminates (K_of ts) feps S0 SG (sym_near _ _ SY) FP) as (fuel0&HF). exists fuel0. intros fuel Hf. destruct (HF fuel Hf) as (G1&HU).
  destruct (p_C58 (K_of ts) fuel feps S0 SG) as [_ UP]. destruct (UP (sym_near _ _ SY)) as [Bad|(G1'&E1&PD&CS)]; [congruence|]. assert (G1' = G1) by congruence. subst G1'.
  assert (LF : exists c, lifted (K_of ts) S0 c G1). { destruct CS as [[_ ->]|[_ (k&L1&_)]]; [exists 0; apply lifted_self; auto|eauto]. }
  destruct LF as (c&LF). assert (SY1 : symmetric (K_of ts) G1). { destruct LF as [_ VL]. intros i j Hi Hj. rewrite !VL by auto. rewrite (SY i j Hi Hj), (Nat.eqb_sym j i). reflexivity. }
  assert (SQ1 : square (K_of ts) G1) by apply LF. apply (p_C71 (K_of ts) G1 SQ1) in PD; [|exact SY1].
  destruct (SV G1 a LA SQ1 SY1 PD) as (l&HS).
  destruct (OPT _ _ _ LA HS) as [FE MN]. pose proof (feasible_len _ _ _ FE) as LL.
  assert (KP : (0 < K_of ts)%nat) by (unfold K_of; lia).
  assert (HB : qp_cost G1 a l <= qp_cost G1 a (upd (repeat 0 (length l)) 0 1)).
  { assert (FU : feasible (a_no_constraint o) (K_of ts) (upd (repeat 0 (K_of ts)) 0 1)).
    { pose proof (simplex_unit (K_of ts) KP) as SX. destruct (a_no_constraint o); [apply SX|exact SX]. }
    rewrite !(qp_quad (K_of ts)) by (auto; rewrite ?upd_length, ?repeat_length; auto). rewrite LL. apply MN. exact FU. }
  destruct (write_forest_ok (map (fun v => [v]) (mv Gs (if a_sanity o then upd (repeat 0 (length l)) 0 1 else l))) ts 0 WF) as (f&EW&_); [rewrite map_length, mv_length; lia|].
  exists f, (if a_sanity o then upd (repeat 0 (length l)) 0 1 else l). unfold smooth_all, smooth_all_with. rewrite LXY, Nat.eqb_refl. cbn [negb]. rewrite HT. cbn [bind]. rewrite HG. cbn [bind concat]. rewrite app_nil_r, RO. cbn [negb]. cbv zeta.
  fold eps. fold Gs. fold (K_of ts). fold seen. fold Gm. fold wm. fold ym. fold a. fold S0. rewrite HU. cbn [bind].
  rewrite (retry_fuel (fun M => solve (a_no_constraint o) M a) feps fuel G1 l HS). cbn [bind].
  match goal with |- context[nltb ?x ?y] => change (nltb x y) with (Rltb x y) end.
  change (@qp_cost R _ G1 a (upd (repeat n0 (length l)) 0 n1)) with (qp_cost G1 a (upd (repeat 0 (length l)) 0 1)).
  destruct (Rltb_spec (qp_cost G1 a (upd (repeat 0 (length l)) 0 1)) (qp_cost G1 a l)) as [Bad|_]; [exfalso; lra|].
  match goal with |- context [if ?b then Ok ?n else Ok true] => replace (if b then Ok n else Ok true) with (Ok (if b then n else true)) by (destruct b; reflexivity) end. cbn [bind]. rewrite Bool.andb_false_r.
  match goal with |- context[write_forest ?z 0 ts] => change z with (map (fun v => [v]) (mv Gs (if a_sanity o then upd (repeat 0 (length l)) 0 1 else l))) end. rewrite EW. reflexivity.
Qed.

(** statements of Props_Level *)
Lemma q_C55_dist : forall ts (X : list (list R)) dd (lf dl : nat -> nat -> nat) m, Forall wf_tree ts -> ts <> [] -> X <> [] ->
  (dd = None \/ dd = Some (fst (calc_depth_for_forest ts))) -> leaves_of ts X lf ->
  (forall q t i, nth_error ts q = Some t -> (i < length X)%nat -> depth_of t (leaf_id t (lf q i)) (dl q i)) -> (0 < m)%nat ->
  let is_cut D := square (length X) D /\ forall i j, (i < length X)%nat -> (j < length X)%nat -> forall dc : nat -> nat,
    (forall q t, nth_error ts q = Some t -> exists a, is_lca t a (leaf_id t (lf q i)) (leaf_id t (lf q j)) /\ depth_of t a (dc q)) ->
    nth j (nth i D []) 0 = sumto (length ts) (fun q => INR (Nat.min (S (dl q i)) m) - INR (Nat.min (S (dc q)) m)) / INR (length ts) in
  exists V U K D, make_Vt_mat ts X dd = Ok V /\ make_Ut_prime V V (Some m) = Ok U /\
    make_kernel U None = Ok (Some K) /\ depth_dist K = Ok D /\ is_cut D /\
    exists U1, remove_0 U = Ok U1 /\
      (m = 1%nat -> make_kernel (T := R) U1 None = Ok None) /\
      ((1 < m)%nat -> exists K1, make_kernel U1 None = Ok (Some K1) /\
        ((forall q i, (q < length ts)%nat -> (i < length X)%nat -> dl q i = 0%nat) -> depth_dist K1 = Err AssertionError) /\
        ((exists q i, (q < length ts)%nat /\ (i < length X)%nat /\ dl q i <> 0%nat) -> exists D1, depth_dist K1 = Ok D1 /\ is_cut D1)).
Proof.
  intros ts X dd lf dl m WF NE NX DD LV DL Hm is_cut.
  destruct (p_C55_dist ts X dd lf dl WF NE NX DD LV DL m Hm) as (V&U&K&D&A1&A2&A3&A4&A5&A6&U1&B1&B2&B3).
  exists V, U, K, D. split; [exact A1|]. split; [exact A2|]. split; [exact A3|]. split; [exact A4|]. split; [split; [exact A5|exact A6]|].
  exists U1. split; [exact B1|]. split; [exact B2|]. intros H1. destruct (B3 H1) as (K1&C1&C2&C3). exists K1. split; [exact C1|]. split; [exact C2|].
  intros H2. destruct (C3 H2) as (D1&E1&E2&E3). exists D1. split; [exact E1|]. split; [exact E2|exact E3].
Qed.
Lemma q_C55_standard : forall ts (X : list (list R)) dd (lf dl : nat -> nat -> nat) m, Forall wf_tree ts -> ts <> [] -> X <> [] ->
  (dd = None \/ dd = Some (fst (calc_depth_for_forest ts))) -> leaves_of ts X lf ->
  (forall q t i, nth_error ts q = Some t -> (i < length X)%nat -> depth_of t (leaf_id t (lf q i)) (dl q i)) ->
  (forall q i, (q < length ts)%nat -> (i < length X)%nat -> (dl q i < m)%nat) ->
  exists V U K D, make_Vt_mat ts X dd = Ok V /\ make_Ut_prime V V (Some m) = Ok U /\ make_kernel U None = Ok (Some K) /\ depth_dist K = Ok D /\
    forall i j (k : nat -> nat), (i < length X)%nat -> (j < length X)%nat ->
      (forall q t, nth_error ts q = Some t -> TreeSpec.leaf_dist t Standard (leaf_id t (lf q i)) (leaf_id t (lf q j)) (k q)) ->
      nth j (nth i D []) 0 = sumto (length ts) (fun q => INR (k q)) / INR (length ts).
Proof.
  intros ts X dd lf dl m WF NE NX DD LV DL HM.
  assert (Hm : (0 < m)%nat). { assert (0 < length ts)%nat by (destruct ts; [congruence|cbn; lia]). assert (0 < length X)%nat by (destruct X; [congruence|cbn; lia]). specialize (HM 0%nat 0%nat ltac:(lia) ltac:(lia)). lia. }
  destruct (p_C55_dist ts X dd lf dl WF NE NX DD LV DL m Hm) as (V&U&K&D&A1&A2&A3&A4&A5&A6&_).
  exists V, U, K, D. split; [exact A1|]. split; [exact A2|]. split; [exact A3|]. split; [exact A4|].
  intros i j k Hi Hj HK. eapply cut_standard; eauto.
Qed.
Lemma q_C69 : forall ts (Xn X : list (list R)) dd, Forall wf_tree ts -> ts <> [] -> Xn <> [] -> X <> [] ->
  (dd = None \/ dd = Some (fst (calc_depth_for_forest ts))) ->
  exists Vn V U, make_Vt_mat ts Xn dd = Ok Vn /\ make_Vt_mat ts X dd = Ok V /\ make_Ut_prime Vn V None = Ok U /\
    map fst U = seq 0 (length ts - 1) /\ make_Ut_prime Vn V (Some (length ts - 1)%nat) = Ok U.
Proof.
  intros ts Xn X dd WF NE N1 N2 DD. exists (map (fun t => Vdict t Xn) ts), (map (fun t => Vdict t X) ts). eexists.
  split; [apply make_Vt_val; auto|]. split; [apply make_Vt_val; auto|]. split; [apply Ut_val; auto|]. split; [|apply (Ut_val ts Xn X (Some (length ts - 1)%nat)); auto].
  rewrite map_map. cbn [fst]. apply map_id.
Qed.
Lemma q_C69_one : forall (t : tree R) (X : list (list R)), wf_tree t -> X <> [] ->
  exists V U, make_Vt_mat [t] X None = Ok V /\ make_Ut_prime V V None = Ok U /\ make_kernel (T := R) U None = Ok None.
Proof.
  intros t X WF NX. destruct (q_C69 [t] X X None ltac:(auto) ltac:(discriminate) NX NX ltac:(auto)) as (Vn&V&U&A1&A2&A3&A4&_).
  assert (Vn = V) by congruence. subst Vn. exists V, U. split; [exact A1|]. split; [exact A3|]. destruct U; [reflexivity|discriminate].
Qed.
Lemma q_C56_values : forall fuel feps solve in_null (o : all_opts R) oob boot ts D f lamb, Forall wf_tree ts -> deepest ts D ->
  (forall nc G a l, solve nc G a = Some l -> length l = length a) ->
  smooth_all fuel feps solve in_null o oob boot ts = Ok (f, lamb) ->
  length lamb = S D /\ length f = length ts /\
  forall q t, nth_error ts q = Some t -> exists t', nth_error f q = Some t' /\ same_but_leaf_values t t' /\
    forall i, (i < n_leaves t)%nat -> exists m, (forall k, (k < S D)%nat -> level_mean t (a_parents_all o) i k (m k)) /\
      nth (leaf_id t i) (t_value t') [] = [sumto (S D) (fun k => nth k lamb 0 * m k)].
Proof. intros fuel feps solve in_null o oob boot ts D f lamb WF DP. rewrite <- (deepest_K ts D WF DP). apply p_C56_values. exact WF. Qed.
Lemma q_C56_constant : forall fuel feps solve in_null (o : all_opts R) oob boot ts D f lamb, Forall wf_tree ts -> deepest ts D ->
  (forall nc G a l, solve nc G a = Some l -> length l = length a) ->
  smooth_all fuel feps solve in_null o oob boot ts = Ok (f, lamb) ->
  forall q t t' v, nth_error ts q = Some t -> nth_error f q = Some t' -> pos_leaves t ->
    (forall j, (j < n_leaves t)%nat -> leaf_v t 0 j = v) ->
    forall i, (i < n_leaves t)%nat -> exists r : nat -> R,
      (forall k, (k < S D)%nat -> indicates (exists j d, (j < n_leaves t)%nat /\ TreeSpec.leaf_dist t Standard (leaf_id t i) (leaf_id t j) d /\ (if a_parents_all o then (d <= k)%nat else d = k)) (r k)) /\
      nth (leaf_id t i) (t_value t') [] = [v * sumto (S D) (fun k => nth k lamb 0 * r k)].
Proof. intros fuel feps solve in_null o oob boot ts D f lamb WF DP. rewrite <- (deepest_K ts D WF DP). apply p_C56_constant. exact WF. Qed.
Lemma q_C70 : forall fuel feps solve in_null (o : all_opts R) oob boot ts D f lamb, Forall wf_tree ts -> deepest ts D -> 0 <= feps ->
  (forall G a l, length a = S D -> solve (a_no_constraint o) G a = Some l -> feasible (a_no_constraint o) (S D) l /\
     forall l', feasible (a_no_constraint o) (S D) l' -> qp_objective (S D) G a l <= qp_objective (S D) G a l') ->
  a_sanity o = false -> smooth_all fuel feps solve in_null o oob boot ts = Ok (f, lamb) ->
  exists c1 c2 c, lift_of feps c1 /\ lift_of feps c2 /\ c = c1 + c2 /\ 0 <= c /\ feasible (a_no_constraint o) (S D) lamb /\
  (exists data lf, all_data o oob boot ts data lf) /\
  forall data lf, all_data o oob boot ts data lf ->
    (forall l' m, feasible (a_no_constraint o) (S D) l' ->
       (forall q t i k, nth_error ts q = Some t -> (i < n_leaves t)%nat -> (k < S D)%nat -> level_mean t (a_parents_all o) i k (m q i k)) ->
       mean_sse (length ts) data lf (fun q i => leaf_v (nth q f no_tree) 0 i) + c * sqnorm lamb
       <= mean_sse (length ts) data lf (fun q i => sumto (S D) (fun k => nth k l' 0 * m q i k)) + c * sqnorm l') /\
    (Forall pos_leaves ts ->
       mean_sse (length ts) data lf (fun q i => leaf_v (nth q f no_tree) 0 i) + c * sqnorm lamb
       <= mean_sse (length ts) data lf (fun q i => leaf_v (nth q ts no_tree) 0 i) + c).
Proof. intros fuel feps solve in_null o oob boot ts D f lamb WF DP. rewrite <- (deepest_K ts D WF DP). apply p_C70. exact WF. Qed.
Lemma q_C72 : forall feps solve in_null (o : all_opts R) oob boot ts D, Forall wf_tree ts -> deepest ts D -> Forall pos_leaves ts -> 0 < feps ->
  length (a_y o) = length (a_X o) ->
  (forall q t, nth_error ts q = Some t -> exists d, tuning_set o oob boot q d /\ fst d <> [] /\ length (snd d) = length (fst d)) ->
  (forall G a, length a = S D -> square (S D) G -> symmetric (S D) G -> pos_def (S D) G -> exists l, solve (a_no_constraint o) G a = Some l) ->
  (forall G a l, length a = S D -> solve (a_no_constraint o) G a = Some l -> feasible (a_no_constraint o) (S D) l /\
     forall l', feasible (a_no_constraint o) (S D) l' -> qp_objective (S D) G a l <= qp_objective (S D) G a l') ->
  exists fuel0, forall fuel, (fuel0 <= fuel)%nat -> exists f lamb, smooth_all fuel feps solve in_null o oob boot ts = Ok (f, lamb).
Proof. intros feps solve in_null o oob boot ts D WF DP. rewrite <- (deepest_K ts D WF DP). apply p_C72. exact WF. Qed.
