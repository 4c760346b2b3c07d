(** L_All: what smooth_all depends on. *)
From Verif Require Import Base TreeSpec Spec M_Tree M_Gamma M_Levels M_Grad M_Smooth M_Level SpecSmooth SpecTune SpecLevel SpecRel2 SpecAll.
From Verif Require Import L_Base L_Tree L_TreeModel L_Dist L_Gamma L_Gamma2 L_Sgd L_Grad L_Smooth L_Smooth2 L_Smooth3 L_Route L_Tune L_Level3 L_Level4 L_Level5 L_Level6 L_Level7 L_Level8 L_Level9 L_Rel L_Rel9.
From Coq Require Import Reals Lra Lia Permutation.
Local Open Scope R_scope.

(* ---------------- the leaves' shares and means ---------------- *)
Lemma total_count : forall (t : tree R) X lf, routed t X lf -> sumto (n_leaves t) (fun i => sum_sel (length X) (in_leaf lf i) (fun _ => 1)) = INR (length X).
Proof. intros t X lf RT. rewrite sum_over_leaves; [rewrite sumto_const; lra|]. intros x Hx. destruct (RT x Hx) as [[? _] _]; auto. Qed.
Lemma process_in_proportion : forall (t : tree R) eps d d', wf_tree t -> usable d -> length (snd d') = length (fst d') -> in_proportion t d d' ->
  process_tuning_leaf_attributes_tree t eps (fst d') (snd d') = process_tuning_leaf_attributes_tree t eps (fst d) (snd d).
Proof.
  intros t eps [X y] [X' y'] WF [NX LY] LY' (r & lf & lf' & R0 & RT & RT' & H). cbn [fst snd] in *.
  pose proof (total_count t X lf RT) as T1. pose proof (total_count t X' lf' RT') as T2.
  assert (T3 : INR (length X') = r * INR (length X)).
  { rewrite <- T1, <- T2, <- sumto_scal. apply sumto_ext. intros i Hi. apply (H i Hi). }
  assert (PX : 0 < INR (length X)) by (apply (lt_INR 0); destruct X; [congruence|cbn; lia]).
  assert (NX' : X' <> []). { intros ->. cbn in T3. assert (0 < r * INR (length X)) by (apply Rmult_lt_0_compat; auto). lra. }
  destruct (attr_total t eps X y NX LY) as ([w yl] & E1). destruct (attr_total t eps X' y' NX' LY') as ([w' yl'] & E2). rewrite E1, E2.
  destruct (attr_spec t eps X y w yl WF E1) as (_ & _ & S1). destruct (S1 lf RT) as (A1 & A2 & A3).
  destruct (attr_spec t eps X' y' w' yl' WF E2) as (_ & _ & S2). destruct (S2 lf' RT') as (B1 & B2 & B3).
  assert (EE : forall i, (i < n_leaves t)%nat -> nth i w' 0 = nth i w 0 /\ nth i yl' 0 = nth i yl 0).
  { intros i Hi. destruct (A3 i Hi) as [-> ->]. destruct (B3 i Hi) as [-> ->]. cbv zeta. unfold in_leaf. destruct (H i Hi) as [-> ->].
    set (c := sum_sel (length X) (fun k => Nat.eqb (lf k) i) (fun _ => 1)). set (s := sum_sel (length X) (fun k => Nat.eqb (lf k) i) (fun k => nth k y 0)). rewrite T3.
    destruct (Req_EM_T c 0) as [Z|Z]; destruct (Req_EM_T (r * c) 0) as [Z'|Z']; auto.
    - exfalso. apply Z'. rewrite Z. ring.
    - exfalso. apply Rmult_integral in Z'. destruct Z'; lra.
    - split; field; split; lra. }
  f_equal. f_equal; apply (nth_ext _ _ 0 0); try congruence; intros i Hi; apply EE; congruence.
Qed.

Lemma all_tuning_ok : forall (o : all_opts R) oob boot q d, tuning_set o oob boot q d -> all_tuning o oob boot q = Ok d.
Proof. intros. apply tuning_set_ok. auto. Qed.
Definition tree_attr (o : all_opts R) (oob boot : nat -> list nat) (q : nat) (t : tree R) : result (list R * list R) :=
  do '(X, y) <- all_tuning o oob boot q; process_tuning_leaf_attributes_tree t (nopp n1) X y.
Lemma targets_ext : forall (o o' : all_opts R) oob boot oob' boot' ts,
  (forall q t, nth_error ts q = Some t -> tree_attr o' oob' boot' q t = tree_attr o oob boot q t) ->
  all_leaf_targets o' oob' boot' ts = all_leaf_targets o oob boot ts.
Proof.
  intros o o' oob boot oob' boot' ts H. unfold all_leaf_targets.
  assert (G : forall l s acc, (forall q t, nth_error l q = Some t -> tree_attr o' oob' boot' (s + q) t = tree_attr o oob boot (s + q) t) ->
    foldM (fun acc it => do '(X, y) <- all_tuning o' oob' boot' (fst it); do '(w, yl) <- process_tuning_leaf_attributes_tree (snd it) (nopp n1) X y; Ok (fst acc ++ w, snd acc ++ yl)) (combine (seq s (length l)) l) acc
    = foldM (fun acc it => do '(X, y) <- all_tuning o oob boot (fst it); do '(w, yl) <- process_tuning_leaf_attributes_tree (snd it) (nopp n1) X y; Ok (fst acc ++ w, snd acc ++ yl)) (combine (seq s (length l)) l) acc).
  { induction l as [|t l IH]; intros s acc HL; [reflexivity|]. cbn [length seq combine foldM fst snd].
    pose proof (HL 0%nat t eq_refl) as E. rewrite Nat.add_0_r in E. unfold tree_attr in E.
    assert (IH' : forall acc', _ = _) by (intros acc'; apply (IH (S s) acc'); intros q t' N; specialize (HL (S q) t' N); rewrite Nat.add_succ_r in HL; exact HL).
    destruct (all_tuning o' oob' boot' s) as [[X' y']|], (all_tuning o oob boot s) as [[X y]|]; cbn [bind] in *.
    - rewrite E. destruct (process_tuning_leaf_attributes_tree t (nopp n1) X y) as [[w yl]|]; cbn [bind]; [apply IH'|reflexivity].
    - rewrite E. reflexivity.
    - rewrite <- E. reflexivity.
    - congruence. }
  apply G; auto.
Qed.

(* ---------------- the rest of smooth_all ---------------- *)
Definition all_rest (fuel : nat) (feps : R) (solve : bool -> mat R -> list R -> option (list R)) (check : mat R -> list R -> result bool)
    (o : all_opts R) (S0 : mat R) (a : list R) (Gs : mat R) (ts : list (tree R)) : result (list (tree R) * list R) :=
  do G1 <- update_til_psd fuel feps S0;
  do '(G2, lamb) <- retry fuel (fun M => solve (a_no_constraint o) M a) feps 0 G1;
  let base := upd (repeat n0 (length lamb)) 0 n1 in
  do skip <- (if existsb (fun d => nltb (npow (ndiv n1 (nof 10)) 7) (nabs d)) (map2 nsub lamb base) then check G2 (map2 nsub base lamb) else Ok true);
  if (negb skip && a_inner_assess o && nltb (qp_cost G2 a base) (qp_cost G2 a lamb))%bool then Err AssertionError
  else
    let lamb' := if a_sanity o then base else lamb in
    do f <- write_forest (map (fun v => [v]) (mv Gs lamb')) 0 ts; Ok (f, lamb').
Definition seen_of (w : list R) : list bool := map (fun x => negb (neqb x (nopp n1))) w.
Definition S_of (K : nat) (Gs : mat R) (w : list R) : mat R := symmetrise (gram_w K (mask_select (seen_of w) Gs) (mask_select (seen_of w) w)).
Definition a_of (K : nat) (Gs : mat R) (w yl : list R) : list R := rhs_w K (mask_select (seen_of w) Gs) (mask_select (seen_of w) w) (mask_select (seen_of w) yl).
Lemma all_unfold : forall fuel feps solve check (o : all_opts R) oob boot ts w yl G3 Et Ti, length (a_y o) = length (a_X o) -> all_leaf_targets o oob boot ts = Ok (w, yl) ->
  create_Gamma_eta_forest Reg (a_parents_all o) Standard ts = Ok (G3, Et, Ti) ->
  smooth_all_with fuel feps solve check o oob boot ts =
  if negb (ratio_ok (concat G3) Et) then Err AssertionError
  else let Gs := ratio_rows (ndiv n1 (nof (length (a_X o)))) (concat G3) Et in all_rest fuel feps solve check o (S_of (K_of ts) Gs w) (a_of (K_of ts) Gs w yl) Gs ts.
Proof. intros fuel feps solve check o oob boot ts w yl G3 Et Ti LE HT HG. unfold smooth_all_with. rewrite LE, Nat.eqb_refl. cbn [negb]. rewrite HT. cbn [bind]. rewrite HG. cbn [bind]. reflexivity. Qed.

Lemma ratio_rows_eps : forall kd ts K sel G0 E Ti e e', mats kd ts K sel [G0] E Ti -> n_gamma kd = 1%nat -> ratio_ok G0 E = true -> ratio_rows e' G0 E = ratio_rows e G0 E.
Proof.
  intros kd ts K sel G0 E Ti e e' (LG & LE & LT & LC & V) N RO. specialize (LC 0%nat ltac:(lia)). cbn [nth] in LC.
  assert (RL : forall r, (r < length E)%nat -> length (nth r G0 []) = K /\ length (nth r E []) = K).
  { intros r Hr. rewrite LE in Hr. destruct (offset_find ts r Hr) as (q&t&i&Nq&Hi&->). destruct (V q t Nq i Hi) as (_&_&A1&_&A2). destruct (A2 0%nat ltac:(lia)) as [A3 _]. cbn [nth] in A3. split; auto. }
  unfold ratio_rows. apply (nth_ext _ _ [] []); [rewrite !map2_length; auto|]. intros r Hr. rewrite map2_length in Hr.
  rewrite !nth_map2 with (da := []) (db := []) by lia. destruct (RL r ltac:(lia)) as [R1 R2].
  apply (nth_ext _ _ 0 0); [rewrite !map2_length; auto|]. intros k Hk. rewrite map2_length in Hk. rewrite !nth_map2 with (da := 0) (db := 0) by lia.
  pose proof (ratio_ok_entry G0 E r k RO LC) as RE. rn. destruct (Reqb_spec (nth k (nth r E []) 0) 0) as [Z|Z]; [|reflexivity].
  rewrite RE; auto; try lia; [unfold Rdiv; ring|]. intros i Hi. destruct (RL i ltac:(lia)) as [-> ->]. auto.
Qed.
Lemma all_ext : forall fuel feps solve check (o o' : all_opts R) oob boot oob' boot' ts, Forall wf_tree ts -> same_settings o o' ->
  length (a_y o) = length (a_X o) -> length (a_y o') = length (a_X o') ->
  (forall q t, nth_error ts q = Some t -> tree_attr o' oob' boot' q t = tree_attr o oob boot q t) ->
  smooth_all_with fuel feps solve check o' oob' boot' ts = smooth_all_with fuel feps solve check o oob boot ts.
Proof.
  intros fuel feps solve check o o' oob boot oob' boot' ts WF (S1 & S2 & S3 & S4) L L' H.
  pose proof (targets_ext o o' oob boot oob' boot' ts H) as ET.
  destruct (all_leaf_targets o oob boot ts) as [[w yl]|e] eqn:HT.
  2: { unfold smooth_all_with. rewrite L, L', !Nat.eqb_refl. cbn [negb]. rewrite HT, ET. reflexivity. }
  destruct (depth_mats Reg (a_parents_all o) Standard ts WF) as (G&E&Ti&HG&M).
  assert (HG' : create_Gamma_eta_forest Reg (a_parents_all o') Standard ts = Ok (G, E, Ti)) by (rewrite S3; auto).
  rewrite (all_unfold _ _ _ _ o' _ _ _ _ _ _ _ _ L' ET HG'), (all_unfold _ _ _ _ o _ _ _ _ _ _ _ _ L HT HG).
  destruct G as [|G0 [|G9 ?]]; try (destruct M as [LG _]; discriminate LG). cbn [concat]. rewrite app_nil_r.
  destruct (ratio_ok G0 E) eqn:RO; [|reflexivity]. cbn [negb]. cbv zeta.
  rewrite (ratio_rows_eps _ _ _ _ _ _ _ (ndiv n1 (nof (length (a_X o)))) (ndiv n1 (nof (length (a_X o')))) M eq_refl RO).
  unfold all_rest. rewrite S1, S2, S4. reflexivity.
Qed.
Lemma p_all_same : forall fuel feps solve check (o o' : all_opts R) oob boot oob' boot' ts, Forall wf_tree ts -> same_settings o o' ->
  length (a_y o) = length (a_X o) -> length (a_y o') = length (a_X o') ->
  (forall q t, nth_error ts q = Some t -> exists d d', tuning_set o oob boot q d /\ tuning_set o' oob' boot' q d' /\ usable d /\ length (snd d') = length (fst d') /\ in_proportion t d d') ->
  smooth_all_with fuel feps solve check o' oob' boot' ts = smooth_all_with fuel feps solve check o oob boot ts.
Proof.
  intros fuel feps solve check o o' oob boot oob' boot' ts WF SS L L' H. apply all_ext; auto. intros q t N.
  destruct (H q t N) as ([X y] & [X' y'] & T1 & T2 & U & LL & P). unfold tree_attr. rewrite (all_tuning_ok _ _ _ _ _ T1), (all_tuning_ok _ _ _ _ _ T2). cbn [bind].
  apply (process_in_proportion t (nopp n1) (X, y) (X', y')); auto. eapply Forall_forall; eauto. eapply nth_error_In; eauto.
Qed.

(* ---------------- data given several times ---------------- *)
Lemma sel_pairs : forall (t : tree R) X y lf i (g : R -> R), routed t X lf -> (i < n_leaves t)%nat -> wf_tree t -> length y = length X ->
  sum_sel (length X) (in_leaf lf i) (fun k => g (nth k y 0)) = nsum (map (fun p => nth i (leaf_select t (path_row t (fst p))) 0 * g (snd p)) (combine X y)).
Proof.
  intros t X y lf i g RT Hi WF L. unfold sum_sel. rewrite nsum_sumto, map_length, combine_length, L, Nat.min_id. apply sumto_ext. intros k Hk.
  rewrite nth_map_in with (d := ([], 0)) by (rewrite combine_length; lia). rewrite combine_nth by auto. cbn [fst snd].
  rewrite (obs_row_nth t X lf k i) by auto. unfold in_leaf. destruct (Nat.eqb (lf k) i); rn; ring.
Qed.
Lemma times_nsum : forall {A} (F : A -> R) m (l l' : list A), times m l l' -> nsum (map F l') = INR m * nsum (map F l).
Proof.
  intros A F m l l' P. unfold times in P. rewrite (nsum_perm _ _ (Permutation_map F P)). clear P l'. induction m as [|m IH]; [cbn [repeat concat map INR]; change (nsum (@nil R)) with 0; ring|].
  cbn [repeat concat]. rewrite map_app, nsum_app, IH, S_INR. ring.
Qed.
Lemma times_proportion : forall (t : tree R) m X y X' y', wf_tree t -> (0 < m)%nat -> length y = length X -> length y' = length X' -> times m (combine X y) (combine X' y') ->
  in_proportion t (X, y) (X', y').
Proof.
  intros t m X y X' y' WF Hm L L' P. destruct (routed_ex t X WF) as (lf & RT). destruct (routed_ex t X' WF) as (lf' & RT').
  exists (INR m), lf, lf'. split; [apply (lt_INR 0); auto|]. split; [exact RT|]. split; [exact RT'|]. cbn [fst snd]. intros i Hi.
  pose proof (sel_pairs t X y lf i) as A. pose proof (sel_pairs t X' y' lf' i) as B. unfold in_leaf in A, B. split.
  - rewrite (A (fun _ => 1)), (B (fun _ => 1)) by auto. apply times_nsum; auto.
  - rewrite (A (fun z => z)), (B (fun z => z)) by auto. apply times_nsum; auto.
Qed.
Lemma times_len : forall {A} m (l l' : list A), times m l l' -> length l' = (m * length l)%nat.
Proof. intros A m l l' P. rewrite (Permutation_length P). clear. induction m; [reflexivity|]. cbn. rewrite app_length, IHm. reflexivity. Qed.
Lemma process_times : forall (t : tree R) eps m X y X' y', wf_tree t -> (0 < m)%nat -> length y = length X -> length y' = length X' -> times m (combine X y) (combine X' y') ->
  process_tuning_leaf_attributes_tree t eps X' y' = process_tuning_leaf_attributes_tree t eps X y.
Proof.
  intros t eps m X y X' y' WF Hm L L' P. destruct X as [|x X].
  - apply times_len in P. cbn in P. rewrite Nat.mul_0_r, combine_length, L', Nat.min_id in P. destruct X'; [|discriminate]. destruct y; [|discriminate]. destruct y'; [|discriminate]. reflexivity.
  - apply (process_in_proportion t eps (x :: X, y) (X', y')); auto; [split; auto; discriminate|]. eapply times_proportion; eauto.
Qed.
Lemma p_all_tune : forall fuel feps solve check (o : all_opts R) oob boot ts m X Y X' Y', Forall wf_tree ts -> (0 < m)%nat -> length Y = length X -> length Y' = length X' ->
  times m (combine X Y) (combine X' Y') ->
  smooth_all_with fuel feps solve check (all_with_tune o X' Y') oob boot ts = smooth_all_with fuel feps solve check (all_with_tune o X Y) oob boot ts.
Proof.
  intros fuel feps solve check o oob boot ts m X Y X' Y' WF Hm L L' P.
  destruct (Nat.eq_dec (length (a_y o)) (length (a_X o))) as [E|E].
  2: { unfold smooth_all_with. cbn [all_with_tune a_y a_X]. apply Nat.eqb_neq in E. rewrite E. reflexivity. }
  apply all_ext; auto; [repeat split|]. intros q t N. unfold tree_attr, all_tuning. cbn [all_with_tune a_resample a_X_tune a_y_tune a_X a_y].
  destruct (a_resample o); [reflexivity|]. cbn [bind]. eapply process_times; eauto. eapply Forall_forall; eauto. eapply nth_error_In; eauto.
Qed.
Lemma take_range : forall {A} (l : list A) d idx, (forall i, In i idx -> (i < length l)%nat) -> take_rows l idx = Ok (map (fun i => nth i l d) idx).
Proof.
  intros A l d idx H. apply picked_take. unfold picked. induction idx as [|i idx IH]; constructor.
  - apply nth_error_nth'. apply H. left; auto.
  - apply IH. intros j Hj. apply H. right; auto.
Qed.
Lemma take_out : forall {A} (l : list A) idx, ~ (forall i, In i idx -> (i < length l)%nat) -> take_rows l idx = Err IndexError.
Proof.
  intros A l idx. unfold take_rows. induction idx as [|i idx IH]; intros H; [exfalso; apply H; intros ? []|].
  cbn [mapM]. destruct (nth_error l i) eqn:E; [|reflexivity]. cbn [bind]. rewrite IH; [reflexivity|].
  intros G. apply H. intros j [<-|Hj]; [apply nth_error_Some; congruence|apply G; auto].
Qed.
Lemma combine_maps : forall {A B C} (f : A -> B) (g : A -> C) l, combine (map f l) (map g l) = map (fun i => (f i, g i)) l.
Proof. induction l; cbn; congruence. Qed.
Lemma times_map : forall {A B} (f : A -> B) m l l', times m l l' -> times m (map f l) (map f l').
Proof.
  intros A B f m l l' P. unfold times in *. eapply perm_trans; [apply Permutation_map; exact P|]. clear P. induction m; [constructor|]. cbn. rewrite map_app. apply Permutation_app; auto.
Qed.
Lemma times_in : forall {A} m (l l' : list A) x, (0 < m)%nat -> times m l l' -> (In x l' <-> In x l).
Proof.
  intros A m l l' x Hm P. split; intros H.
  - apply (Permutation_in _ P) in H. apply in_concat in H. destruct H as (z & Hz & Hx). apply repeat_spec in Hz. subst. auto.
  - apply (Permutation_in _ (Permutation_sym P)). destruct m; [lia|]. cbn. apply in_or_app. auto.
Qed.
Lemma sample_times : forall (o : all_opts R) t m idx idx', wf_tree t -> (0 < m)%nat -> length (a_y o) = length (a_X o) -> times m idx idx' ->
  (do '(X, y) <- (do Xt <- take_rows (a_X o) idx'; do yt <- take_rows (a_y o) idx'; Ok (Xt, yt)); process_tuning_leaf_attributes_tree t (nopp n1) X y)
  = (do '(X, y) <- (do Xt <- take_rows (a_X o) idx; do yt <- take_rows (a_y o) idx; Ok (Xt, yt)); process_tuning_leaf_attributes_tree t (nopp n1) X y).
Proof.
  intros o t m idx idx' WF Hm L P.
  destruct (forallb (fun i => Nat.ltb i (length (a_X o))) idx) eqn:FB.
  - assert (A : forall i, In i idx -> (i < length (a_X o))%nat) by (intros i Hi; rewrite forallb_forall in FB; apply Nat.ltb_lt, FB; auto).
    assert (B : forall i, In i idx' -> (i < length (a_X o))%nat) by (intros i Hi; apply A; apply (times_in m idx idx' i Hm P); auto).
    rewrite (take_range (a_X o) [] idx A), (take_range (a_X o) [] idx' B), (take_range (a_y o) 0 idx), (take_range (a_y o) 0 idx') by (rewrite L; auto).
    cbn [bind]. eapply process_times; eauto; rewrite ?map_length; auto. rewrite !combine_maps. apply times_map. auto.
  - assert (A : ~ (forall i, In i idx -> (i < length (a_X o))%nat)).
    { intros H. assert (forallb (fun i => Nat.ltb i (length (a_X o))) idx = true); [|congruence]. apply forallb_forall. intros i Hi. apply Nat.ltb_lt; auto. }
    assert (B : ~ (forall i, In i idx' -> (i < length (a_X o))%nat)) by (intros H; apply A; intros i Hi; apply H; apply (times_in m idx idx' i Hm P); auto).
    rewrite (take_out (a_X o) idx A), (take_out (a_X o) idx' B). reflexivity.
Qed.
Lemma p_all_sample : forall fuel feps solve check (o : all_opts R) oob boot oob' boot' ts m, Forall wf_tree ts -> (0 < m)%nat ->
  (forall q, times m (oob q) (oob' q)) -> (forall q, times m (boot q) (boot' q)) ->
  smooth_all_with fuel feps solve check o oob' boot' ts = smooth_all_with fuel feps solve check o oob boot ts.
Proof.
  intros fuel feps solve check o oob boot oob' boot' ts m WF Hm P1 P2.
  destruct (Nat.eq_dec (length (a_y o)) (length (a_X o))) as [E|E].
  2: { unfold smooth_all_with. apply Nat.eqb_neq in E. rewrite E. reflexivity. }
  apply all_ext; auto; [repeat split|]. intros q t N. assert (W : wf_tree t) by (eapply Forall_forall; eauto; eapply nth_error_In; eauto).
  unfold tree_attr, all_tuning. destruct (a_resample o); [eapply sample_times; eauto|].
  destruct (a_X_tune o); [destruct (a_y_tune o)|]; try reflexivity; eapply sample_times; eauto.
Qed.
