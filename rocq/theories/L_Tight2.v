(** L_Tight2: lemmas for Props_Tight2. *)
From Coq Require Import Reals Lra Lia.
From Verif Require Import Base TreeSpec Spec SpecSmooth SpecTune SpecClean SpecData SpecTight2 M_Tree M_Gamma M_Levels M_Prox M_Grad M_Sgd M_Smooth M_Clean M_Level M_Data.
From Verif Require Import L_Base L_Tree L_TreeModel L_TreeModel2 L_Dist L_Gamma L_Gamma2 L_Prox L_Sgd L_Grad L_Smooth L_Smooth2 L_Smooth3 L_Smooth4 L_Route L_Tune L_Depth2 L_Box L_Clean L_Clean2 L_Tight L_Data L_Clean3 L_Level3.
Local Open Scope R_scope.

Lemma in_combine_mask : forall (A B : Type) (f : A -> bool) (a : list A) (b : list B) p c, length a = length b ->
  (In (p, c) (combine (mask_select (map f a) a) (mask_select (map f a) b)) <-> In (p, c) (combine a b) /\ f p = true).
Proof.
  induction a as [|x a IH]; intros [|y b] p c L; try discriminate; [cbn; tauto|]. injection L as L. cbn [map mask_select combine].
  destruct (f x) eqn:F; cbn [combine In].
  - rewrite IH by auto. split.
    + intros [E|[H K]]; [injection E as -> ->; auto|auto].
    + intros [[E|H] K]; auto.
  - rewrite IH by auto. split; [tauto|]. intros [[E|H] K]; [injection E as -> ->; congruence|auto].
Qed.
Lemma in_combine_app : forall (A B : Type) (a r : list A) (r' : list B) k p c,
  In (p, c) (combine (a ++ r) (repeat k (length a) ++ r')) <-> (In p a /\ c = k) \/ In (p, c) (combine r r').
Proof.
  induction a as [|x a IH]; intros r r' k p c; cbn [app length repeat combine In]; [tauto|]. rewrite IH. split.
  - intros [E|[[H K]|H]]; [injection E as -> ->; auto|auto|auto].
  - intros [[[->|H] ->]|H]; auto.
Qed.
Lemma in_normal2 : forall l1 l2 s1 s2 m z p, In p (@normal2 R _ l1 l2 s1 s2 m z) <-> exists i, (i < m)%nat /\ p = scaled l1 l2 s1 s2 (z i).
Proof.
  intros. unfold normal2. rewrite in_map_iff. split.
  - intros (i&<-&H). apply in_seq in H. exists i. split; [lia|reflexivity].
  - intros (i&H&->). exists i. split; [reflexivity|]. apply in_seq. lia.
Qed.
Lemma in_uniform2 : forall lo hi lo' hi' m u u' p, In p (combine (@uniform R _ lo hi m u) (uniform lo' hi' m u')) <->
  exists i, (i < m)%nat /\ p = (lo + (hi - lo) * u i, lo' + (hi' - lo') * u' i).
Proof.
  intros. unfold uniform. rewrite combine_map_map, in_map_iff. split.
  - intros (i&<-&H). apply in_seq in H. exists i. split; [lia|reflexivity].
  - intros (i&H&->). exists i. split; [reflexivity|]. apply in_seq. lia.
Qed.

Lemma p_points : forall large_n zs us us2 p c, let '(d, y) := generate_data cos sin PI large_n zs us us2 in
  (In (p, c) (combine d y) <-> drawn_point (3 * large_n / 13) zs us us2 c p /\ within (-0.05) 1.05 (fst p) /\ within (-0.05) 1.05 (snd p)).
Proof.
  intros large_n zs us us2 p c. unfold generate_data. fold (gd_n large_n). set (n := gd_n large_n).
  set (d1n := normal2 _ _ _ _ (gd_norm n) (zs 0%nat)). set (d1u := combine (uniform n0 n1 (gd_unif n) _) _).
  set (d2n := normal2 _ _ _ _ (gd_norm n) (zs 1%nat)). set (d2u := combine (uniform _ _ (gd_unif n) (us 2%nat)) _).
  set (d3 := map (gd_rotate cos sin PI) _).
  set (d41n := normal2 _ _ _ _ _ (zs 2%nat)). set (d41u := combine (uniform _ _ _ (us 4%nat)) _).
  set (d42n := normal2 _ _ _ _ _ (zs 3%nat)). set (d42u := combine (uniform _ _ _ (us 6%nat)) _).
  cbv zeta. rewrite !repeat_app. unfold sumn; cbn [map fold_left fold_right Nat.add]. rewrite !repeat_app. cbn [repeat]. rewrite app_nil_r, <- !app_assoc.
  rewrite in_combine_mask by (rewrite !app_length, !repeat_length; lia). rewrite keep_iff.
  assert (E23 : gd_unif23 n = (2 * n / 5)%nat).
  { unfold gd_unif23. replace (6 * n)%nat with (2 * n * 3)%nat by lia. change 15%nat with (5 * 3)%nat. apply Nat.div_mul_cancel_r; lia. }
  assert (B : In (p, c) (combine (d1n ++ d1u ++ d2n ++ d2u ++ d3 ++ d41n ++ d41u ++ d42n ++ d42u)
     (repeat 2%nat (length d1n) ++ repeat 2%nat (length d1u) ++ repeat 3%nat (length d2n) ++ repeat 3%nat (length d2u) ++ repeat 0%nat (length d3) ++
      repeat 1%nat (length d41n) ++ repeat 1%nat (length d41u) ++ repeat 1%nat (length d42n) ++ repeat 1%nat (length d42u))) <-> drawn_point n zs us us2 c p); [|rewrite B; reflexivity].
  assert (L : forall (a : list (R * R)), repeat 1%nat (length a) = repeat 1%nat (length a) ++ []) by (intros; rewrite app_nil_r; reflexivity).
  assert (L2 : forall (a : list (R * R)), a = a ++ []) by (intros; rewrite app_nil_r; reflexivity).
  rewrite (L d42u), (L2 d42u) at 1. rewrite !in_combine_app. cbn [combine In].
  unfold d1n, d1u, d2n, d2u, d41n, d41u, d42n, d42u. rewrite !in_normal2, !in_uniform2. rewrite !dec_R. rewrite E23. unfold gd_norm, gd_unif, gd_norm23.
  assert (D3 : In p d3 <-> exists i, (i < n)%nat /\ p = turned (us2 i)).
  { unfold d3. rewrite map_map, in_map_iff. split.
    - intros (i&<-&H). apply in_seq in H. exists i. split; [lia|]. rewrite dec_R. rn. replace (5 / 10) with (1 / 2) by lra. apply (rotate_turned (us2 i)).
    - intros (i&H&->). exists i. split; [|apply in_seq; lia]. rewrite dec_R. rn. replace (5 / 10) with (1 / 2) by lra. apply (rotate_turned (us2 i)). }
  rewrite D3. rn. split.
  - intros H. repeat destruct H as [H|H]; try contradiction; destruct H as [(i&H&->) ->].
    + assert (E : scaled 0.5 0.9 0.33 0.05 (zs 0%nat i) = scaled (5 / 10) (9 / 10) (33 / 100) (5 / 100) (zs 0%nat i)) by (unfold scaled; f_equal; lra). rewrite <- E. apply UpperNormal; auto.
    + replace (0 + (1 - 0) * us 0%nat i, 8 / 10 + (1 - 8 / 10) * us 1%nat i) with (us 0%nat i, 0.8 + 0.2 * us 1%nat i) by (f_equal; lra). apply UpperEven; auto.
    + assert (E : scaled 0.9 0.5 0.05 0.33 (zs 1%nat i) = scaled (9 / 10) (5 / 10) (5 / 100) (33 / 100) (zs 1%nat i)) by (unfold scaled; f_equal; lra). rewrite <- E. apply RightNormal; auto.
    + replace (8 / 10 + (1 - 8 / 10) * us 2%nat i, 0 + (1 - 0) * us 3%nat i) with (0.8 + 0.2 * us 2%nat i, us 3%nat i) by (f_equal; lra). apply RightEven; auto.
    + apply Square; auto.
    + assert (E : scaled 0.5 0.1 0.33 0.05 (zs 2%nat i) = scaled (5 / 10) (1 / 10) (33 / 100) (5 / 100) (zs 2%nat i)) by (unfold scaled; f_equal; lra). rewrite <- E. apply LowerNormal; auto.
    + replace (0 + (1 - 0) * us 4%nat i, 0 + (2 / 10 - 0) * us 5%nat i) with (us 4%nat i, 0.2 * us 5%nat i) by (f_equal; lra). apply LowerEven; auto.
    + assert (E : scaled 0.1 0.5 0.05 0.33 (zs 3%nat i) = scaled (1 / 10) (5 / 10) (5 / 100) (33 / 100) (zs 3%nat i)) by (unfold scaled; f_equal; lra). rewrite <- E. apply LeftNormal; auto.
    + replace (0 + (2 / 10 - 0) * us 6%nat i, 0 + (1 - 0) * us 7%nat i) with (0.2 * us 6%nat i, us 7%nat i) by (f_equal; lra). apply LeftEven; auto.
  - intros H. destruct H as [i Hi|i Hi|i Hi|i Hi|i Hi|i Hi|i Hi|i Hi|i Hi].
    + left. split; [exists i; split; [auto|unfold scaled; f_equal; lra]|reflexivity].
    + do 1 right. left. split; [exists i; split; [auto|f_equal; lra]|reflexivity].
    + do 2 right. left. split; [exists i; split; [auto|unfold scaled; f_equal; lra]|reflexivity].
    + do 3 right. left. split; [exists i; split; [auto|f_equal; lra]|reflexivity].
    + do 4 right. left. split; [exists i; split; auto|reflexivity].
    + do 5 right. left. split; [exists i; split; [auto|unfold scaled; f_equal; lra]|reflexivity].
    + do 6 right. left. split; [exists i; split; [auto|f_equal; lra]|reflexivity].
    + do 7 right. left. split; [exists i; split; [auto|unfold scaled; f_equal; lra]|reflexivity].
    + do 8 right. left. split; [exists i; split; [auto|f_equal; lra]|reflexivity].
Qed.

(** ** smooth_clean *)
Lemma p_oob_errors : forall (ts : list (tree R)) oob X, ts <> [] ->
  (~ oob_rows oob (length ts) (length X) -> generate_oob_info ts oob X = Err IndexError) /\
  (X = [] -> oob_rows oob (length ts) (length X) -> generate_oob_info ts oob X = Err ValueError).
Proof.
  intros ts oob X NE. unfold generate_oob_info.
  assert (EX : existsb (fun q => existsb (fun o => Nat.leb (length X) o) (oob q)) (seq 0 (length ts)) = true <-> ~ oob_rows oob (length ts) (length X)).
  { rewrite existsb_exists. split.
    - intros (q&Hq&H) OR. apply existsb_exists in H. destruct H as (o&Ho&H). apply Nat.leb_le in H. apply in_seq in Hq. specialize (OR q o ltac:(lia) Ho). lia.
    - intros N. destruct (existsb (fun q => existsb (fun o => Nat.leb (length X) o) (oob q)) (seq 0 (length ts))) eqn:E; [apply existsb_exists; auto|].
      exfalso. apply N. intros q o Hq Ho. destruct (le_lt_dec (length X) o) as [G|G]; auto. exfalso.
      assert (C : existsb (fun q => existsb (fun o => Nat.leb (length X) o) (oob q)) (seq 0 (length ts)) = true); [|congruence].
      apply existsb_exists. exists q. split; [apply in_seq; lia|]. apply existsb_exists. exists o. split; auto. apply Nat.leb_le. auto. }
  split.
  - intros N. rewrite (proj2 EX N). reflexivity.
  - intros -> OR. destruct (existsb _ (seq 0 (length ts))); [exfalso; apply (proj1 EX eq_refl OR)|]. destruct ts; [congruence|]. reflexivity.
Qed.

Lemma p_clean_lengths : forall ts (o : clean_opts R) oob draws,
  Forall wf_tree ts -> ts <> [] -> matrices_exist (as_smooth o) ts -> k_X o <> [] ->
  oob_rows oob (length ts) (length (k_X o)) -> draws_ok (as_smooth o) -> k_sanity o = false ->
  (k_all_obs o = true \/ (k_n_obs o <= length (k_X o))%nat) ->
  ((k_all_obs o = true \/ k_use_full o = true) -> draws <> [] -> length (k_y o) <> length (k_X o) -> smooth_clean (Forest Reg ts) o oob draws = Err IndexError) /\
  (k_all_obs o = false -> k_use_full o = false -> forall d ds, draws = d :: ds -> d <> [] -> (forall i, In i d -> (i < length (k_X o))%nat) ->
     (exists i, In i d /\ (length (k_y o) <= i)%nat) -> smooth_clean (Forest Reg ts) o oob draws = Err IndexError).
Proof.
  intros ts o oob draws W NE ME NX OR DO SA NO. unfold smooth_clean.
  destruct (forest_matrices_total Reg (as_smooth o) ts W NE ME) as ([[G E] Ti]&HM). assert (HM2 : clean_matrices o ts = Ok (G, E, Ti)) by exact HM.
  rewrite HM2. cbn [bind]. destruct (leaves_of_ex ts (k_X o) W) as (lf&LV).
  destruct (oob_info_val ts oob (k_X o) lf W NE NX OR LV) as (idx&w&EI&LI&_). rewrite EI. cbn [bind].
  destruct (forest_matrices_mats Reg (as_smooth o) ts G E Ti W NE HM) as (K&sel&KP&M&_).
  destruct (ncols_mats _ _ _ _ _ _ _ W NE M) as (_&NC2&_). specialize (NC2 ltac:(cbn; lia)). cbv zeta. rewrite NC2, SA.
  pose proof M as M'. destruct M' as (LG&LE&_&LC&_). cbn in LG.
  assert (CG : concat G = nth 0 G []) by (destruct G as [|g0 [|]]; cbn in LG; try lia; cbn; apply app_nil_r).
  assert (LCG : length (concat G) = offset ts (length ts)) by (rewrite CG, <- LE; apply LC; cbn; lia).
  unfold stocastic_grad_descent_clean. cbn [c_Gamma]. rewrite NC2, clean_start_length, Nat.eqb_refl. cbn [negb].
  change (clean_start o K) with (initial_lamb Reg (as_smooth o) K).
  assert (CK : (negb (k_no_constraint o) && (negb (allclose1 (nsum (initial_lamb Reg (as_smooth o) K))) || existsb (fun x => nltb x n0) (initial_lamb Reg (as_smooth o) K)))%bool = false).
  { rewrite checks_pass, Bool.andb_false_r; auto; [apply start_simplex; auto|apply initial_lamb_nonneg; auto].
    unfold draws_ok in DO. unfold start_ok. destruct (o_lamb_draws (as_smooth o)); auto. apply DO. }
  rewrite CK.
  assert (NB : Nat.ltb (length idx) (if k_all_obs o then length (k_X o) else k_n_obs o) = false).
  { apply Nat.ltb_ge. rewrite LI. destruct (k_all_obs o); [lia|]. destruct NO as [NO|NO]; [discriminate|auto]. }
  split.
  - intros FU DN LY. destruct draws as [|d ds]; [contradiction|]. cbn [length seq combine foldM].
    unfold clean_step at 1. cbn [c_idx Nat.eqb cs_lamb]. rewrite NB.
    assert (FT : (k_all_obs o || k_use_full o)%bool = true) by (destruct FU as [->| ->]; [reflexivity|apply Bool.orb_true_r]). rewrite FT.
    unfold full_cost. cbn [c_Gamma c_eta c_idx c_w c_y].
    destruct (y_oob_forest ts oob (k_X o) lf idx w (concat G) E (seq 0 (length idx)) W NE OR LV EI LCG LE) with (lamb := initial_lamb Reg (as_smooth o) K) as (yo&ev&E1&L1&E2&_).
    { intros i Hi. apply in_seq in Hi. rewrite <- LI. lia. }
    { rewrite LI. destruct (k_X o); [congruence|discriminate]. }
    rewrite E1. cbn [bind]. unfold calc_cost_l2_straight. rewrite E2, map_length, seq_length.
    destruct (Nat.eqb_spec (length (k_y o)) (length idx)); [congruence|]. rewrite Bool.andb_false_r. reflexivity.
  - intros A1 A2 d ds -> DN DR (i&Hi&Li). cbn [length seq combine foldM].
    unfold clean_step at 1. cbn [c_idx Nat.eqb cs_lamb]. rewrite NB, A1, A2. cbn [orb].
    unfold part_cost. cbn [c_Gamma c_eta c_idx c_w c_y].
    destruct (y_oob_forest ts oob (k_X o) lf idx w (concat G) E d W NE OR LV EI LCG LE DR DN (initial_lamb Reg (as_smooth o) K)) as (yo&ev&E1&_).
    rewrite E1. cbn [bind].
    assert (TR : take_rows (k_y o) d = Err IndexError).
    { apply mapM_one_err.
      - intros x _. destruct (nth_error (k_y o) x); eauto.
      - exists i. split; auto. rewrite (proj2 (nth_error_None _ _) Li). reflexivity. }
    rewrite TR. reflexivity.
Qed.

(** responses beyond the observations are not looked at *)
Lemma take_rows_app : forall {A} (y e : list A) obs, (forall i, In i obs -> (i < length y)%nat) -> take_rows (y ++ e) obs = take_rows y obs.
Proof.
  intros A y e obs H. unfold take_rows. induction obs as [|i obs IH]; [reflexivity|]. cbn [mapM].
  rewrite nth_error_app1 by (apply H; left; auto). rewrite IH by (intros; apply H; right; auto). reflexivity.
Qed.
Lemma foldM_ext_in : forall {A B} (f g : A -> B -> result A) l a, (forall a x, In x l -> f a x = g a x) -> foldM f l a = foldM g l a.
Proof. intros A B f g. induction l as [|b l IH]; intros a H; [reflexivity|]. cbn [foldM]. rewrite H by (left; auto). destruct (g a b); cbn [bind]; auto. apply IH. intros. apply H. right. auto. Qed.
Lemma p_clean_extra : forall ts (o : clean_opts R) oob draws e, k_all_obs o = false -> k_use_full o = false ->
  (forall d i, In d draws -> In i d -> (i < length (k_y o))%nat) ->
  smooth_clean (Forest Reg ts) (with_y o (k_y o ++ e)) oob draws = smooth_clean (Forest Reg ts) o oob draws.
Proof.
  intros ts o oob draws e A1 A2 DR. unfold smooth_clean. change (clean_matrices (with_y o (k_y o ++ e)) ts) with (clean_matrices o ts).
  destruct (clean_matrices o ts) as [[[G E] Ti]|]; cbn [bind]; [|reflexivity]. change (k_X (with_y o (k_y o ++ e))) with (k_X o).
  destruct (generate_oob_info ts oob (k_X o)) as [[idx w]|]; cbn [bind]; [|reflexivity]. cbv zeta.
  cbn [with_y k_all_obs k_use_full k_X k_n_obs k_sanity k_y k_t_fix k_no_constraint k_adam]. rewrite A1, A2. cbn [orb].
  change (clean_start (with_y o (k_y o ++ e)) (ncols (concat G))) with (clean_start o (ncols (concat G))).
  destruct (k_sanity o); [reflexivity|]. f_equal. unfold stocastic_grad_descent_clean. cbn [c_Gamma].
  destruct (negb _); [reflexivity|]. destruct (_ && _)%bool; [reflexivity|].
  rewrite (foldM_ext_in _ (clean_step false (negb (k_no_constraint o)) (k_t_fix o) (k_adam o) {| c_Gamma := concat G; c_eta := E; c_idx := idx; c_w := w; c_y := k_y o |} (k_n_obs o))); [reflexivity|].
  intros st [s obs] Hx. apply in_combine_r in Hx.
  assert (TR : take_rows (k_y o ++ e) obs = take_rows (k_y o) obs) by (apply take_rows_app; intros i Hi; eapply DR; eauto).
  unfold clean_step, clean_move, part_cost, calc_l2_grad. cbn [c_Gamma c_eta c_idx c_w c_y]. rewrite !TR. reflexivity.
Qed.

(** ** levels *)
Lemma p_vt_no_observations : forall (ts : list (tree R)) dd, ts <> [] -> (forall v, dd = Some v -> (length ts <= length v)%nat) -> make_Vt_mat ts [] dd = Err ValueError.
Proof.
  intros ts dd NE H. destruct ts as [|t ts]; [congruence|]. unfold make_Vt_mat. cbn [length seq combine mapM]. destruct dd as [v|]; [|reflexivity].
  specialize (H v eq_refl). destruct v; cbn in H; [lia|]. reflexivity.
Qed.
