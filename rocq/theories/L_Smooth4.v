(** L_Smooth4: smooth returns on well-formed input; the second forest; unflattening. *)
From Verif Require Import Base TreeSpec Spec M_Tree M_Gamma M_Levels M_Prox M_Grad M_Sgd M_Smooth SpecSmooth.
From Verif Require Import L_Base L_Tree L_TreeModel L_Dist L_Gamma L_Gamma2 L_PropsTree L_Sgd L_Grad L_Sgd2 L_Levels L_Smooth L_Smooth2 L_Smooth3.
From Coq Require Import Reals Lra Lia.
Local Open Scope R_scope.

(** *** tuning data *)
Lemma mapM_total : forall {A B} (f : A -> result B) l, (forall x, In x l -> exists y, f x = Ok y) ->
  exists r, mapM f l = Ok r /\ length r = length l.
Proof.
  induction l as [|x l IH]; intros H; [exists []; auto|]. cbn [mapM]. destruct (H x (or_introl eq_refl)) as (y&->).
  cbn [bind]. destruct IH as (r&->&L); [intros; apply H; right; auto|]. cbn [bind]. exists (y :: r). cbn. auto.
Qed.
Lemma take_rows_total : forall {A} (l : list A) idx, (forall i, In i idx -> (i < length l)%nat) ->
  exists r, take_rows l idx = Ok r /\ length r = length idx.
Proof.
  intros A l idx H. apply mapM_total. intros i Hi. specialize (H i Hi). destruct (nth_error l i) eqn:E; eauto.
  apply nth_error_None in E. lia.
Qed.
Lemma take_rows_in : forall {A} (l : list A) idx r, take_rows l idx = Ok r ->
  forall i x, In i idx -> nth_error l i = Some x -> In x r.
Proof.
  intros A l idx. induction idx as [|i idx IH]; intros r H j x [].
  - subst. intros N. cbn in H. rewrite N in H. cbn [bind] in H. apply bind_ok in H. destruct H as (r'&_&E). inversion E. left; auto.
  - intros N. cbn in H. destruct (nth_error l i); [|discriminate]. cbn [bind] in H. apply bind_ok in H.
    destruct H as (r'&H1&E). inversion E. right. eauto.
Qed.
Lemma same_set_length : forall (a b : list R), NoDup a -> NoDup b -> (forall v, In v a <-> In v b) -> length a = length b.
Proof.
  intros a b NA NB H. apply Nat.le_antisymm; apply NoDup_incl_length; auto; intros v Hv; apply H; auto.
Qed.
Lemma good_tuning : forall kd (o : smooth_opts R) rd ts q, good_data kd o rd ts -> (q < length ts)%nat ->
  exists X Y, tuning_data kd o rd q = Ok (X, Y) /\ X <> [] /\ length Y = length X /\ forall r, In r Y -> length r = n_gamma kd.
Proof.
  intros kd o rd ts q [(RS&X&Y&HX&HY&NE&L&RW)|(OOB&X&y&HX&HY&L&S)] Hq; unfold tuning_data.
  - unfold oob_logic. rewrite RS, HX, HY. cbn. eauto 8.
  - assert (A : (oob_logic o || o_resample o)%bool = true).
    { unfold oob_logic. destruct (o_resample o), (o_X_tune o), (o_y_tune o); cbn; auto. intuition discriminate. }
    assert (EI : (if oob_logic o then r_oob rd q else r_boot rd q) = tune_sample o rd q).
    { unfold oob_logic, tune_sample. destruct (o_resample o), (o_X_tune o), (o_y_tune o); cbn; auto. intuition discriminate. }
    rewrite A, HX, HY, EI. destruct (S q Hq) as (NE&RG&CL).
    destruct (take_rows_total X (tune_sample o rd q) RG) as (Xr&E1&L1).
    destruct (take_rows_total y (tune_sample o rd q)) as (yr&E2&L2); [rewrite L; auto|].
    rewrite E1, E2. cbn [bind]. exists Xr, (response_rows kd yr). split; auto.
    split; [intro Z; subst; destruct (tune_sample o rd q); [congruence|cbn in L1; lia]|].
    destruct kd as [|nc]; cbn [response_rows].
    + split; [rewrite map_length; lia|]. intros r Hr. apply in_map_iff in Hr. destruct Hr as (v&<-&_). auto.
    + unfold get_dummies. split; [rewrite map_length; lia|]. intros r Hr. apply in_map_iff in Hr. destruct Hr as (v&<-&_).
      rewrite map_length. cbn [n_gamma]. destruct CL as (cs&ND&LC&IC). rewrite <- LC.
      apply same_set_length; auto; [apply sorted_set_nodup|].
      intros v'. rewrite (sorted_set_in yr v'), IC. destruct (take_rows_nth _ _ _ E2) as [_ V]. split; [auto|].
      intros (i&H1&H2). eapply take_rows_in; eauto.
Qed.
Lemma leaf_targets_total : forall nc (t : tree R) X Y, X <> [] -> length Y = length X -> (forall r, In r Y -> length r = nc) ->
  exists yl w, leaf_targets nc t X Y = Ok (yl, w) /\ length w = num_leaf t /\ length yl = num_leaf t.
Proof.
  intros nc t X Y NE L RW. unfold leaf_targets, obs_V_leaf. destruct X as [|x X]; [congruence|]. cbn [bind].
  rewrite L, Nat.eqb_refl. cbn [negb].
  assert (F : forallb (fun r => Nat.eqb (length r) nc) Y = true).
  { apply forallb_forall. intros r Hr. apply Nat.eqb_eq. auto. }
  rewrite F. cbn [negb]. eexists _, _. split; [reflexivity|]. unfold transpose.
  rewrite map_length, map2_length. unfold fill1. rewrite !map_length, seq_length. split; lia.
Qed.
Lemma targets_total : forall kd (o : smooth_opts R) rd ts, good_data kd o rd ts -> exists Y W, all_targets kd o rd ts = Ok (Y, W).
Proof.
  intros kd o rd ts GD. unfold all_targets.
  assert (X : forall l, (forall it, In it l -> (fst it < length ts)%nat) -> forall acc, exists r, foldM (add_targets kd o rd) l acc = Ok r).
  { induction l as [|it l IH]; intros H acc; [cbn; eauto|]. cbn [foldM].
    destruct (good_tuning kd o rd ts (fst it) GD) as (X&Y&E&NE&L&RW); [apply H; left; auto|].
    unfold add_targets at 1. rewrite E. cbn [bind].
    destruct (leaf_targets_total (n_gamma kd) (snd it) X Y NE L RW) as (yl&w&E2&_). rewrite E2. cbn [bind].
    apply IH. intros; apply H; right; auto. }
  destruct (X (combine (seq 0 (length ts)) ts)) with (acc := (@nil (list R), @nil R)) as ([Y W]&E); [|eauto].
  intros [a b] H. apply in_combine_l in H. apply in_seq in H. cbn. lia.
Qed.

(** *** starting weights *)
Lemma nsum_ge_first : forall (l : list R), (forall x, In x l -> 0 <= x) -> nth 0 l 0 <= nsum l.
Proof.
  intros [|a l] H; [cbn; rewrite nsum_nil; lra|]. rewrite nsum_cons. cbn [nth].
  assert (0 <= nsum l); [|lra]. rewrite <- (map_id l). apply nsum_nonneg. intros; apply H; right; auto.
Qed.
Lemma start_simplex : forall kd (o : smooth_opts R) K, (0 < K)%nat -> draws_ok o -> (kd = Reg \/ 0 <= o_class_eps o) ->
  nsum (initial_lamb kd o K) = 1.
Proof.
  intros kd o K KP DO EP.
  set (l0 := match o_lamb_draws o with None => upd (repeat n0 K) 0 n1 | Some u => normalise (map u (seq 0 K)) end).
  assert (H0 : nsum l0 = 1 /\ length l0 = K).
  { unfold l0, draws_ok in *. destruct (o_lamb_draws o) as [u|].
    - destruct DO as [A B]. split; [|rewrite normalise_length, map_length, seq_length; auto]. apply normalise_sum.
      assert (u 0%nat <= nsum (map u (seq 0 K))); [|lra].
      replace (u 0%nat) with (nth 0 (map u (seq 0 K)) 0) by (destruct K; [lia|reflexivity]).
      apply nsum_ge_first. intros x Hx. apply in_map_iff in Hx. destruct Hx as (k&<-&_). auto.
    - split; [rn; apply nsum_unit; auto|]. rewrite upd_length, repeat_length. auto. }
  destruct H0 as [S1 L0]. unfold initial_lamb. fold l0. destruct kd as [|nc]; auto.
  destruct EP as [EP|EP]; [discriminate|]. rn. set (l1 := map (fun x => x + 1 * o_class_eps o / INR (length l0)) l0).
  assert (SL : nsum l1 = 1 + o_class_eps o).
  { unfold l1. rewrite nsum_map_plus_const, S1, L0. field. apply not_0_INR. lia. }
  rewrite (normalise_one (normalise l1)); apply normalise_sum; lra.
Qed.

(** *** the tuning problem *)
Lemma sum_sel_pos_zero : forall n sel (f g : nat -> R), (forall j, (j < n)%nat -> 0 < f j) ->
  0 <= sum_sel n sel f /\ (sum_sel n sel f = 0 -> sum_sel n sel g = 0).
Proof.
  unfold sum_sel. induction n as [|n IH]; intros sel f g H; cbn [sumto]; [split; intros; lra|].
  destruct (IH sel f g) as [A B]; [intros; apply H; lia|]. specialize (H n ltac:(lia)).
  destruct (sel n); split; intros; try lra; rewrite B by lra; lra.
Qed.
Lemma flatten_ok : forall kd (o : smooth_opts R) ts K sel G E Ti Y W, mats kd ts K sel G E Ti -> Forall pos_leaves ts ->
  problem_ok K (flatten kd o G E Ti Y W).
Proof.
  intros kd o ts K sel G E Ti Y W M PL. unfold problem_ok, flatten. cbn [p_Gamma p_eta].
  pose proof M as (LG&LE&_&LC&V).
  pose proof (concat_G_len kd ts K sel G E Ti M) as LCG.
  split; [rewrite LCG, length_concat_repeat; auto|].
  intros ge H. destruct (In_nth _ _ ([], []) H) as (row&Hrow&<-).
  rewrite combine_length, LCG, length_concat_repeat, Nat.min_id in Hrow.
  rewrite combine_nth by (rewrite LCG, length_concat_repeat; auto).
  set (n := length E) in *. assert (NP : n <> 0%nat) by nia.
  pose proof (Nat.div_mod row n NP) as DM. set (c := (row / n)%nat) in *. set (r := (row mod n)%nat) in *.
  assert (Hr : (r < n)%nat) by (apply Nat.mod_upper_bound; auto).
  assert (Hc : (c < n_gamma kd)%nat) by (apply Nat.div_lt_upper_bound; nia).
  replace row with (c * n + r)%nat by nia.
  unfold n. rewrite (concat_G_nth kd ts K sel G E Ti M c r Hc Hr). rewrite nth_concat_repeat by auto.
  destruct (mats_rows kd ts K sel G E Ti M r Hr) as (q&t&i&N&Hi&ER).
  destruct (V q t N i Hi) as (_&_&L1&VE&VG). rewrite <- ER in *. destruct (VG c Hc) as [L2 VG'].
  rewrite Forall_forall in PL. pose proof (PL t (nth_error_In _ _ N)) as P1.
  unfold row_ok. cbn [fst snd]. split; auto. split; auto.
  assert (X : forall k, (k < K)%nat -> 0 <= nth k (nth r E []) 0 /\ (nth k (nth r E []) 0 = 0 -> nth k (nth r (nth c G []) []) 0 = 0)).
  { intros k Hk. rewrite VE, VG' by auto. apply sum_sel_pos_zero. auto. }
  split; intros k; destruct (Nat.lt_ge_cases k K) as [Hk|Hk].
  - apply X; auto.
  - rewrite nth_overflow by lia. lra.
  - apply X; auto.
  - intros _. apply nth_overflow. lia.
Qed.

(** *** smooth returns *)
Lemma smooth_returns : forall lg kd ts (o : smooth_opts R) rd m, (0 < n_gamma kd)%nat ->
  Forall (@wf_tree R) ts -> Forall pos_leaves ts -> ts <> [] ->
  good_data kd o rd ts -> draws_ok o -> (kd = Reg \/ 0 <= o_class_eps o) ->
  o_no_constraint o = false ->
  (kd = Reg \/ o_class_loss o = L2 \/ o_sanity o = true) ->
  forest_matrices kd o ts = Ok m ->
  exists out, smooth lg (Forest kd ts) o rd = Ok out.
Proof.
  intros lg kd ts o rd [[G E] Ti] NG W PL NE GD DO EP NC LC FM.
  destruct (targets_total kd o rd ts GD) as (Y&W0&AT).
  destruct (forest_matrices_mats kd o ts G E Ti W NE FM) as (K&sel&KP&M&_).
  destruct (ncols_mats kd ts K sel G E Ti W NE M) as (NC1&NC2&NE2). specialize (NC2 ltac:(lia)).
  unfold smooth.
  assert (A : ((oob_logic o || o_resample o) && (isNone (o_X_trained o) || isNone (o_y_trained o)))%bool = false).
  { destruct GD as [(RS&X1&Y1&HX&HY&_)|(_&X1&Y1&HX&HY&_)].
    - unfold oob_logic. rewrite RS, HX, HY. reflexivity.
    - rewrite HX, HY. apply andb_false_r. }
  rewrite A. replace (match kd with Reg => false | Class _ => o_no_constraint o end) with false by (destruct kd; auto).
  rewrite FM. cbn [bind]. rewrite AT. cbn [bind]. rewrite NC1.
  set (P := flatten kd o G E Ti Y W0).
  assert (S2 : start_ok o) by (unfold start_ok, draws_ok in *; destruct (o_lamb_draws o); tauto).
  assert (OP : exists l ll c, optimise lg kd o rd P (initial_lamb kd o K) = Ok (l, ll, c)).
  { unfold optimise. destruct (o_sanity o) eqn:SA; [eauto|].
    assert (X : exists r, stocastic_grad_descent P (initial_lamb kd o K) (o_t_fix o) (negb (o_no_constraint o)) (o_adam o) (r_draws rd) = Ok r).
    { rewrite NC. cbn [negb]. apply sgd_total.
      - rewrite initial_lamb_length. unfold P. eapply flatten_ok; eauto.
      - rewrite initial_lamb_length. unfold P. cbn [p_Gamma flatten]. auto.
      - unfold P. cbn [p_tidx flatten]. destruct M as (_&_&LT&_). destruct (n_gamma kd); [lia|]. cbn [repeat concat].
        destruct E; [congruence|]. cbn [length] in LT. destruct Ti; [cbn in LT; lia|]. destruct (o_all_trees o); discriminate.
      - apply start_simplex; auto.
      - apply initial_lamb_nonneg; auto. }
    destruct X as ([[l ll] c]&X). destruct kd; [eauto|]. destruct (o_class_loss o); [|eauto].
    destruct LC as [LC|[LC|LC]]; discriminate. }
  destruct OP as (l&ll&c&->). cbn [bind].
  assert (LU : forall f : list R, length (unflatten (n_gamma kd) (length E) f) = offset ts (length ts)).
  { intros f. rewrite unflatten_length. destruct M as (_&LE&_). auto. }
  set (Y1 := unflatten (n_gamma kd) (length E) (new_values (p_Gamma P) (p_eta P) l)).
  set (Y2 := unflatten (n_gamma kd) (length E) (new_values (p_Gamma P) (p_eta P) ll)).
  destruct (write_forest_ok Y1 ts 0 W) as (f1&->&_); [unfold Y1; rewrite LU; lia|]. cbn [bind].
  destruct (write_forest2_ok Y2 ts W) as (f2&->&_).
  { intros t Ht. unfold Y2. rewrite LU. destruct (In_nth_error _ _ Ht) as (q&N).
    destruct M as (_&LE&_&_&V). pose proof (n_leaves_pos t (proj1 (Forall_forall _ ts) W t Ht)) as LP.
    destruct (V q t N (n_leaves t - 1)%nat ltac:(lia)) as (HB&_). lia. }
  cbn [bind]. eauto.
Qed.

(** *** impurity levels exist *)
Lemma find_zero_spec : forall (l : list (ext R)) k i, find_zero l k = Some i ->
  exists j, i = (k + j)%nat /\ exists x, nth_error l j = Some (Fin x).
Proof.
  induction l as [|b l IH]; intros k i H; [discriminate|]. cbn [find_zero] in H.
  destruct b as [|x|]; cbn [is_zero] in H.
  - destruct (IH _ _ H) as (j&->&X). exists (S j). split; [lia|auto].
  - destruct (neqb x n0); [inversion H; subst; exists 0%nat; split; [lia|]; exists x; auto|].
    destruct (IH _ _ H) as (j&->&X). exists (S j). split; [lia|auto].
  - destruct (IH _ _ H) as (j&->&X). exists (S j). split; [lia|auto].
Qed.
Lemma final_breaks_total : forall (br : list R) u, (exists x, In x br /\ x <> 0) -> exists b, final_breaks br u = Ok b.
Proof.
  intros br u (x&Hx&NZ). unfold final_breaks.
  assert (LO : (1 < length (open_breaks br))%nat).
  { unfold open_breaks. rewrite !upd_length, map_length. rn.
    assert (ND : NoDup [x; 0]) by (constructor; [intros [E|[]]; auto|constructor; [intros []|constructor]]).
    apply (NoDup_incl_length ND). intros v [<-|[<-|[]]]; apply (sorted_set_in (br ++ [0])); apply in_or_app; [left; auto|right; left; auto]. }
  destruct (open_breaks_shape br LO) as (mid&E).
  assert (LW : (S (which_zero (open_breaks br)) < length (open_breaks br))%nat).
  { unfold which_zero. destruct (find_zero (open_breaks br) 0) as [i|] eqn:F; [|lia].
    destruct (find_zero_spec _ _ _ F) as (j&->&y&N). cbn [Nat.add].
    assert (HJ : (j < length (open_breaks br))%nat) by (apply nth_error_Some; congruence).
    rewrite E in *. cbn [length] in *. rewrite app_length in *. cbn [length] in *.
    destruct (Nat.eq_dec j (S (length mid))) as [->|]; [|lia]. exfalso.
    cbn [nth_error] in N. rewrite nth_error_app2, Nat.sub_diag in N by lia. discriminate. }
  destruct (nth_error (open_breaks br) (S (which_zero (open_breaks br)))) eqn:N; [|apply nth_error_None in N; lia].
  destruct (ext_ltb _ _); eauto.
Qed.
Lemma upper_zero_total : forall vals : list R, (exists x, In x vals /\ 0 < x) -> exists u, upper_zero vals = Ok u.
Proof.
  intros vals (x&Hx&P). unfold upper_zero. rn.
  assert (F : In x (filter (fun x => Rltb 0 x) vals)) by (apply filter_In; split; auto; destruct (Rltb_spec 0 x); auto; lra).
  destruct (filter (fun x => Rltb 0 x) vals) as [|a l] eqn:E; [destruct F|]. unfold nminimum. cbn [bind]. eauto.
Qed.
Lemma levels_total : forall s arr (t : tree R) Dm m i j, wf_tree t -> impurity_dist_leaves s t = Ok (Dm, m) ->
  (i < n_leaves t)%nat -> (j < n_leaves t)%nat -> 0 < nth j (nth i Dm []) 0 -> (exists x, In x arr /\ x <> 0) ->
  exists D e, impurity_levels s (LArr arr) t = Ok (D, e).
Proof.
  intros s arr t Dm m i j WF HD Hi Hj P A. destruct (p_C06 t s WF) as (Dm'&m'&ED&LD&LR&_).
  assert (Dm' = Dm) by congruence. subst Dm'.
  unfold impurity_levels. assert (ES : style_num s (standard_impurity t) = Dm).
  { unfold impurity_dist_leaves in HD. apply bind_ok in HD. destruct HD as (m0&_&E). inversion E; auto. }
  rewrite ES. unfold discretise. cbn [bind].
  destruct (upper_zero_total (concat Dm)) as (u&->).
  { exists (nth j (nth i Dm []) 0). split; auto. apply in_concat. exists (nth i Dm []). split; apply nth_In; [lia|rewrite LR; auto]. }
  cbn [bind]. destruct (final_breaks_total arr u A) as (b&->). cbn [bind]. eauto.
Qed.

Lemma insert_asc_len : forall (x : R) l, length (insert_asc x l) = S (length l).
Proof. induction l as [|y l IH]; auto. cbn [insert_asc]. destruct (nltb y x); cbn [length]; auto. Qed.
Lemma insert_asc_max : forall (x : R) l, (forall y, In y l -> y <= last l 0) -> forall y, In y (insert_asc x l) -> y <= last (insert_asc x l) 0.
Proof.
  induction l as [|a l IH]; intros H y Hy.
  - cbn in *. destruct Hy as [->|[]]. lra.
  - cbn [insert_asc] in *. rn. destruct (Rltb_spec a x) as [L|L].
    + assert (NE : insert_asc x l <> []) by (intro E; apply (f_equal (@length R)) in E; rewrite insert_asc_len in E; discriminate).
      assert (EL : last (a :: insert_asc x l) 0 = last (insert_asc x l) 0) by (destruct (insert_asc x l); [congruence|reflexivity]).
      rewrite EL. assert (IHl : forall y, In y l -> y <= last l 0).
      { intros z Hz. specialize (H z (or_intror Hz)). destruct l; [destruct Hz|]. exact H. }
      specialize (IH IHl). destruct Hy as [<-|Hy]; auto.
      assert (In x (insert_asc x l)); [|specialize (IH x H0); lra].
      clear. induction l as [|b l IH]; [left; auto|]. cbn [insert_asc]. destruct (nltb b x); [right; auto|left; auto].
    + change (last (x :: a :: l) 0) with (last (a :: l) 0). destruct Hy as [<-|Hy]; auto.
      specialize (H a (or_introl eq_refl)). lra.
Qed.
Lemma sort_asc_max : forall (l : list R) y, In y l -> y <= last (sort_asc l) 0.
Proof.
  intros l y Hy. assert (X : forall y, In y (sort_asc l) -> y <= last (sort_asc l) 0).
  { clear. induction l as [|x l IH]; [intros y []|]. unfold sort_asc in *. cbn [fold_right]. apply insert_asc_max. auto. }
  apply X. clear X. induction l as [|x l IH]; [destruct Hy|]. unfold sort_asc in *. cbn [fold_right].
  assert (A : forall m : list R, incl (x :: m) (insert_asc x m)).
  { clear. induction m as [|b m IH]; intros z Hz; [exact Hz|]. cbn [insert_asc]. destruct (nltb b x); [|exact Hz].
    destruct Hz as [<-|[<-|Hz]]; [right; apply IH; left; auto|left; auto|right; apply IH; right; auto]. }
  apply A. destruct Hy as [<-|Hy]; [left; auto|right; auto].
Qed.
Lemma last_nth : forall (l : list R), last l 0 = nth (length l - 1) l 0.
Proof.
  induction l as [|a l IH]; auto. destruct l as [|b l]; auto.
  change (last (a :: b :: l) 0) with (last (b :: l) 0). rewrite IH. cbn [length]. replace (S (S (length l)) - 1)%nat with (S (S (length l) - 1)) by lia. reflexivity.
Qed.
Lemma quantiles_positive : forall n (a : list R), (0 < n)%nat -> (exists x, In x a /\ 0 < x) ->
  exists q, quantiles n a = Ok q /\ exists x, In x q /\ x <> 0.
Proof.
  intros n a NP (x&Hx&P). unfold quantiles. destruct n as [|n]; [lia|]. eexists. split; [reflexivity|].
  exists (nth (length (sort_asc a) - 1) (sort_asc a) 0). split.
  - apply in_map_iff. exists (S n). split; [|apply in_seq; lia].
    rewrite (Nat.mul_comm (S n)), Nat.div_mul, Nat.mod_mul by lia. rn. cbn [INR]. unfold Rdiv. rewrite !Rmult_0_l. lra.
  - rewrite <- last_nth. pose proof (sort_asc_max a x Hx). lra.
Qed.

Lemma forest_matrices_total : forall kd (o : smooth_opts R) ts, Forall (@wf_tree R) ts -> ts <> [] -> matrices_exist o ts ->
  exists m, forest_matrices kd o ts = Ok m.
Proof.
  intros kd o ts W NE ME. unfold forest_matrices, matrices_exist in *. destruct (o_dist o) as [pa|lv].
  - destruct (depth_mats kd pa (o_style o) ts W) as (G&E&Ti&E0&_). eauto.
  - destruct ME as [ML MD]. pose proof (proj1 (Forall_forall _ ts) W) as W'.
    assert (X : forall arr, (exists x, In x arr /\ x <> 0) -> exists r, create_Gamma_eta_forest_imp kd (o_style o) (LArr arr) ts = Ok r).
    { intros arr A. apply imp_forest_ok; auto. intros t Ht. destruct (p_C06 t (o_style o) (W' t Ht)) as (Dm&m&ED&_).
      destruct (MD t Dm m Ht ED) as (i&j&Hi&Hj&P). apply (levels_total (o_style o) arr t Dm m i j); auto. }
    destruct lv as [n|arr]; [|auto].
    destruct (quantiles_positive n (flat_map (fun t => concat (style_num (o_style o) (standard_impurity t))) (firstn 5 ts)) ML)
      as (arr&EQ&A).
    { destruct ts as [|t ts]; [congruence|]. assert (Ht : In t (t :: ts)) by (left; auto).
      destruct (p_C06 t (o_style o) (W' t Ht)) as (Dm&m&ED&LD&LR&_). destruct (MD t Dm m Ht ED) as (i&j&Hi&Hj&P).
      exists (nth j (nth i Dm []) 0). split; auto. apply in_flat_map. exists t. split; [left; auto|].
      unfold impurity_dist_leaves in ED. apply bind_ok in ED. destruct ED as (m0&_&E). inversion E; subst Dm.
      apply in_concat. exists (nth i (style_num (o_style o) (standard_impurity t)) []). split; apply nth_In; [lia|rewrite LR; auto]. }
    destruct (X arr A) as (r&Hr). exists r. unfold create_Gamma_eta_forest_imp in *. unfold quantiles_distance_trees.
    rewrite EQ. exact Hr.
Qed.

Lemma p_C65 : forall lg kd ts (o : smooth_opts R) rd, (0 < n_gamma kd)%nat ->
  Forall (@wf_tree R) ts -> Forall pos_leaves ts -> ts <> [] ->
  good_data kd o rd ts -> draws_ok o -> (kd = Reg \/ 0 <= o_class_eps o) -> o_no_constraint o = false ->
  (kd = Reg \/ o_class_loss o = L2 \/ o_sanity o = true) -> matrices_exist o ts ->
  exists out, smooth lg (Forest kd ts) o rd = Ok out.
Proof.
  intros. destruct (forest_matrices_total kd o ts) as (m&M); auto. eapply smooth_returns; eauto.
Qed.

(** *** the second forest *)
Lemma p_C29 : forall lg kd ts (o : smooth_opts R) rd out, smooth lg (Forest kd ts) o rd = Ok out ->
  Forall (@wf_tree R) ts -> ts <> [] ->
  s_lamb2 out = s_lamb_last out /\
  forall q t, nth_error ts q = Some t -> exists t', nth_error (s_forest2 out) q = Some t' /\
    forall i, (i < n_leaves t)%nat ->
      exists q0 t0 i0 kap, nth_error ts q0 = Some t0 /\ (i0 < n_leaves t0)%nat /\ i = (offset ts q0 + i0)%nat /\
       smooth_kernel o ts t0 (s_lamb_last out) i0 kap /\
       forall c, (c < n_gamma kd)%nat -> leaf_v t' c i = kmean t0 kd kap c.
Proof.
  intros lg kd ts o rd out H W NE. destruct (smooth_desc lg kd ts o rd out H W NE) as (_&_&E2&_&_&_&D2).
  split; auto. intros q t N. destruct (D2 q t N) as (t'&N'&S&V). exists t'. split; auto. intros i Hi.
  destruct (V i Hi) as (_&q0&t0&i0&kap&A1&A2&A3&A4&A5). exists q0, t0, i0, kap. repeat (split; [solve [auto]|]).
  intros c Hc. unfold leaf_v. destruct (same_leaf_id t t' i S) as [-> _]. auto.
Qed.
Lemma p_C29_single : forall lg kd t (o : smooth_opts R) rd out, smooth lg (Forest kd [t]) o rd = Ok out -> wf_tree t ->
  exists t', s_forest2 out = [t'] /\ same_but_leaf_values t t' /\
    forall i, (i < n_leaves t)%nat -> exists kap, smooth_kernel o [t] t (s_lamb_last out) i kap /\
      forall c, (c < n_gamma kd)%nat -> leaf_v t' c i = kmean t kd kap c.
Proof.
  intros lg kd t o rd out H WF. assert (W : Forall (@wf_tree R) [t]) by (constructor; auto).
  destruct (smooth_desc lg kd [t] o rd out H W ltac:(discriminate)) as (_&_&_&_&L2&_&D2).
  destruct (D2 0%nat t eq_refl) as (t'&N'&S&V). exists t'. split.
  { destruct (s_forest2 out) as [|a [|b l]]; cbn in *; try lia. congruence. }
  split; auto. intros i Hi. destruct (V i Hi) as (_&q0&t0&i0&kap&A1&A2&A3&A4&A5).
  destruct q0 as [|[|q0]]; try discriminate. inversion A1; subst t0. change (offset [t] 0) with 0%nat in A3. cbn in A3. subst i0.
  exists kap. split; auto. intros c Hc. unfold leaf_v. destruct (same_leaf_id t t' i S) as [-> _]. auto.
Qed.

(** *** levels *)
Lemma p_C64 : forall s lv (t : tree R) D e, wf_tree t -> impurity_levels s lv t = Ok (D, e) ->
  exists Dm m, impurity_dist_leaves s t = Ok (Dm, m) /\ length D = n_leaves t /\
  (forall i, (i < n_leaves t)%nat -> length (nth i D []) = n_leaves t) /\
  (forall i j, (i < n_leaves t)%nat -> (j < n_leaves t)%nat -> (0 <= nth j (nth i D []) 0 <= Z.of_nat e - 2)%Z) /\
  (forall i j i' j', (i < n_leaves t)%nat -> (j < n_leaves t)%nat -> (i' < n_leaves t)%nat -> (j' < n_leaves t)%nat ->
     nth j (nth i Dm []) 0 <= nth j' (nth i' Dm []) 0 -> (nth j (nth i D []) 0 <= nth j' (nth i' D []) 0)%Z).
Proof.
  intros s lv t D e WF H. destruct (levels_spec s lv t D e WF H) as (Dm&m&A1&A2&A3&A4&A5&_). exists Dm, m. auto.
Qed.
Lemma p_C64_zero : forall s (l : list R) (t : tree R) D e Dm m, wf_tree t -> impurity_levels s (LArr l) t = Ok (D, e) ->
  impurity_dist_leaves s t = Ok (Dm, m) -> (forall x, In x l -> 0 <= x) ->
  (forall i j, (i < n_leaves t)%nat -> (j < n_leaves t)%nat -> (nth j (nth i D []) 0%Z = 0%Z <-> nth j (nth i Dm []) 0 <= 0)) /\
  (forall i, (i < n_leaves t)%nat -> nth i (nth i D []) 0%Z = 0%Z).
Proof.
  intros s l t D e Dm m WF H HD L. destruct (levels_spec s (LArr l) t D e WF H) as (Dm'&m'&A1&_&_&_&_&A6).
  assert (Dm' = Dm) by congruence. subst Dm'. split; [apply A6; auto|]. intros i Hi. apply A6; auto.
  destruct (p_C06 t s WF) as (Dm2&m2&ED&_&_&_&DG&_). assert (Dm2 = Dm) by congruence. subst Dm2. rewrite DG by auto. lra.
Qed.

(** *** more *)
Lemma p_C12_start : forall (lg : R -> R) nc ts (o : smooth_opts R) rd out, smooth lg (Forest (Class nc) ts) o rd = Ok out ->
  Forall (@wf_tree R) ts -> ts <> [] -> o_sanity o = true -> o_lamb_draws o = None -> 1 + o_class_eps o <> 0 ->
  exists K, (0 < K)%nat /\ length (s_lamb out) = K /\ s_lamb_last out = s_lamb out /\
  forall k, (k < K)%nat -> nth k (s_lamb out) 0 = ((if Nat.eqb k 0 then 1 else 0) + o_class_eps o / INR K) / (1 + o_class_eps o).
Proof.
  intros lg nc ts o rd out H W NE SA SD NZ. destruct (sanity_start lg _ ts o rd out H W NE SA) as (K&KP&E1&E2&_).
  exists K. split; auto. rewrite E1, E2, initial_lamb_length. split; auto. split; auto. intros. apply class_start; auto.
Qed.
Lemma kmean_range_nz : forall (t : tree R) kap lo hi, pos_leaves t -> (forall j, (j < n_leaves t)%nat -> 0 <= kap j) ->
  (forall j, (j < n_leaves t)%nat -> lo <= leaf_v t 0 j <= hi) ->
  kmass t kap <> 0 -> lo <= kmean t Reg kap 0 <= hi.
Proof.
  intros t kap lo hi PL NN B NZ. destruct (kmean_range t kap lo hi PL NN B) as [A|[_ A]]; auto. exfalso. apply NZ.
  unfold kmass. apply sumto_zero. intros j Hj. rewrite A by auto. ring.
Qed.
Lemma p_C22_data : forall (lg : R -> R) nc ts (o : smooth_opts R) rd,
  o_class_loss o = CE -> o_sanity o = false -> r_draws rd <> [] -> (0 < nc)%nat ->
  Forall (@wf_tree R) ts -> ts <> [] -> o_no_constraint o = false -> good_data (Class nc) o rd ts -> matrices_exist o ts ->
  smooth lg (Forest (Class nc) ts) o rd = Err AssertionError.
Proof.
  intros lg nc ts o rd LC SA DR NP WT NE NC GD ME.
  destruct (forest_matrices_total (Class nc) o ts WT NE ME) as ([[G E] Ti]&FM).
  destruct (targets_total _ o rd ts GD) as (Y&W&AT). unfold smooth.
  assert (A : ((oob_logic o || o_resample o) && (isNone (o_X_trained o) || isNone (o_y_trained o)))%bool = false).
  { destruct GD as [(RS&X1&Y1&HX&HY&_)|(_&X1&Y1&HX&HY&_)].
    - unfold oob_logic. rewrite RS, HX, HY. reflexivity.
    - rewrite HX, HY. apply andb_false_r. }
  rewrite A, NC, FM. cbn [bind]. rewrite AT. cbn [bind].
  destruct (forest_matrices_mats _ o ts G E Ti WT NE FM) as (K&sel&KP&M&_).
  destruct (ncols_mats _ _ _ _ _ _ _ WT NE M) as (NC1&NC2&NE2).
  unfold optimise. rewrite SA, LC, NC. cbn [negb]. rewrite sgd_ce_fails; auto.
  - cbn [p_Gamma flatten]. rewrite initial_lamb_length, NC1. apply NC2. cbn. lia.
  - cbn [p_tidx flatten n_gamma]. destruct M as (_&_&LT&_). destruct nc; [lia|]. cbn [repeat concat].
    destruct E; [congruence|]. cbn [length] in LT. destruct Ti; [cbn in LT; lia|].
    destruct (o_all_trees o); discriminate.
Qed.
Lemma p_C28_unflatten : forall nc rows (f : list R) r c, (r < rows)%nat -> (c < nc)%nat ->
  length (unflatten nc rows f) = rows /\ length (nth r (unflatten nc rows f) []) = nc /\
  nth c (nth r (unflatten nc rows f) []) 0 = nth (c * rows + r) f 0.
Proof.
  intros. split; [apply unflatten_length|]. split; [apply unflatten_row_length; auto|apply unflatten_nth; auto].
Qed.
