(** L_Main: lemmas about the experiment scripts. *)
From Verif Require Import Base TreeSpec M_Tree M_Gamma M_Levels M_Prox M_Grad M_Sgd M_Smooth M_Depth M_Main Spec SpecMain.
From Verif Require Import L_Base L_Tree L_TreeModel L_Route L_Gamma2 L_Sgd L_Depth.
From Coq Require Import Reals Lia Lra Sorted.
Local Open Scope R_scope.

(** ** Searches *)
Section Search.
Variable score : nat -> R.
Let f (d : nat) : R := 1 - score d.

Lemma search_inv : forall range bd bs cost, exists bd' bs',
  fold_left (search_step score) range (bd, bs, cost) = (bd', bs', cost ++ map f range) /\
  ((bd' = bd /\ bs' = bs /\ (range = [] \/ exists b, bs = Some b /\ forall x, In x range -> b <= f x)) \/
   exists d, bd' = Some d /\ bs' = Some (f d) /\ first_best f range d /\ (forall b, bs = Some b -> f d < b)).
Proof.
  induction range as [|x range IH]; intros bd bs cost.
  - exists bd, bs. split; [cbn; rewrite app_nil_r; auto|]. left. auto.
  - cbn [fold_left]. unfold search_step at 2. change (@nsub R _ n1 (score x)) with (f x).
    set (better := match bs with None => true | Some b => nltb (f x) b end).
    assert (Hb : better = true -> forall b, bs = Some b -> f x < b).
    { unfold better. intros Hb b ->. change (@nltb R _ (f x) b) with (Rltb (f x) b) in Hb. destruct (Rltb_spec (f x) b); [auto|discriminate]. }
    assert (Hn : better = false -> exists b, bs = Some b /\ b <= f x).
    { unfold better. destruct bs as [b|]; [|discriminate]. intros Hb'. exists b. split; auto.
      change (@nltb R _ (f x) b) with (Rltb (f x) b) in Hb'. destruct (Rltb_spec (f x) b); [discriminate|auto]. }
    destruct (IH (if better then Some x else bd) (if better then Some (f x) else bs) (cost ++ [f x])) as (bd'&bs'&E&C).
    exists bd', bs'. split; [rewrite E, <- app_assoc; auto|].
    destruct C as [(E1&E2&C)|(d&E1&E2&(l1&l2&Er&F1&F2)&C)].
    + destruct better eqn:B.
      * right. exists x. split; auto. split; auto. split; [|auto]. exists [], range. split; auto. split; [intros ? []|].
        intros y Iy. destruct C as [->|(b&Eb&C)]; [destruct Iy|]. assert (b = f x) by congruence. subst b. auto.
      * left. split; auto. split; auto. right. destruct (Hn eq_refl) as (b&Eb&Lb). exists b. split; auto.
        intros y [<-|Iy]; auto. destruct C as [->|(b'&Eb'&C)]; [destruct Iy|]. assert (b' = b) by congruence. subst b'. auto.
    + right. exists d. split; auto. split; auto. subst range. destruct better eqn:B.
      * specialize (C (f x) eq_refl). split; [|intros b Eb; specialize (Hb eq_refl b Eb); lra].
        exists (x :: l1), l2. split; auto. split; auto. intros y [<-|Iy]; auto.
      * split; auto. exists (x :: l1), l2. split; auto. split; auto. intros y [<-|Iy]; auto.
        destruct (Hn eq_refl) as (b&Eb&Lb). specialize (C b Eb). lra.
Qed.
Lemma search_start : forall range, exists bd bs, fold_left (search_step score) range (None, None, []) = (bd, bs, map f range) /\
  match range with
  | [] => bd = None /\ bs = None
  | _ => exists d, bd = Some d /\ bs = Some (f d) /\ first_best f range d
  end.
Proof.
  intros range. destruct (search_inv range None None []) as (bd&bs&E&C). exists bd, bs. split; [exact E|].
  destruct range as [|x range].
  - destruct C as [(A&B&_)|(d&_&_&(l1&l2&H&_)&_)]; [auto|destruct l1; discriminate].
  - destruct C as [(_&_&[C|(b&C&_)])|(d&A&B&C&_)]; [discriminate|discriminate|exists d; auto].
Qed.
End Search.

Lemma p_C93 : forall (score : rf_type -> nat -> R) type range, type <> TOther ->
  exists bd bs, depth_search score type range = Ok (bd, bs, map (fun d => 1 - score type d) range, range) /\
    node_size_search score type range = Ok (bd, bs, map (fun d => 1 - score type d) range, range) /\
    match range with
    | [] => bd = None /\ bs = None
    | _ => exists d, bd = Some d /\ bs = Some (1 - score type d) /\ first_best (fun d => 1 - score type d) range d
    end.
Proof.
  intros score type range NT. destruct (search_start (score type) range) as (bd&bs&E&C). exists bd, bs.
  unfold depth_search, node_size_search. rewrite E. split; [|split; [|exact C]]; destruct type; auto; congruence.
Qed.
Lemma first_best_least : forall f range d, first_best f range d -> StronglySorted lt range ->
  In d range /\ (forall x, In x range -> f d <= f x) /\ forall x, In x range -> (forall y, In y range -> f x <= f y) -> (d <= x)%nat.
Proof.
  intros f range d (l1&l2&->&A&B) SS. split; [apply in_elt|]. split.
  - intros x Ix. apply in_app_or in Ix. destruct Ix as [Ix|[<-|Ix]]; [left; auto|right; auto|auto].
  - intros x Ix Mx. apply in_app_or in Ix. destruct Ix as [Ix|[<-|Ix]]; [|lia|].
    + specialize (A x Ix). specialize (Mx d (in_elt _ _ _)). lra.
    + clear -SS Ix. induction l1 as [|y l1 IH]; cbn in SS; apply StronglySorted_inv in SS; destruct SS as [S1 S2]; [|auto].
      rewrite Forall_forall in S2. specialize (S2 x Ix). lia.
Qed.

(** ** Tables *)
Lemma foldM_grow : forall {A B} (g : B -> list A) l acc,
  foldM (fun acc b => Ok (acc ++ g b)) l acc = Ok (acc ++ flat_map g l).
Proof.
  induction l as [|b l IH]; intros acc; cbn [foldM flat_map bind]; [rewrite app_nil_r; auto|]. rewrite IH, app_assoc. auto.
Qed.
Lemma flat_len : forall {A B} (g : B -> list A) L l, (forall b, In b l -> length (g b) = L) -> length (flat_map g l) = (length l * L)%nat.
Proof.
  induction l as [|b l IH]; intros H; auto. cbn [flat_map length]. rewrite app_length, IH by (intros; apply H; right; auto).
  rewrite (H b (or_introl eq_refl)). lia.
Qed.
Lemma flat_nth : forall {A B} (g : B -> list A) L l i k b, (forall b, In b l -> length (g b) = L) -> nth_error l i = Some b -> (k < L)%nat ->
  nth_error (flat_map g l) (i * L + k) = nth_error (g b) k.
Proof.
  induction l as [|c l IH]; intros i k b H E Hk; [destruct i; discriminate|]. cbn [flat_map].
  pose proof (H c (or_introl eq_refl)) as LC. destruct i as [|i]; cbn [nth_error] in E.
  - assert (b = c) by congruence. subst c. cbn [Nat.mul Nat.add]. rewrite nth_error_app1 by lia. auto.
  - rewrite nth_error_app2 by lia. replace (S i * L + k - length (g c))%nat with (i * L + k)%nat by lia.
    apply IH; auto. intros; apply H; right; auto.
Qed.
Lemma seq_nth_error : forall s n i, (i < n)%nat -> nth_error (seq s n) i = Some (s + i)%nat.
Proof.
  intros s n i H. rewrite (nth_error_nth' _ O) by (rewrite seq_length; auto). rewrite seq_nth by auto. auto.
Qed.
Lemma foldM_same : forall {A B} (f g : A -> B -> result A) l a, (forall a b, In b l -> f a b = g a b) -> foldM f l a = foldM g l a.
Proof.
  induction l as [|b l IH]; intros a H; auto. cbn [foldM]. rewrite (H a b (or_introl eq_refl)). destruct (g a b); cbn [bind]; auto.
  apply IH. intros; apply H; right; auto.
Qed.

Lemma nsum_sumto : forall f n, @nsum R _ (map f (seq 0 n)) = sumto n f.
Proof.
  induction n as [|n IH]; auto. rewrite seq_S, map_app, nsum_app, IH. cbn [map Nat.add sumto]. rewrite nsum_cons, nsum_nil. ring.
Qed.
Lemma mean_average : forall f n, @mean R _ (map f (seq 0 n)) = average n f.
Proof. intros. unfold mean, average. rewrite nsum_sumto, map_length, seq_length. reflexivity. Qed.
Lemma average_nonneg : forall n f, (forall i, (i < n)%nat -> 0 <= f i) -> 0 <= average n f.
Proof.
  intros n f H. unfold average. assert (S0 : 0 <= sumto n f).
  { clear -H. induction n as [|n IH]; cbn [sumto]; [lra|]. pose proof (H n ltac:(lia)). assert (0 <= sumto n f) by (apply IH; intros; apply H; lia). lra. }
  destruct n as [|n]; [cbn [sumto]; unfold Rdiv; rewrite Rmult_0_l; lra|]. apply Rle_mult_inv_pos; auto. apply lt_0_INR. lia.
Qed.
Lemma std_spread : forall f n, spread n f (@std R _ (map f (seq 0 n))).
Proof.
  intros f n. unfold std. rewrite (mean_average f n), map_map, mean_average.
  split; [apply sqrt_pos|]. apply sqrt_sqrt. apply average_nonneg. intros i _. apply Rle_0_sqr.
Qed.

Section ErrVis.
Variable cv : arr3 R.
Let row m i := map (at3 cv m i) (seq 0 (d_2 cv)).
Let mk idx m i : err_row R := {| e_mu := mean (row m i); e_lower := nadd (mean (row m i)) (ndiv (std (row m i)) (nsqrt (nof (d_1 cv))));
  e_upper := nsub (mean (row m i)) (ndiv (std (row m i)) (nsqrt (nof (d_1 cv)))); e_idx := nth i idx O; e_model := m |}.
Lemma err_table : forall idx, length idx = d_1 cv ->
  depth_error_vis cv (Some idx) = Ok (flat_map (fun m => map (mk idx m) (seq 0 (d_1 cv))) (seq 0 (d_0 cv))).
Proof.
  intros idx L. unfold depth_error_vis. cbn zeta. rewrite L, Nat.eqb_refl. cbn [negb].
  rewrite (foldM_grow (fun m => map (mk idx m) (seq 0 (d_1 cv)))). auto.
Qed.
Lemma err_default : depth_error_vis cv None = depth_error_vis cv (Some (seq 0 (d_1 cv))).
Proof. reflexivity. Qed.
Lemma p_C94 : forall idx_range, match idx_range with None => True | Some l => length l = d_1 cv end ->
  exists tab, depth_error_vis cv idx_range = Ok tab /\ length tab = (d_0 cv * d_1 cv)%nat /\
    forall m i, (m < d_0 cv)%nat -> (i < d_1 cv)%nat -> exists r s, nth_error tab (m * d_1 cv + i) = Some r /\
      e_model r = m /\ e_idx r = match idx_range with None => i | Some l => nth i l O end /\
      e_mu r = average (d_2 cv) (at3 cv m i) /\ spread (d_2 cv) (at3 cv m i) s /\
      e_lower r = e_mu r + s / sqrt (INR (d_1 cv)) /\ e_upper r = e_mu r - s / sqrt (INR (d_1 cv)).
Proof.
  intros ir H. set (idx := match ir with None => seq 0 (d_1 cv) | Some l => l end).
  assert (LI : length idx = d_1 cv) by (destruct ir; unfold idx; auto; apply seq_length).
  exists (flat_map (fun m => map (mk idx m) (seq 0 (d_1 cv))) (seq 0 (d_0 cv))).
  split; [destruct ir as [l|]; [|rewrite err_default]; apply err_table; auto|].
  assert (BL : forall m : nat, In m (seq 0 (d_0 cv)) -> length (map (mk idx m) (seq 0 (d_1 cv))) = d_1 cv) by (intros; rewrite map_length, seq_length; auto).
  split; [rewrite (flat_len _ (d_1 cv)) by auto; rewrite seq_length; auto|].
  intros m i Hm Hi. exists (mk idx m i), (std (row m i)).
  rewrite (flat_nth _ (d_1 cv) _ m i m) by (auto; rewrite seq_nth_error; auto).
  rewrite nth_error_map, seq_nth_error by auto. cbn [option_map Nat.add]. split; auto. split; auto.
  split; [destruct ir; unfold idx; cbn [mk e_idx]; auto; rewrite seq_nth; auto|].
  split; [apply mean_average|]. split; [apply std_spread|]. split; reflexivity.
Qed.
Lemma p_C94_bad : forall l, length l <> d_1 cv -> (0 < d_0 cv)%nat -> depth_error_vis cv (Some l) = Err ValueError.
Proof.
  intros l NL H0. unfold depth_error_vis. cbn zeta. apply Nat.eqb_neq in NL. rewrite NL. cbn [negb].
  destruct (d_0 cv); [lia|]. reflexivity.
Qed.
End ErrVis.

Lemma band : forall d s mu, (0 < d)%nat -> 0 < s -> mu - s / sqrt (INR d) < mu + s / sqrt (INR d).
Proof.
  intros d s mu Hd Hs. assert (0 < s / sqrt (INR d)); [|lra]. apply Rdiv_lt_0_compat; auto. apply sqrt_lt_R0, lt_0_INR; auto.
Qed.
Lemma band_width : forall d n s, (0 < d)%nat -> (0 < n)%nat -> 0 < s -> d <> n -> s / sqrt (INR d) <> s / sqrt (INR n).
Proof.
  intros d n s Hd Hn Hs N E. pose proof (lt_0_INR d Hd) as Pd. pose proof (lt_0_INR n Hn) as Pn.
  pose proof (sqrt_lt_R0 _ Pd) as Qd. pose proof (sqrt_lt_R0 _ Pn) as Qn.
  assert (E2 : sqrt (INR d) = sqrt (INR n)).
  { unfold Rdiv in E. apply Rmult_eq_reg_l in E; [|lra]. rewrite <- (Rinv_inv (sqrt (INR d))), E, Rinv_inv. auto. }
  apply sqrt_inj in E2; [|lra|lra]. apply INR_eq in E2. auto.
Qed.

Section CostVis.
Variable c : arr3 R.
Let mk dep i s k : cost_row R := {| k_depth := dep; k_sim := s; k_step := k; k_c := at3 c i s k |}.
Let blk dep i := flat_map (fun s => map (mk dep i s) (seq 0 (d_2 c))) (seq 0 (d_1 c)).
Lemma cost_outer : forall l acc, (forall it, In it l -> (fst it < d_0 c)%nat) ->
  foldM (fun acc (it : nat * nat) => foldM (fun acc s =>
      if Nat.ltb (fst it) (d_0 c) then Ok (acc ++ map (fun k => {| k_depth := snd it; k_sim := s; k_step := k; k_c := at3 c (fst it) s k |}) (seq 0 (d_2 c)))
      else Err IndexError) (seq 0 (d_1 c)) acc) l acc = Ok (acc ++ flat_map (fun it => blk (snd it) (fst it)) l).
Proof.
  intros l acc H. rewrite <- foldM_grow. apply foldM_same. intros a it Ii. pose proof (H it Ii) as Hi. apply Nat.ltb_lt in Hi. rewrite Hi.
  rewrite (foldM_grow (fun s => map (fun k => {| k_depth := snd it; k_sim := s; k_step := k; k_c := at3 c (fst it) s k |}) (seq 0 (d_2 c)))). reflexivity.
Qed.
Lemma combine_fst_lt : forall (l : list nat) it, In it (combine (seq 0 (length l)) l) -> (fst it < length l)%nat.
Proof. intros l [a b] Ii. apply in_combine_l in Ii. apply in_seq in Ii. cbn. lia. Qed.
Lemma blk_len : forall dep i, length (blk dep i) = (d_1 c * d_2 c)%nat.
Proof.
  intros. unfold blk. rewrite (flat_len _ (d_2 c)); [rewrite seq_length; auto|]. intros. rewrite map_length, seq_length; auto.
Qed.
Lemma combine_nth_error : forall (l : list nat) i d, nth_error l i = Some d -> nth_error (combine (seq 0 (length l)) l) i = Some (i, d).
Proof.
  assert (G : forall (l : list nat) s i d, nth_error l i = Some d -> nth_error (combine (seq s (length l)) l) i = Some ((s + i)%nat, d)).
  { induction l as [|x l IH]; intros s i d E; [destruct i; discriminate|]. destruct i as [|i]; cbn [length seq combine nth_error] in *.
    - rewrite Nat.add_0_r. congruence.
    - rewrite (IH (S s) i d E). do 2 f_equal. lia. }
  intros. apply G. auto.
Qed.
Lemma cost_rows_ok : forall range, (length range <= d_0 c)%nat ->
  exists tab, cost_vis c (Some range) = Ok tab /\ length tab = (length range * (d_1 c * d_2 c))%nat /\
    forall i s k dep, nth_error range i = Some dep -> (s < d_1 c)%nat -> (k < d_2 c)%nat ->
      nth_error tab (i * (d_1 c * d_2 c) + (s * d_2 c + k)) = Some (mk dep i s k).
Proof.
  intros range L. exists (flat_map (fun it => blk (snd it) (fst it)) (combine (seq 0 (length range)) range)).
  split. { unfold cost_vis. rewrite cost_outer; auto. intros it Ii. apply combine_fst_lt in Ii. lia. }
  assert (BL : forall it : nat * nat, In it (combine (seq 0 (length range)) range) -> length (blk (snd it) (fst it)) = (d_1 c * d_2 c)%nat) by (intros; apply blk_len).
  split; [rewrite (flat_len _ (d_1 c * d_2 c)) by auto; rewrite combine_length, seq_length, Nat.min_id; auto|].
  intros i s k dep E Hs Hk. rewrite (flat_nth _ (d_1 c * d_2 c) _ i _ (i, dep)); auto.
  - cbn [fst snd]. unfold blk. rewrite (flat_nth _ (d_2 c) _ s k s); auto.
    + rewrite nth_error_map, seq_nth_error by auto. reflexivity.
    + intros. rewrite map_length, seq_length; auto.
    + rewrite seq_nth_error; auto.
  - apply combine_nth_error; auto.
  - nia.
Qed.
Lemma cost_bad : forall range, (d_0 c < length range)%nat -> (0 < d_1 c)%nat -> cost_vis c (Some range) = Err IndexError.
Proof.
  intros range L H1. unfold cost_vis.
  assert (Hs : combine (seq 0 (length range)) range = combine (seq 0 (d_0 c)) (firstn (d_0 c) range) ++ combine (seq (d_0 c) (length range - d_0 c)) (skipn (d_0 c) range)).
  { rewrite <- (firstn_skipn (d_0 c) range) at 2. replace (length range) with (d_0 c + (length range - d_0 c))%nat at 1 by lia.
    rewrite seq_app. cbn [Nat.add].
    assert (G : forall (a b x y : list nat), length a = length x -> combine (a ++ b) (x ++ y) = combine a x ++ combine b y).
    { induction a as [|p a IH]; intros b [|q x] y E; try discriminate; auto. cbn. f_equal. apply IH. cbn in E. lia. }
    rewrite G; auto. rewrite seq_length, firstn_length. lia. }
  rewrite Hs, foldM_app, cost_outer.
  2:{ intros [a b] Ii. apply in_combine_l in Ii. apply in_seq in Ii. cbn. lia. }
  cbn [bind]. destruct (skipn (d_0 c) range) as [|y l] eqn:ES.
  { exfalso. assert (length (skipn (d_0 c) range) = O) by (rewrite ES; auto). rewrite skipn_length in H. lia. }
  destruct (length range - d_0 c)%nat as [|n] eqn:EL; [lia|]. cbn [seq combine foldM fst].
  rewrite (proj2 (Nat.ltb_ge (d_0 c) (d_0 c))) by lia. destruct (d_1 c); [lia|]. reflexivity.
Qed.
Lemma cost_default : cost_vis c None = cost_vis c (Some (seq 0 (d_1 c))).
Proof. reflexivity. Qed.
End CostVis.

Lemma p_C95_range : forall (c : arr3 R) range, (length range <= d_0 c)%nat ->
  exists tab, cost_vis c (Some range) = Ok tab /\ length tab = (length range * (d_1 c * d_2 c))%nat /\
    forall i s k dep, nth_error range i = Some dep -> (s < d_1 c)%nat -> (k < d_2 c)%nat ->
      exists r, nth_error tab (i * (d_1 c * d_2 c) + (s * d_2 c + k)) = Some r /\
        k_depth r = dep /\ k_sim r = s /\ k_step r = k /\ k_c r = at3 c i s k.
Proof.
  intros c range L. destruct (cost_rows_ok c range L) as (tab&E&LT&H). exists tab. split; auto. split; auto.
  intros i s k dep Ei Hs Hk. rewrite (H i s k dep Ei Hs Hk). eexists. split; [reflexivity|]. cbn. auto.
Qed.
Lemma p_C95_default : forall c : arr3 R, (d_1 c <= d_0 c)%nat -> exists tab, cost_vis c None = Ok tab /\
  length tab = (d_1 c * (d_1 c * d_2 c))%nat /\
  (forall i s k, (i < d_1 c)%nat -> (s < d_1 c)%nat -> (k < d_2 c)%nat -> exists r, In r tab /\ k_depth r = i /\ k_sim r = s /\ k_step r = k /\ k_c r = at3 c i s k) /\
  forall r, In r tab -> (k_depth r < d_1 c)%nat.
Proof.
  intros c L. rewrite cost_default. destruct (cost_rows_ok c (seq 0 (d_1 c))) as (tab&E&LT&H); [rewrite seq_length; auto|].
  exists tab. split; auto. rewrite seq_length in LT. split; auto. split.
  - intros i s k Hi Hs Hk. assert (Ei : nth_error (seq 0 (d_1 c)) i = Some i) by (rewrite seq_nth_error; auto).
    pose proof (nth_error_In _ _ (H i s k i Ei Hs Hk)) as Ir. eexists. split; [exact Ir|]. cbn. auto.
  - intros r Ir. apply In_nth_error in Ir. destruct Ir as (n&En).
    assert (Hn : (n < length tab)%nat) by (apply nth_error_Some; congruence). rewrite LT in Hn.
    destruct (Nat.eq_dec (d_2 c) 0) as [Z|NZ]; [rewrite Z in Hn; lia|]. destruct (Nat.eq_dec (d_1 c) 0) as [Z|NZ1]; [rewrite Z in Hn; lia|].
    pose proof (Nat.div_mod n (d_1 c * d_2 c) ltac:(nia)) as D1. pose proof (Nat.mod_upper_bound n (d_1 c * d_2 c) ltac:(nia)) as M1.
    set (i := (n / (d_1 c * d_2 c))%nat) in *. set (m := (n mod (d_1 c * d_2 c))%nat) in *.
    pose proof (Nat.div_mod m (d_2 c) NZ) as D2. pose proof (Nat.mod_upper_bound m (d_2 c) NZ) as M2.
    assert (Hi : (i < d_1 c)%nat) by nia. assert (Hs : (m / d_2 c < d_1 c)%nat) by (apply Nat.div_lt_upper_bound; lia).
    specialize (H i (m / d_2 c)%nat (m mod d_2 c)%nat i ltac:(rewrite seq_nth_error; auto) Hs M2).
    replace (i * (d_1 c * d_2 c) + (m / d_2 c * d_2 c + m mod d_2 c))%nat with n in H by lia. rewrite En in H.
    injection H as ->. cbn. auto.
Qed.
Lemma p_C95_fails : forall c : arr3 R, (d_0 c < d_1 c)%nat -> cost_vis c None = Err IndexError.
Proof. intros c L. rewrite cost_default. apply cost_bad; rewrite ?seq_length; lia. Qed.

(** ** Average depth *)
Section Depth.
Variable t : tree R.
Hypothesis WF : wf_tree t.

Lemma reaches_anc : forall x u v, reaches t x v -> anc t u v -> reaches t x u.
Proof.
  intros x u v Hv A. revert u A. induction Hv as [|p c Hp IH L G|p c Hp IH L G]; intros u A.
  - apply (anc_zero t WF) in A. subst u. constructor.
  - apply (anc_child t WF p c) in A; [|left; auto]. destruct A as [-> |A]; [eapply reach_left; eauto|apply IH; auto].
  - apply (anc_child t WF p c) in A; [|right; auto]. destruct A as [-> |A]; [eapply reach_right; eauto|apply IH; auto].
Qed.
Lemma reaches_total : forall x u v, reaches t x u -> reaches t x v -> is_leafb t v = true -> anc t u v.
Proof.
  intros x u v Hu Hv Lv. pose proof (reaches_lt t WF x u Hu) as U.
  remember (size t - u)%nat as n eqn:En. revert u Hu U En. induction n as [n IH] using lt_wf_ind. intros u Hu U En.
  destruct (is_leafb t u) eqn:Lu.
  - rewrite (end_unique t WF x u Hu Lu), <- (end_unique t WF x v Hv Lv). apply anc_refl. eapply (reaches_lt t WF); eauto.
  - destruct (nxt_child t WF x u U Lu) as (C&B&_). pose proof (reaches_nxt t WF x u Hu Lu) as Rn.
    assert (A : anc t (nxt t x u) v) by (apply (IH (size t - nxt t x u)%nat); auto; lia).
    clear -A C U. induction A as [w Hw|a p c A IH CH]; [eapply anc_step; [apply anc_refl; auto|auto]|eapply anc_step; eauto].
Qed.
Lemma path_row_sum : forall x d, falls t x d -> @nsum R _ (path_row t x) = INR (S d).
Proof.
  intros x d (v&Hv&Lv&Dv). unfold path_row.
  rewrite <- (count_anc t WF v d Dv (fun a => existsb (Nat.eqb a) (path_nodes (size t) t x 0))).
  - generalize (seq 0 (size t)). induction l as [|a l IH]; auto. cbn [map filter]. rewrite nsum_cons, IH.
    destruct (existsb _ _); [cbn [length]; rewrite S_INR; change (@n1 R _) with 1; ring|change (@n0 R _) with 0; ring].
  - intros a Ha. rewrite existsb_exists. split.
    + intros (b&Ib&Eb). apply Nat.eqb_eq in Eb. subst b. apply (path_reaches t WF) in Ib. eapply reaches_total; eauto.
    + intros A. exists a. split; [|apply Nat.eqb_refl]. apply (path_reaches t WF). eapply reaches_anc; eauto.
Qed.
Lemma falls_ex : forall x, exists d, falls t x d.
Proof.
  intros x. destruct (end_node_spec t WF x) as (A&B&C). destruct (depth_ex t WF _ C) as (d&D). exists d, (end_node t x). auto.
Qed.
End Depth.
Lemma falls_unique : forall (t : tree R), wf_tree t -> forall x d d', falls t x d -> falls t x d' -> d = d'.
Proof.
  intros t WF x d d' (v&A&B&C) (v'&A'&B'&C'). rewrite (end_unique t WF x v A B) in C. rewrite (end_unique t WF x v' A' B') in C'.
  eapply (depth_unique t WF); eauto.
Qed.

Lemma depth_fold : forall (X : mat R) ts acc, length acc = length X ->
  length (fold_left (fun acc t => map2 nadd acc (map (fun x => nsum (path_row t x)) X)) ts acc) = length X /\
  forall i, (i < length X)%nat -> nth i (fold_left (fun acc t => map2 nadd acc (map (fun x => nsum (path_row t x)) X)) ts acc) 0 =
    nth i acc 0 + nsum (map (fun t => nsum (path_row t (nth i X []))) ts).
Proof.
  intros X. induction ts as [|t ts IH]; intros acc L; cbn [fold_left].
  - split; auto. intros. cbn [map]. rewrite nsum_nil. ring.
  - destruct (IH (map2 nadd acc (map (fun x => nsum (path_row t x)) X))) as [A B]; [rewrite map2_length, map_length; lia|].
    split; auto. intros i Hi. rewrite B by auto. cbn [map]. rewrite nsum_cons.
    rewrite (nth_map2 _ _ _ i 0 0 0) by (rewrite ?map_length; lia). rewrite (nth_map_in _ _ i [] 0) by auto. rn. ring.
Qed.
Lemma p_C96 : forall (ts : list (tree R)) X, Forall wf_tree ts -> X <> [] ->
  exists ds, average_depth ts X = Ok ds /\ length ds = length X /\
    forall i (depth : nat -> nat), (i < length X)%nat ->
      (forall q t, nth_error ts q = Some t -> falls t (nth i X []) (depth q)) ->
      nth i ds 0 = average (length ts) (fun q => INR (1 + depth q)).
Proof.
  intros ts X W NX. unfold average_depth. destruct X as [|x0 X0]; [contradiction|]. set (X := x0 :: X0) in *.
  destruct (depth_fold X ts (repeat n0 (length X)) (repeat_length _ _)) as [A B].
  eexists. split; [reflexivity|]. split; [rewrite map_length; auto|].
  intros i depth Hi H. rewrite (nth_map_in _ _ i 0 0) by lia. change (@n0 R _) with 0 in *. rewrite B by auto. rewrite nth_repeat_lt by auto.
  unfold average. rn. f_equal. rewrite Rplus_0_l.
  rewrite (map_as_seq _ ts {| t_left := []; t_right := []; t_feature := []; t_thresh := []; t_weight := []; t_value := []; t_imp := [] |}).
  rewrite <- nsum_sumto. apply nsum_ext. intros q Iq. apply in_seq in Iq. destruct (nth_error ts q) as [t|] eqn:E.
  - rewrite (nth_error_nth _ _ _ E). apply path_row_sum; [|apply H; auto]. rewrite Forall_forall in W. apply W. eapply nth_error_In; eauto.
  - apply nth_error_None in E. lia.
Qed.
Lemma average_depth_same : forall (ts ts' : list (tree R)) X, length ts' = length ts ->
  (forall q t, nth_error ts q = Some t -> exists t', nth_error ts' q = Some t' /\ same_but_leaf_values t t') ->
  average_depth ts' X = average_depth ts X.
Proof.
  intros ts ts' X L H. unfold average_depth. rewrite L.
  assert (E : forall acc, fold_left (fun acc t => map2 nadd acc (map (fun x => nsum (path_row t x)) X)) ts' acc =
              fold_left (fun acc t => map2 nadd acc (map (fun x => nsum (path_row t x)) X)) ts acc).
  { revert ts' L H. induction ts as [|t ts IH]; intros [|t' ts'] L H acc; try discriminate; auto. cbn [fold_left].
    destruct (H O t eq_refl) as (t''&E&S). cbn in E. assert (t'' = t') by congruence. subst t''.
    destruct S as (S1&S2&S3&S4&_).
    rewrite (map_ext (fun x => nsum (path_row t' x)) (fun x => nsum (path_row t x))).
    - apply IH; [cbn in L; lia|]. intros q u Eu. apply (H (Datatypes.S q) u Eu).
    - intros x. unfold path_row. rewrite (path_struct t t') by auto. unfold size. rewrite S1. auto. }
  rewrite E. destruct ts as [|t ts]; destruct ts' as [|t' ts']; try discriminate; auto.
Qed.
