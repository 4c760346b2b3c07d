(** L_Prog: small steps of plain descent lower the cost. *)
From Verif Require Import Base TreeSpec Spec M_Tree M_Gamma M_Levels M_Prox M_Grad M_Sgd M_Smooth SpecSmooth SpecRel.
From Verif Require Import L_Base L_Prox L_Grad L_Gamma L_Gamma2 L_Sgd L_Sgd2 L_Rel L_Rel2 L_Rel4 L_Rel7.
From Coq Require Import Reals Lra Permutation.
Local Open Scope R_scope.

(** *** derivative of the cost along a direction *)
Definition along (l d : list R) (t : R) : list R := map2 (fun a b => a + t * b) l d.
Lemma dot_along : forall r l d t, length d = length l -> dot r (along l d t) = dot r l + t * dot r d.
Proof.
  unfold along. induction r as [|a r IH]; intros l d t H; [rewrite !dot_nil_l; ring|].
  destruct l as [|b l], d as [|c d]; try discriminate; cbn [map2]; [rewrite !dot_nil_r; ring|].
  rewrite !dot_cons, IH by (cbn in H; lia). ring.
Qed.
Definition grow (l : list R) (r : prow) (k : nat) : R :=
  (r_y r - dot (r_g r) l / dot (r_e r) l) * r_w r * (1 / dot (r_e r) l * nth k (r_g r) 0 - dot (r_g r) l / (dot (r_e r) l * dot (r_e r) l) * nth k (r_e r) 0).
Lemma dot_nsum : forall (L : list prow) (h : nat -> prow -> R) d s, dot d (map (fun k => nsum (map (h k) L)) s) = nsum (map (fun r => dot d (map (fun k => h k r) s)) L).
Proof.
  induction L as [|r L IH]; intros h d s.
  - cbn [map]. rewrite (dot_map_ext d _ (fun k => 0 * 0)) by (intros; rewrite nsum_nil; ring). rewrite (dot_map_scal d (fun _ => 0) 0). rewrite nsum_nil. ring.
  - cbn [map]. rewrite nsum_cons, <- IH. apply dot_map_lin. intros k _. rewrite nsum_cons. reflexivity.
Qed.
Lemma grad_val : forall L l g, (forall r, In r L -> dot (r_e r) l <> 0) -> l_grad l2_loss (of_rows L) l = Ok g ->
  g = map (fun k => -2 * nsum (map (fun r => grow l r k) L)) (seq 0 (length l)).
Proof.
  intros L l g NZ H. cbn [l_grad l2_loss] in H. unfold take_gradient, fills in H. destruct (zero_ok _ _); [|discriminate]. cbn [bind] in H.
  rewrite rows_fill, rows_gf in H. cbn [of_rows p_y p_w p_Gamma p_eta] in H. inversion H as [Hg]. clear H Hg. apply map_ext. intros k.
  rewrite !col_rows, !map2_maps. rn.
  replace (map (fun x => (r_y x - dot (r_g x) l / ef l x) * r_w x * (1 / ef l x * nth k (r_g x) 0 - dot (r_g x) l / (ef l x * ef l x) * nth k (r_e x) 0)) L)
    with (map (fun r => grow l r k) L); [ring|].
  apply map_ext_in. intros r Hr. unfold grow, ef. rewrite (Reqb_false (dot (r_e r) l) 0) by auto. reflexivity.
Qed.
Lemma dir_deriv : forall L l d g, (forall r, In r L -> length (r_g r) = length l /\ length (r_e r) = length l /\ dot (r_e r) l <> 0) -> length d = length l ->
  l_grad l2_loss (of_rows L) l = Ok g ->
  exists f delta, 0 < delta /\ (forall t, Rabs t < delta -> l_cost l2_loss (of_rows L) (along l d t) = Ok (f t)) /\ derivable_pt_lim f 0 (dot d g).
Proof.
  intros L l d g HL LD HG.
  set (F := fun (r : prow) (t : R) => r_w r * ((r_y r - (dot (r_g r) l + dot (r_g r) d * (t - 0)) / (dot (r_e r) l + dot (r_e r) d * (t - 0))) *
                                              (r_y r - (dot (r_g r) l + dot (r_g r) d * (t - 0)) / (dot (r_e r) l + dot (r_e r) d * (t - 0))))).
  destruct (finite_delta (fun r h => forall t, Rabs t <= h -> dot (r_e r) l + dot (r_e r) d * (t - 0) <> 0) L) as (dl&DP&HD).
  { intros r Hr. destruct (HL r Hr) as (_&_&NZ). destruct (affine_nonzero (dot (r_e r) l) (dot (r_e r) d) 0 NZ) as (dl&DP&HD).
    exists dl. split; auto. intros h Hh t Ht. apply HD. rewrite Rminus_0_r. lra. }
  exists (fun t => nsum (map (fun r => F r t) L)), dl. split; auto. split.
  - intros t Ht. rewrite cost_rows. 
    assert (NZ : forall r, In r L -> dot (r_e r) (along l d t) = dot (r_e r) l + dot (r_e r) d * (t - 0) /\ dot (r_e r) (along l d t) <> 0 /\
        dot (r_g r) (along l d t) = dot (r_g r) l + dot (r_g r) d * (t - 0)).
    { intros r Hr. rewrite !dot_along by auto. pose proof (HD (Rabs t) Ht r Hr t (Rle_refl _)) as X. split; [ring|]. split; [|ring].
      replace (dot (r_e r) l + t * dot (r_e r) d) with (dot (r_e r) l + dot (r_e r) d * (t - 0)) by ring. auto. }
    assert (OK : forallb (okr (along l d t)) L = true).
    { apply forallb_forall. intros r Hr. unfold okr. rewrite Reqb_false; auto. apply NZ; auto. }
    rewrite OK. f_equal. f_equal. apply map_ext_in. intros r Hr. destruct (NZ r Hr) as (E1&E2&E3). unfold ef. rewrite (Reqb_false _ _ E2).
    rewrite E1, E3. unfold F. rn. ring.
  - assert (X : dot d g = nsum (map (fun r => r_w r * (-2 * (r_y r - dot (r_g r) l / dot (r_e r) l) * ((dot (r_g r) d * dot (r_e r) l - dot (r_g r) l * dot (r_e r) d) / (dot (r_e r) l * dot (r_e r) l)))) L)).
    { rewrite (grad_val L l g) by (auto; intros; apply HL; auto). rewrite (dot_map_scal d). rewrite dot_nsum. rewrite <- (nsum_scal _ (-2)).
      f_equal. apply map_ext_in. intros r Hr. destruct (HL r Hr) as (LG&LE&NZ).
      rewrite (dot_map_lin d (fun k => grow l r k) (fun k => (r_y r - dot (r_g r) l / dot (r_e r) l) * r_w r * (1 / dot (r_e r) l) * nth k (r_g r) 0)
        (fun k => - ((r_y r - dot (r_g r) l / dot (r_e r) l) * r_w r * (dot (r_g r) l / (dot (r_e r) l * dot (r_e r) l))) * nth k (r_e r) 0)).
      2:{ intros k _. unfold grow. ring. }
      rewrite (dot_map_scal d (fun k => nth k (r_g r) 0)), (dot_map_scal d (fun k => nth k (r_e r) 0)).
      rewrite <- LG at 1. rewrite nth_seq_id. rewrite <- LE. rewrite nth_seq_id, !(dot_comm d). field. auto. }
    rewrite X. apply (derivable_nsum F). intros r Hr. destruct (HL r Hr) as (_&_&NZ). unfold F.
    set (a := dot (r_g r) l) in *. set (b := dot (r_g r) d). set (c := dot (r_e r) l) in *. set (e := dot (r_e r) d).
    assert (DQ : derivable_pt_lim (fun x => r_y r - (a + b * (x - 0)) / (c + e * (x - 0))) 0 (0 - (b * c - a * e) / (c * c))).
    { apply (derivable_pt_lim_minus (fun _ => r_y r) (fun x => (a + b * (x - 0)) / (c + e * (x - 0)))); [apply derivable_pt_lim_const|apply derivable_ratio; auto]. }
    pose proof (derivable_pt_lim_mult _ _ _ _ _ DQ DQ) as DM.
    pose proof (derivable_pt_lim_scal _ (r_w r) _ _ DM) as DS.
    eapply derivable_val; [exact DS|]. cbv beta. rewrite (Rminus_diag_eq 0 0 eq_refl). field. repeat split; auto; lra.
Qed.
Lemma neg_deriv : forall f D, derivable_pt_lim f 0 D -> D < 0 -> exists delta, 0 < delta /\ forall t, 0 < t < delta -> f t < f 0.
Proof.
  intros f D H N. destruct (H (- D) ltac:(lra)) as ([dl DP]&Hd). cbn [pos] in Hd. exists dl. split; auto. intros t [T1 T2].
  specialize (Hd t ltac:(lra)). rewrite Rabs_right in Hd by lra. specialize (Hd T2). rewrite Rplus_0_l in Hd.
  apply Rabs_def2 in Hd. destruct Hd as [Hd _]. assert ((f t - f 0) / t < 0) by lra.
  assert (f t - f 0 < 0); [|lra]. replace (f t - f 0) with ((f t - f 0) / t * t) by (field; lra). nra.
Qed.
Lemma descent_dir : forall L l d g, (forall r, In r L -> length (r_g r) = length l /\ length (r_e r) = length l /\ dot (r_e r) l <> 0) -> length d = length l ->
  l_grad l2_loss (of_rows L) l = Ok g -> dot d g < 0 ->
  exists c0 delta, l_cost l2_loss (of_rows L) l = Ok c0 /\ 0 < delta /\ forall t, 0 < t < delta -> exists c, l_cost l2_loss (of_rows L) (along l d t) = Ok c /\ c < c0.
Proof.
  intros L l d g HL LD HG N. destruct (dir_deriv L l d g HL LD HG) as (f&dl&DP&HC&DF). destruct (neg_deriv f _ DF N) as (d2&DP2&H2).
  assert (A0 : along l d 0 = l).
  { unfold along. clear -LD. revert d LD. induction l as [|a l IH]; intros [|b d] LD; try discriminate; auto. cbn [map2]. f_equal; [ring|]. apply IH. cbn in LD; lia. }
  exists (f 0), (Rmin dl d2). split; [rewrite <- A0 at 1; apply HC; rewrite Rabs_R0; auto|]. split; [apply Rmin_glb_lt; auto|].
  intros t [T1 T2]. pose proof (Rmin_l dl d2). pose proof (Rmin_r dl d2). exists (f t). split; [apply HC; rewrite Rabs_right; lra|]. apply H2. lra.
Qed.

(** *** the projection near the first corner of the simplex *)
Definition sig (be : list R) (i : nat) : R := sumto i (fun j => nth j (sort_desc (map ppos be)) 0) / INR (S i).
Lemma nth_scaled : forall t (l : list R) i, nth i (map (Rmult t) l) 0 = t * nth i l 0.
Proof. intros t. induction l as [|a l IH]; intros [|i]; cbn [map nth]; try ring; auto. Qed.
Lemma sort_scaled : forall t (l : list R), 0 < t -> sort_desc (map (Rmult t) l) = map (Rmult t) (sort_desc l).
Proof.
  intros t l T. induction l as [|a l IH]; [reflexivity|]. cbn [map sort_desc fold_right]. fold (sort_desc (map (Rmult t) l)). fold (sort_desc l). rewrite IH.
  generalize (sort_desc l) as m. induction m as [|b m IM]; [reflexivity|]. cbn [map insert_desc].
  change (@nltb R _ (t * a) (t * b)) with (Rltb (t * a) (t * b)). change (@nltb R _ a b) with (Rltb a b).
  destruct (Rltb_spec (t * a) (t * b)), (Rltb_spec a b); cbn [map]; try reflexivity; try (f_equal; exact IM); exfalso; nra.
Qed.
Lemma ppos_scaled : forall t x, 0 <= t -> ppos (t * x) = t * ppos x.
Proof. intros t x T. unfold ppos. rewrite <- (Rmult_0_r t) at 1. rewrite RmaxRmult; auto. Qed.
Lemma ppos_nonneg : forall x, 0 <= ppos x.
Proof. intros. apply Rmax_r. Qed.
Lemma ppos_id : forall x, 0 <= x -> ppos x = x.
Proof. intros. unfold ppos. apply Rmax_left. auto. Qed.
Lemma ppos_zero : forall x, x <= 0 -> ppos x = 0.
Proof. intros. unfold ppos. apply Rmax_right. auto. Qed.
Lemma sumto_shift : forall i (f : nat -> R), sumto (S i) f = f 0%nat + sumto i (fun j => f (S j)).
Proof. induction i as [|i IH]; intros f; [cbn; ring|]. cbn [sumto] in *. rewrite IH. ring. Qed.
Lemma tau_ray : forall be t i, 0 < t -> (forall b, In b be -> t * ppos b <= 1) ->
  tau (sort_desc (map ppos (1 :: map (Rmult t) be))) i = t * sig be i.
Proof.
  intros be t i T B. cbn [map]. rewrite ppos_id by lra.
  assert (E : map ppos (map (Rmult t) be) = map (Rmult t) (map ppos be)).
  { rewrite !map_map. apply map_ext. intros. apply ppos_scaled. lra. }
  rewrite E. unfold sort_desc at 1. cbn [fold_right]. fold (sort_desc (map (Rmult t) (map ppos be))).
  rewrite insert_desc_head.
  2:{ apply Forall_forall. intros b Hb. apply (Permutation_in _ (Permutation_sym (sort_desc_perm _))) in Hb.
      rewrite map_map in Hb. apply in_map_iff in Hb. destruct Hb as (x&<-&Hx). auto. }
  rewrite sort_scaled by auto. unfold tau, sig. rewrite sumto_shift. cbn [nth].
  rewrite (sumto_ext i _ (fun j => t * nth j (sort_desc (map ppos be)) 0)) by (intros; apply nth_scaled).
  rewrite sumto_scal. field. apply not_0_INR. lia.
Qed.
Lemma prox_ray : forall be, exists th t0, 0 < t0 /\ 0 <= th /\
  (forall t, 0 < t <= t0 -> prox_value (1 :: map (Rmult t) be) = Ok (along (1 :: map (fun _ => 0) be) (- th :: map (fun b => ppos (b - th)) be) t)) /\
  ((exists b, In b be /\ 0 < b) -> exists b, In b be /\ th < b).
Proof.
  intros be. set (M := nsum (map ppos be)).
  assert (MB : forall b, In b be -> ppos b <= M).
  { unfold M. clear. induction be as [|a be IH]; intros b HI; [contradiction|]. destruct HI as [<-|H]; cbn [map]; rewrite nsum_cons.
    - assert (0 <= nsum (map ppos be)); [|lra]. clear. induction be; cbn [map]; [rewrite nsum_nil; lra|]. rewrite nsum_cons. pose proof (ppos_nonneg a). lra.
    - specialize (IH b H). pose proof (ppos_nonneg a). lra. }
  assert (M0 : 0 <= M).
  { unfold M. clear. induction be; cbn [map]; [rewrite nsum_nil; lra|]. rewrite nsum_cons. pose proof (ppos_nonneg a). lra. }
  set (t0 := / (1 + M)). assert (T0 : 0 < t0) by (apply Rinv_0_lt_compat; lra).
  assert (TM : forall t, 0 < t <= t0 -> forall b, In b be -> t * ppos b <= 1).
  { intros t [A B] b Hb. specialize (MB b Hb). pose proof (ppos_nonneg b). apply Rle_trans with (t0 * (1 + M)); [|unfold t0; rewrite Rinv_l; lra].
    apply Rmult_le_compat; lra. }
  (* what the projection does at t, with the index made explicit *)
  assert (ST : forall t, 0 < t <= t0 -> exists m, (m <= length be)%nat /\ (m = 0%nat \/ exists k, m = S k /\ sig be m < ppos (nth k be 0)) /\
     (forall i, (i <= length be)%nat -> (i = 0%nat \/ exists k, i = S k /\ sig be i < ppos (nth k be 0)) -> sig be i <= sig be m) /\
     prox_value (1 :: map (Rmult t) be) = Ok (map (fun x => ppos (x - t * sig be m)) (1 :: map (fun b => t * ppos b) be))).
  { intros t Ht. destruct (prox_spec (1 :: map (Rmult t) be) ltac:(discriminate)) as (m&th&Hm&Tm&UB&ET&E). cbn [length] in Hm. rewrite map_length in Hm.
    assert (Q : forall i, (i <= length be)%nat -> (tau (sort_desc (map ppos (1 :: map (Rmult t) be))) i < nth i (map ppos (1 :: map (Rmult t) be)) 0 <-> (i = 0%nat \/ exists k, i = S k /\ sig be i < ppos (nth k be 0)))).
    { intros i Hi. rewrite tau_ray by (try apply TM; lra || auto). destruct i as [|k]; cbn [map nth].
      - split; auto. intros _. rewrite ppos_id by lra. unfold sig. cbn [sumto]. unfold Rdiv. rewrite Rmult_0_l, Rmult_0_r. lra.
      - rewrite map_map, (nth_map_in (fun x => ppos (t * x))) with (d := 0) by lia. rewrite ppos_scaled by lra. split.
        + intros X. right. exists k. split; auto. nra.
        + intros [X|(k'&X&Y)]; [discriminate|]. inversion X; subst k'. nra. }
    exists m. split; [lia|]. split; [apply Q; auto; lia|].
    assert (UB' : forall i, (i <= length be)%nat -> (i = 0%nat \/ exists k, i = S k /\ sig be i < ppos (nth k be 0)) -> sig be i <= sig be m).
    { intros i Hi X. specialize (UB i ltac:(cbn [length]; rewrite map_length; lia) (proj2 (Q i Hi) X)). rewrite !tau_ray in UB by (try apply TM; lra || auto). nra. }
    split; auto. unfold prox_value. rewrite E. cbn [bind fst]. f_equal.
    assert (S0 : sig be 0 = 0) by (unfold sig; cbn [sumto]; unfold Rdiv; apply Rmult_0_l).
    pose proof (UB' 0%nat ltac:(lia) (or_introl eq_refl)) as P0. rewrite S0 in P0.
    assert (TH : th = t * sig be m).
    { rewrite ET, tau_ray by (try apply TM; lra || auto). apply Rmax_left. nra. }
    rewrite TH. cbn [map]. rewrite (ppos_id 1) by lra. f_equal. rewrite !map_map. apply map_ext. intros b. rewrite ppos_scaled by lra. reflexivity. }
  destruct (ST t0 ltac:(lra)) as (m&Hm&Qm&Um&_).
  assert (S0 : sig be 0 = 0) by (unfold sig; cbn [sumto]; unfold Rdiv; apply Rmult_0_l).
  pose proof (Um 0%nat ltac:(lia) (or_introl eq_refl)) as P0. rewrite S0 in P0.
  assert (LB : sig be m <= M).
  { destruct Qm as [->|(k&->&Qm)]; [lra|]. assert (In (nth k be 0) be) by (apply nth_In; lia). specialize (MB (nth k be 0) H). lra. }
  exists (sig be m), t0. split; auto. split; auto. split.
  - intros t Ht. destruct (ST t Ht) as (m'&Hm'&Qm'&Um'&E). rewrite E. f_equal.
    assert (EM : sig be m' = sig be m) by (apply Rle_antisym; auto). rewrite EM. unfold along. cbn [map map2]. f_equal.
    + rewrite ppos_id; [ring|]. assert (H : t * sig be m <= t0 * (1 + M)) by (destruct Ht; apply Rmult_le_compat; lra). unfold t0 in H. rewrite Rinv_l in H; lra.
    + clear EM E Um' Qm' Hm' LB Qm Um. revert P0. generalize (sig be m) as th. intros th P0. destruct Ht as [Ht _]. clear -P0 Ht. induction be as [|b be IH]; [reflexivity|]. cbn [map map2]. f_equal; [|apply IH].
      replace (t * ppos b - t * th) with (t * (ppos b - th)) by ring. rewrite ppos_scaled by lra. rewrite Rplus_0_l. f_equal.
      unfold ppos, Rmax. repeat destruct (Rle_dec _ _); lra.
  - intros (b&Hb&BP). destruct Qm as [->|(k&->&Qm)]; [exists b; rewrite S0; auto|]. exists (nth k be 0). split; [apply nth_In; lia|].
    unfold ppos, Rmax in Qm. destruct (Rle_dec _ _); lra.
Qed.

(** *** one step from the first corner *)
Lemma along_length : forall l d t, length d = length l -> length (along l d t) = length l.
Proof. intros. unfold along. rewrite map2_length. lia. Qed.
Lemma ray_descends : forall be th, 0 <= th -> (exists b, In b be /\ th < b) ->
  dot (- th :: map (fun b => ppos (b - th)) be) (0 :: map Ropp be) < 0.
Proof.
  intros be th T (b&Hb&BT). rewrite dot_cons, Rmult_0_r, Rplus_0_l.
  assert (X : forall l, dot (map (fun b => ppos (b - th)) l) (map Ropp l) <= 0 /\ (In b l -> dot (map (fun b => ppos (b - th)) l) (map Ropp l) < 0)).
  { induction l as [|a l [I1 I2]]; cbn [map]; [rewrite dot_nil_l; split; [lra|intros []]|]. rewrite dot_cons.
    assert (A : ppos (a - th) * - a <= 0 /\ (th < a -> ppos (a - th) * - a < 0)) by (unfold ppos, Rmax; destruct (Rle_dec _ _); split; intros; nra).
    destruct A as [A1 A2]. split; [lra|]. intros [->|H]; [specialize (A2 BT)|specialize (I2 H)]; lra. }
  apply X; auto.
Qed.
Lemma dot_opp_neg : forall g, (exists x, In x g /\ x <> 0) -> dot (map Ropp g) g < 0.
Proof.
  intros g (x&Hx&NX). assert (X : forall l, dot (map Ropp l) l <= 0 /\ (In x l -> dot (map Ropp l) l < 0)); [|apply X; auto].
  induction l as [|a l [I1 I2]]; cbn [map]; [rewrite dot_nil_l; split; [lra|intros []]|]. rewrite dot_cons. split; [nra|].
  intros [->|H]; [nra|]. specialize (I2 H). nra.
Qed.

Section Corner.
Variables (L : list prow) (n : nat).
Definition corner : list R := 1 :: repeat 0 n.
Hypothesis NE : L <> [].
Hypothesis ROWS : forall r, In r L -> length (r_g r) = S n /\ length (r_e r) = S n /\ dot (r_e r) corner <> 0.
Hypothesis ONE : forall r, In r L -> r_q r = 0%nat.

Lemma corner_len : length corner = S n.
Proof using. unfold corner. cbn [length]. rewrite repeat_length. auto. Qed.
Lemma corner_rows_len : rows_len (S n) (of_rows L).
Proof using ROWS. split; intros x Hx; cbn [of_rows p_Gamma p_eta] in Hx; apply in_map_iff in Hx; destruct Hx as (r&<-&Hr); apply (ROWS r Hr). Qed.
Lemma corner_tidx : forall i, In i (p_tidx (of_rows L)) -> i = 0%nat.
Proof using ONE. intros i Hi. cbn [of_rows p_tidx] in Hi. apply in_map_iff in Hi. destruct Hi as (r&<-&Hr). auto. Qed.
Lemma corner_count : count_trees (p_tidx (of_rows L)) = Ok 1%nat.
Proof using ONE NE. apply count_zero; [apply corner_tidx|]. clear - NE. cbn. destruct L; [congruence|discriminate]. Qed.
Lemma corner_restrict : restrict (of_rows L) 0 = of_rows L.
Proof using ONE. apply restrict_all; [apply corner_tidx|cbn; rewrite !map_length; auto ..]. Qed.
Lemma dot_repeat0 : forall m (l : list R), dot (repeat 0 m) l = 0.
Proof using. induction m as [|m IH]; intros l; [apply dot_nil_l|]. destruct l; [apply dot_nil_r|]. cbn [repeat]. rewrite dot_cons, IH. ring. Qed.
Lemma corner_grad : forall g, l_grad l2_loss (of_rows L) corner = Ok g -> exists be, length be = n /\ g = 0 :: map Ropp be.
Proof using ROWS.
  intros g H. assert (LG : length g = S n) by (rewrite <- corner_len; eapply take_gradient_length; exact H).
  pose proof (grad_orth (of_rows L) corner g ltac:(rewrite corner_len; apply corner_rows_len) H) as O.
  destruct g as [|a g]; [discriminate|]. exists (map Ropp g). rewrite map_length. cbn in LG. split; [lia|].
  unfold corner in O. rewrite dot_cons, dot_repeat0 in O. f_equal; [lra|]. rewrite map_map. rewrite <- (map_id g) at 1. apply map_ext. intros; ring.
Qed.
(** the raw point after a step from the corner *)
Lemma corner_raw : forall be t raw g, length be = n -> g = 0 :: map Ropp be -> length raw = S n ->
  (forall k, (k < S n)%nat -> nth k raw 0 = nth k corner 0 - t * nth k g 0) -> raw = 1 :: map (Rmult t) be.
Proof using.
  intros be t raw g LB -> LR H. apply (nth_eq_ext _ _ 0); [cbn [length]; rewrite map_length; lia|]. intros k Hk. rewrite H by lia. unfold corner.
  destruct k as [|k]; cbn [nth]; [ring|]. rewrite nth_scaled. rewrite (nth_map_in Ropp) with (d := 0) by lia.
  assert (Z : nth k (repeat 0 n) 0 = 0) by (destruct (Nat.lt_ge_cases k n); [apply nth_repeat|apply nth_overflow; rewrite repeat_length; auto]). rewrite Z. ring.
Qed.
Lemma map_const_repeat : forall (l : list R), map (fun _ => 0) l = repeat 0 (length l).
Proof using. induction l; cbn; congruence. Qed.

(** the first step of a run *)
Lemma first_step : forall (cons : bool) (t : R) draws best lst costs, draws <> [] ->
  stocastic_grad_descent (of_rows L) corner t cons None draws = Ok (best, lst, costs) ->
  exists be l1 c1, length be = n /\ l_grad l2_loss (of_rows L) corner = Ok (0 :: map Ropp be) /\
    l_cost l2_loss (of_rows L) l1 = Ok c1 /\ In c1 costs /\
    (if cons then prox_value (1 :: map (Rmult t) be) = Ok l1 else l1 = 1 :: map (Rmult t) be).
Proof using NE ROWS ONE.
  intros cons t draws best lst costs ND H. destruct (sgd_trajectory _ _ _ _ _ _ _ _ _ H) as (nt&its&gs&N&L1&L2&L3&I0&IL&C&D&_).
  rewrite corner_count in N. inversion N; subst nt. assert (DP : (0 < length draws)%nat) by (destruct draws; [congruence|cbn; lia]).
  destruct (D 0%nat DP) as (HG&raw&LR&HR&HP). cbv zeta in HG. rewrite Nat.mod_1_r, corner_restrict, I0 in HG.
  destruct (corner_grad _ HG) as (be&LB&EG). exists be, (nth 1 its []), (nth 1 costs 0). split; auto. split; [rewrite <- EG; exact HG|].
  split; [apply C; lia|]. split; [apply nth_In; lia|].
  assert (ER : raw = 1 :: map (Rmult t) be).
  { apply (corner_raw be t raw _ LB EG); [rewrite LR; apply corner_len|]. intros k Hk. rewrite HR by (rewrite corner_len; auto). rewrite I0. unfold step_target.
    destruct gs as [|g0 gs]; [cbn in L3; lia|]. reflexivity. }
  subst raw. destruct cons; [|congruence]. destruct HP as (ov&HP). unfold prox_value. rewrite HP. reflexivity.
Qed.

Lemma corner_improves : forall (cons : bool) (g : list R), l_grad l2_loss (of_rows L) corner = Ok g ->
  (if cons then exists x, In x g /\ x < 0 else exists x, In x g /\ x <> 0) ->
  exists c0 t0, l_cost l2_loss (of_rows L) corner = Ok c0 /\ 0 < t0 /\
  forall t draws best lst costs, 0 < t < t0 -> draws <> [] ->
    stocastic_grad_descent (of_rows L) corner t cons None draws = Ok (best, lst, costs) -> exists c1, In c1 costs /\ c1 < c0.
Proof using NE ROWS ONE.
  intros cons g HG HX. destruct (corner_grad _ HG) as (be&LB&EG). subst g.
  assert (RW : forall r, In r L -> length (r_g r) = length corner /\ length (r_e r) = length corner /\ dot (r_e r) corner <> 0) by (rewrite corner_len; auto).
  destruct cons.
  - destruct (prox_ray be) as (th&t1&T1&TH&PR&PB).
    assert (BP : exists b, In b be /\ th < b).
    { apply PB. destruct HX as (x&[<-|Hx]&NX); [lra|]. apply in_map_iff in Hx. destruct Hx as (b&<-&Hb). exists b. split; auto. lra. }
    destruct (descent_dir L corner (- th :: map (fun b => ppos (b - th)) be) _ RW ltac:(rewrite corner_len; cbn [length]; rewrite map_length; lia) HG (ray_descends be th TH BP)) as (c0&dl&HC&DP&HD).
    exists c0, (Rmin t1 dl). split; auto. split; [apply Rmin_glb_lt; auto|]. intros t draws best lst costs [TA TB] ND H.
    pose proof (Rmin_l t1 dl) as ML. pose proof (Rmin_r t1 dl) as MR.
    destruct (first_step _ _ _ _ _ _ ND H) as (be'&l1&c1&LB'&HG'&H1&H2&H3). assert (E : 0 :: map Ropp be' = 0 :: map Ropp be) by congruence.
    assert (be' = be). { inversion E as [E']. apply (f_equal (map Ropp)) in E'. rewrite !map_map in E'. rewrite !(map_ext (fun x => - - x) (fun x => x)), !map_id in E' by (intros; ring). auto. }
    subst be'. rewrite (PR t ltac:(lra)) in H3. rewrite map_const_repeat, LB in H3. fold corner in H3. inversion H3; subst l1.
    destruct (HD t ltac:(lra)) as (c&Hc&Lc). exists c1. split; auto. assert (c1 = c) by congruence. lra.
  - destruct (descent_dir L corner (map Ropp (0 :: map Ropp be)) _ RW ltac:(rewrite corner_len; cbn [map length]; rewrite !map_length; lia) HG (dot_opp_neg _ HX)) as (c0&dl&HC&DP&HD).
    exists c0, dl. split; auto. split; auto. intros t draws best lst costs TA ND H.
    destruct (first_step _ _ _ _ _ _ ND H) as (be'&l1&c1&LB'&HG'&H1&H2&H3). assert (E : 0 :: map Ropp be' = 0 :: map Ropp be) by congruence.
    assert (be' = be). { inversion E as [E']. apply (f_equal (map Ropp)) in E'. rewrite !map_map in E'. rewrite !(map_ext (fun x => - - x) (fun x => x)), !map_id in E' by (intros; ring). auto. }
    subst be'. assert (l1 = along corner (map Ropp (0 :: map Ropp be)) t).
    { rewrite H3. unfold along, corner. cbn [map map2]. f_equal; [ring|]. rewrite <- LB. clear. induction be; cbn [map map2 repeat length]; [auto|]. f_equal; [ring|auto]. }
    subst l1. destruct (HD t TA) as (c&Hc&Lc). exists c1. split; auto. assert (c1 = c) by congruence. lra.
Qed.

(** nothing moves when no weight pulls *)
Lemma corner_stays : forall (cons : bool) (g : list R) (t : R) draws best lst costs, l_grad l2_loss (of_rows L) corner = Ok g -> 0 <= t ->
  (if cons then forall x, In x g -> 0 <= x else forall x, In x g -> x = 0) ->
  stocastic_grad_descent (of_rows L) corner t cons None draws = Ok (best, lst, costs) ->
  best = corner /\ lst = corner /\ exists c0, l_cost l2_loss (of_rows L) corner = Ok c0 /\ forall c, In c costs -> c = c0.
Proof using NE ROWS ONE.
  intros cons g t draws best lst costs HG T HX H. destruct (corner_grad _ HG) as (be&LB&EG). subst g.
  destruct (sgd_trajectory _ _ _ _ _ _ _ _ _ H) as (nt&its&gs&N&L1&L2&L3&I0&IL&C&D&b&Hb&BB&_).
  rewrite corner_count in N. inversion N; subst nt.
  assert (NB : forall x, In x be -> x <= 0 /\ (cons = false -> x = 0)).
  { intros x Hx. assert (In (- x) (0 :: map Ropp be)) by (right; apply in_map; auto). destruct cons; specialize (HX _ H0); split; try discriminate; intros; lra. }
  assert (ALL : forall s, (s <= length draws)%nat -> nth s its [] = corner).
  { induction s as [|s IH]; intros Hs; auto. destruct (D s ltac:(lia)) as (HGs&raw&LR&HR&HP). cbv zeta in HGs. rewrite Nat.mod_1_r, corner_restrict, IH in HGs by lia.
    assert (EGS : nth s gs [] = 0 :: map Ropp be) by (cbn [l_grad l2_loss] in HG; congruence).
    assert (ER : raw = 1 :: map (Rmult t) be).
    { apply (corner_raw be t raw _ LB EGS); [rewrite LR; apply corner_len|]. intros k Hk. rewrite HR by (rewrite corner_len; auto). rewrite IH by lia. unfold step_target.
      f_equal. f_equal. f_equal. clear -Hs L3. assert (X : (s < length gs)%nat) by lia. clear -X. revert s X. induction gs as [|a gs IG]; intros s X; [cbn in X; lia|].
      destruct s as [|s]; [reflexivity|]. cbn [firstn nth length] in *. rewrite <- IG by lia. destruct gs; [cbn in X; lia|reflexivity]. }
    subst raw. destruct cons.
    - destruct HP as (ov&HP). rewrite prox_small in HP; [|discriminate|].
      + inversion HP as [[E1 E2]]. cbn [map]. rewrite ppos_id by lra. unfold corner. f_equal. rewrite map_map, <- LB, <- map_const_repeat. apply map_ext_in.
        intros x Hx. apply ppos_zero. destruct (NB x Hx). nra.
      + cbn [map]. rewrite nsum_cons, ppos_id by lra. rewrite map_map, nsum_zero; [lra|]. intros x Hx. apply ppos_zero. destruct (NB x Hx). nra.
    - rewrite HP. unfold corner. f_equal. rewrite <- LB, <- map_const_repeat. apply map_ext_in. intros x Hx. rewrite (proj2 (NB x Hx) eq_refl). ring. }
  split; [rewrite BB; apply ALL; auto|]. split; [rewrite <- IL; apply ALL; auto|]. exists (nth 0 costs 0). split; [rewrite <- I0 at 1; apply C; lia|].
  intros c Hc. destruct (In_nth _ _ 0 Hc) as (s&Hs&<-). destruct (C s ltac:(lia)) as (_&_&X). destruct (C 0%nat ltac:(lia)) as (_&_&Y). rewrite ALL in X, Y by lia. congruence.
Qed.
End Corner.
