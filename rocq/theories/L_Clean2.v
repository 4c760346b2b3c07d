(** L_Clean2: out-of-bag predictions, their derivative, the loss. *)
From Verif Require Import Base TreeSpec Spec M_Tree M_Gamma M_Levels M_Prox M_Grad M_Sgd M_Smooth M_Clean SpecSmooth SpecTune SpecClean.
From Verif Require Import L_Base L_Tree L_TreeModel L_TreeModel2 L_Dist L_Gamma L_Gamma2 L_Sgd L_Grad L_Smooth L_Smooth2 L_Smooth3 L_Smooth4 L_Route L_Tune L_Depth2 L_Box L_Clean.
From Coq Require Import Reals Lra Lia.
Local Open Scope R_scope.

Lemma dot_rowsum : forall (r l : list R), dot r l = sumto (length l) (fun k => nth k r 0 * nth k l 0).
Proof.
  assert (X : forall n f, sumto (S n) f = f 0%nat + sumto n (fun q => f (S q))).
  { induction n as [|n IH]; intros f; [cbn; ring|]. cbn [sumto] in *. rewrite IH. ring. }
  induction r as [|a r IH]; intros l.
  - transitivity 0; [unfold dot; cbn; auto|]. symmetry. apply sumto_zero. intros [|i] _; cbn; ring.
  - destruct l as [|b l]; [unfold dot; cbn; auto|]. rewrite dot_cons. cbn [length]. rewrite X. cbn [nth]. rewrite IH. auto.
Qed.
Lemma rowsum_dot : forall M l r, rowsum M l r = dot (nth r M []) l.
Proof. intros. rewrite dot_rowsum. auto. Qed.
Lemma ever_iff : forall oob nt o, ever oob nt o = true <-> exists q, (q < nt)%nat /\ out_of_bag oob o q = true.
Proof.
  intros. unfold ever. rewrite existsb_exists. split; intros (q&A&B); exists q; split; auto; apply in_seq in A || apply in_seq; lia.
Qed.
Lemma ever_not : forall oob nt o, ever oob nt o = false -> forall q, (q < nt)%nat -> out_of_bag oob o q = false.
Proof.
  intros oob nt o E q Hq. destruct (out_of_bag oob o q) eqn:B; auto. assert (ever oob nt o = true); [|congruence].
  apply ever_iff. eauto.
Qed.
Lemma oob_mean_ext : forall oob nt o f g, (forall q, (q < nt)%nat -> out_of_bag oob o q = true -> f q = g q) -> oob_mean oob nt o f = oob_mean oob nt o g.
Proof. intros. unfold oob_mean. f_equal. unfold sum_sel. apply sumto_ext. intros q Hq. destruct (out_of_bag oob o q) eqn:B; auto. Qed.

Lemma sumn_app_le : forall a b : list nat, (sumn a <= sumn (a ++ b))%nat.
Proof. induction a as [|x a IH]; intros b; [cbn; lia|]. cbn. specialize (IH b). unfold sumn in IH. lia. Qed.

Section Forest.
Variables (ts : list (tree R)) (oob : nat -> list nat) (X : mat R) (lf : nat -> nat -> nat) (idx : list (list nat)) (w : list R).
Variables (Gamma eta : mat R) (obs : list nat).
Hypothesis WF : Forall wf_tree ts.
Hypothesis NE : ts <> [].
Hypothesis OR : oob_rows oob (length ts) (length X).
Hypothesis LV : leaves_of ts X lf.
Hypothesis EI : generate_oob_info ts oob X = Ok (idx, w).
Hypothesis LG : length Gamma = offset ts (length ts).
Hypothesis LE : length eta = offset ts (length ts).
Hypothesis OB : forall o, In o obs -> (o < length X)%nat.
Hypothesis NO : obs <> [].

Lemma TPos : (0 < length ts)%nat.
Proof. destruct ts; [congruence|cbn; lia]. Qed.
Lemma NX : X <> [].
Proof. destruct obs as [|o ob]; [congruence|]. specialize (OB o (or_introl eq_refl)). destruct X; [cbn in OB; lia|discriminate]. Qed.
Lemma info : length idx = length X /\ length w = (length X * length ts)%nat /\ (forall r, In r idx -> length r = length ts) /\
  (forall o q, (o < length X)%nat -> (q < length ts)%nat -> nth q (nth o idx []) 0%nat = leaf_row ts lf q o) /\
  (forall o q, (o < length X)%nat -> (q < length ts)%nat -> nth (length ts * o + q) w 0 = if out_of_bag oob o q then 1 / oob_count oob (length ts) o else 0) /\
  (forall r i, In r idx -> In i r -> (i < length Gamma)%nat).
Proof.
  destruct (oob_info_val ts oob X lf WF NE NX OR LV) as (idx'&w'&E&L1&L2&UI&VI&VW).
  rewrite EI in E. assert (idx' = idx) by congruence. assert (w' = w) by congruence. subst idx' w'.
  split; auto. split; auto. split; auto. split; [intros; apply VI; auto|]. split; auto.
  intros r i Hr Hi. destruct (In_nth _ _ [] Hr) as (o&Ho&<-). destruct (In_nth _ _ 0%nat Hi) as (q&Hq&<-).
  rewrite L1 in Ho. rewrite UI in Hq by (apply nth_In; lia). destruct (VI o q Ho Hq) as [-> B]. rewrite LG.
  eapply Nat.lt_le_trans; [apply B|]. unfold offset. rewrite firstn_all. 
  rewrite <- (firstn_skipn (S q) ts) at 2. rewrite map_app. apply sumn_app_le.
Qed.

Lemma gv_val : forall lamb o q, (o < length X)%nat -> (q < length ts)%nat -> gv Gamma idx lamb o q = rowsum Gamma lamb (leaf_row ts lf q o).
Proof. intros. unfold gv. destruct info as (_&_&_&I4&_). rewrite I4 by auto. rewrite rowsum_dot. auto. Qed.
Lemma hv_val : forall lamb o q, (o < length X)%nat -> (q < length ts)%nat -> hv eta idx lamb o q = rowsum eta lamb (leaf_row ts lf q o).
Proof. intros. unfold hv. destruct info as (_&_&_&I4&_). rewrite I4 by auto. rewrite rowsum_dot. auto. Qed.
Lemma wv_val : forall o q, (o < length X)%nat -> (q < length ts)%nat -> wv w (length ts) o q = if out_of_bag oob o q then 1 / oob_count oob (length ts) o else 0.
Proof. intros. unfold wv. destruct info as (_&_&_&_&I5&_). auto. Qed.

(** *** C33 *)
Lemma y_oob_forest : forall lamb, exists y ev, calc_y_oob lamb Gamma eta idx w obs = Ok (y, ev) /\
  length y = length obs /\ ev = map (ever oob (length ts)) obs /\
  forall j, (j < length obs)%nat -> let o := nth j obs 0%nat in
    nth j y 0 = oob_mean oob (length ts) o (fun q => let g := rowsum Gamma lamb (leaf_row ts lf q o) in
                  g / (if Req_EM_T g 0 then 1 else rowsum eta lamb (leaf_row ts lf q o))).
Proof.
  intros lamb. destruct info as (I1&I2&I3&I4&I5&I6).
  destruct (y_oob_val Gamma eta idx w (length ts) (length X) obs TPos I1 I3 I2 ltac:(congruence) I6 OB lamb NO) as (y&ev&E&L1&L2&V).
  exists y, ev. split; auto. split; auto. split.
  - apply (nth_eq_ext _ _ false); [rewrite map_length; auto|]. intros j Hj. rewrite L2 in Hj. rewrite nth_map_in with (d := 0%nat) by auto.
    pose proof (OB _ (nth_In obs 0%nat Hj)) as Ho. destruct (V j Hj) as [_ B].
    assert (SE : sumto (length ts) (wv w (length ts) (nth j obs 0%nat)) = oob_mean oob (length ts) (nth j obs 0%nat) (fun _ => 1)).
    { rewrite <- weights_mean. apply sumto_ext. intros q Hq. rewrite wv_val by auto. ring. }
    rewrite SE in B. destruct (oob_mean_one oob (length ts) (nth j obs 0%nat)) as [(A&M)|(A&M)].
    + apply ever_iff in A. rewrite A. apply B. auto.
    + rewrite M in B. destruct (ever oob (length ts) (nth j obs 0%nat)) eqn:EV.
      * apply ever_iff in EV. destruct EV as (q&Hq&Q). rewrite A in Q by auto. discriminate.
      * apply Bool.not_true_is_false. intros F. apply B in F. lra.
  - intros j Hj. cbn zeta. pose proof (OB _ (nth_In obs 0%nat Hj)) as Ho. destruct (V j Hj) as [-> _].
    rewrite <- weights_mean. apply sumto_ext. intros q Hq. rewrite wv_val, gv_val, hv_val by auto. auto.
Qed.
Lemma p_C33 : forall lamb,
  (forall o q, In o obs -> (q < length ts)%nat -> out_of_bag oob o q = true ->
     rowsum eta lamb (leaf_row ts lf q o) = 0 -> rowsum Gamma lamb (leaf_row ts lf q o) = 0) ->
  exists y ev, calc_y_oob lamb Gamma eta idx w obs = Ok (y, ev) /\ length y = length obs /\ length ev = length obs /\
  forall j, (j < length obs)%nat -> let o := nth j obs 0%nat in
    (nth j ev false = true <-> exists q, (q < length ts)%nat /\ out_of_bag oob o q = true) /\
    (nth j ev false = true -> nth j y 0 = oob_mean oob (length ts) o (fun q => smoothed Gamma eta lamb (leaf_row ts lf q o))) /\
    (nth j ev false = false -> nth j y 0 = 0).
Proof.
  intros lamb ZZ. destruct (y_oob_forest lamb) as (y&ev&E&L1&->&V). exists y. eexists. split; [exact E|]. split; auto. split; [apply map_length|].
  intros j Hj. cbn zeta. rewrite nth_map_in with (d := 0%nat) by auto. split; [apply ever_iff|]. rewrite V by auto. split.
  - intros _. apply oob_mean_ext. intros q Hq B. cbn zeta. unfold smoothed.
    specialize (ZZ (nth j obs 0%nat) q (nth_In _ _ Hj) Hq B).
    destruct (Req_EM_T (rowsum eta lamb (leaf_row ts lf q (nth j obs 0%nat))) 0) as [Z|Z].
    + rewrite (ZZ Z). unfold Rdiv. ring.
    + destruct (Req_EM_T (rowsum Gamma lamb (leaf_row ts lf q (nth j obs 0%nat))) 0) as [Z1|Z1]; auto. rewrite Z1. unfold Rdiv. ring.
  - intros F. unfold oob_mean. rewrite oob_none by (apply ever_not; auto). unfold Rdiv. ring.
Qed.

(** *** C34 *)
Lemma grad_forest : forall lamb, exists g, calc_y_oob_grad lamb Gamma eta idx w obs = Ok g /\ length g = length obs /\
  forall j, (j < length obs)%nat -> let o := nth j obs 0%nat in length (nth j g []) = length lamb /\
  forall k, (k < length lamb)%nat ->
    (forall q, (q < length ts)%nat -> out_of_bag oob o q = true -> rowsum eta lamb (leaf_row ts lf q o) <> 0) ->
    nth k (nth j g []) 0 = oob_mean oob (length ts) o (fun q => let r := leaf_row ts lf q o in
      let G := rowsum Gamma lamb r in let H := rowsum eta lamb r in
      nth k (nth r Gamma []) 0 / (if Req_EM_T G 0 then 1 else G) - G * nth k (nth r eta []) 0 / (H * H)).
Proof.
  intros lamb. destruct info as (I1&I2&I3&I4&I5&I6).
  destruct (y_oob_grad_val Gamma eta idx w (length ts) (length X) obs TPos I1 I3 I2 ltac:(congruence) I6 OB lamb NO) as (g&E&L1&V).
  exists g. split; auto. split; auto. intros j Hj. cbn zeta. destruct (V j Hj) as [L2 V2]. split; auto.
  intros k Hk NZ. rewrite (V2 k Hk). pose proof (OB _ (nth_In obs 0%nat Hj)) as Ho. rewrite <- weights_mean.
  unfold Rminus at 1. rewrite <- (Rmult_1_l (sumto (length ts) (fun q => gv _ _ _ _ _ / _ * _ * _))). rewrite Ropp_mult_distr_l.
  rewrite <- sumto_scal, <- sumto_plus. apply sumto_ext. intros q Hq. rewrite wv_val, gv_val, hv_val, I4 by auto.
  destruct (out_of_bag oob (nth j obs 0%nat) q) eqn:B; [|ring]. specialize (NZ q Hq B).
  destruct (Req_EM_T (rowsum eta lamb (leaf_row ts lf q (nth j obs 0%nat))) 0); [contradiction|]. unfold Rdiv. ring.
Qed.

Lemma y_oob_derivative : forall lamb k j, (k < length lamb)%nat -> (j < length obs)%nat -> let o := nth j obs 0%nat in
  (forall q, (q < length ts)%nat -> out_of_bag oob o q = true -> rowsum eta lamb (leaf_row ts lf q o) <> 0) ->
  exists f delta, 0 < delta /\
    (forall x, Rabs (x - nth k lamb 0) < delta -> exists y ev, calc_y_oob (upd lamb k x) Gamma eta idx w obs = Ok (y, ev) /\ nth j y 0 = f x) /\
    derivable_pt_lim f (nth k lamb 0) (oob_mean oob (length ts) o (fun q => let r := leaf_row ts lf q o in
      let G := rowsum Gamma lamb r in let H := rowsum eta lamb r in
      (nth k (nth r Gamma []) 0 * H - G * nth k (nth r eta []) 0) / (H * H))).
Proof.
  intros lamb k j Hk Hj. cbn zeta. set (o := nth j obs 0%nat). intros NZ.
  pose proof (OB _ (nth_In obs 0%nat Hj)) as Ho. fold o in Ho. set (x0 := nth k lamb 0).
  set (g0 := fun q => rowsum Gamma lamb (leaf_row ts lf q o)). set (h0 := fun q => rowsum eta lamb (leaf_row ts lf q o)).
  set (gk := fun q => nth k (nth (leaf_row ts lf q o) Gamma []) 0). set (hk := fun q => nth k (nth (leaf_row ts lf q o) eta []) 0).
  set (c := oob_count oob (length ts) o).
  set (f := fun x => nsum (map (fun q => (if out_of_bag oob o q then (g0 q + gk q * (x - x0)) / (h0 q + hk q * (x - x0)) else 0) * / c) (seq 0 (length ts)))).
  destruct (finite_delta (fun q h => forall x, Rabs (x - x0) = h -> out_of_bag oob o q = true -> h0 q + hk q * (x - x0) <> 0) (seq 0 (length ts))) as (dl&Pd&Qd).
  { intros q Hq. apply in_seq in Hq. destruct (out_of_bag oob o q) eqn:B; [|exists 1; split; [lra|intros; discriminate]].
    destruct (affine_nonzero (h0 q) (hk q) x0 (NZ q ltac:(lia) B)) as (d&P1&P2). exists d. split; auto. intros h Hh x Hx _. apply P2. lra. }
  exists f, dl. split; auto. split.
  - intros x Hx. destruct (y_oob_forest (upd lamb k x)) as (y&ev&E&_&_&V). exists y, ev. split; auto. rewrite (V j Hj). fold o.
    unfold f, oob_mean, sum_sel, Rdiv at 1.
    transitivity (sumto (length ts) (fun q => (if out_of_bag oob o q then (g0 q + gk q * (x - x0)) / (h0 q + hk q * (x - x0)) else 0) * / c)).
    + rewrite sumto_scal_r. f_equal. apply sumto_ext. intros q Hq. destruct (out_of_bag oob o q) eqn:B; auto. cbn zeta.
      rewrite !rowsum_dot, !dot_upd by auto. rewrite <- !rowsum_dot. fold x0. fold (g0 q) (h0 q) (gk q) (hk q).
      destruct (Req_EM_T (g0 q + gk q * (x - x0)) 0) as [Z|Z]; auto. rewrite Z. unfold Rdiv. ring.
    + rewrite nsum_sumto, map_length, seq_length. apply sumto_ext. intros q Hq. rewrite nth_map_seq by auto. auto.
  - eapply derivable_val.
    + unfold f. apply (derivable_nsum (fun q x => (if out_of_bag oob o q then (g0 q + gk q * (x - x0)) / (h0 q + hk q * (x - x0)) else 0) * / c)
        (fun q => (if out_of_bag oob o q then (gk q * h0 q - g0 q * hk q) / (h0 q * h0 q) else 0) * / c)).
      intros q Hq. apply in_seq in Hq. destruct (out_of_bag oob o q) eqn:B.
      * eapply derivable_val; [eapply derivable_ext; [|apply (derivable_pt_lim_scal _ (/ c) _ _ (derivable_ratio (g0 q) (gk q) (h0 q) (hk q) x0 (NZ q ltac:(lia) B)))]|].
        -- intros z. unfold mult_real_fct. ring.
        -- ring.
      * eapply derivable_val; [apply derivable_pt_lim_const|ring].
    + rewrite nsum_sumto, map_length, seq_length. unfold oob_mean, sum_sel, Rdiv at 2. rewrite <- sumto_scal_r. apply sumto_ext. intros q Hq.
      rewrite nth_map_seq by auto. auto.
Qed.
End Forest.

(** *** the loss *)
Lemma sumto_S0 : forall n f, sumto (S n) f = f 0%nat + sumto n (fun q => f (S q)).
Proof. induction n as [|n IH]; intros f; [cbn; ring|]. cbn [sumto] in *. rewrite IH. ring. Qed.
Lemma masked_sq : forall (e : list bool) (a b : list R), length a = length e -> length b = length e ->
  nsum (map (fun x => x * x) (map2 Rminus (mask_select e a) (mask_select e b))) =
  sumto (length e) (fun j => if nth j e false then (nth j a 0 - nth j b 0) * (nth j a 0 - nth j b 0) else 0).
Proof.
  induction e as [|x e IH]; intros [|u a] [|v b] La Lb; try discriminate; [reflexivity|].
  cbn [length]. rewrite sumto_S0. cbn [nth]. rewrite <- IH by (cbn in *; lia).
  destruct x; cbn [mask_select map2 map]; rewrite ?nsum_cons; ring || (rewrite Rplus_0_l; auto).
Qed.
Lemma countb_sum : forall e : list bool, INR (countb e) = sumto (length e) (fun j => if nth j e false then 1 else 0).
Proof.
  induction e as [|x e IH]; [reflexivity|]. cbn [length]. rewrite sumto_S0. cbn [nth]. rewrite <- IH. unfold countb. destruct x; cbn [filter].
  - cbn [length]. rewrite S_INR. ring.
  - ring.
Qed.

Section Loss.
Variables (ts : list (tree R)) (oob : nat -> list nat) (X : mat R) (lf : nat -> nat -> nat) (idx : list (list nat)) (w : list R).
Variables (Gamma eta : mat R) (y : list R).
Hypothesis WF : Forall wf_tree ts.
Hypothesis NE : ts <> [].
Hypothesis OR : oob_rows oob (length ts) (length X).
Hypothesis LV : leaves_of ts X lf.
Hypothesis EI : generate_oob_info ts oob X = Ok (idx, w).
Hypothesis LG : length Gamma = offset ts (length ts).
Hypothesis LE : length eta = offset ts (length ts).
Hypothesis LY : length y = length X.

Definition cP : clean_problem R := {| c_Gamma := Gamma; c_eta := eta; c_idx := idx; c_w := w; c_y := y |}.
Definition pred lamb o := oob_mean oob (length ts) o (fun q => let g := rowsum Gamma lamb (leaf_row ts lf q o) in
                  g / (if Req_EM_T g 0 then 1 else rowsum eta lamb (leaf_row ts lf q o))).

Lemma part_cost_val : forall lamb obs, (forall o, In o obs -> (o < length X)%nat) -> obs <> [] ->
  part_cost cP lamb obs = Ok (oob_mse oob (length ts) obs y (pred lamb)).
Proof.
  intros lamb obs OB NO. unfold part_cost. cbn [c_Gamma c_eta c_idx c_w c_y cP].
  destruct (y_oob_forest ts oob X lf idx w Gamma eta obs WF NE OR LV EI LG LE OB NO lamb) as (yo&ev&E&L1&->&V). rewrite E. cbn [bind].
  destruct (take_rows_val y obs) as (yi&E2&L2&V2); [intros; rewrite LY; auto|]. rewrite E2. cbn [bind].
  unfold calc_cost_l2_straight. rewrite map_length, L1, L2, !Nat.eqb_refl. cbn [andb]. f_equal. unfold oob_mse, n_ever. rn.
  change (map2 _ (mask_select ?e yo) (mask_select ?e yi)) with (map2 Rminus (mask_select e yo) (mask_select e yi)).
  rewrite masked_sq by (rewrite map_length; auto). rewrite countb_sum. rewrite !map_length. f_equal; apply sumto_ext; intros j Hj; rewrite nth_map_in with (d := 0%nat) by auto.
  - cbn zeta. rewrite (V j Hj), (V2 j 0 Hj). auto.
  - auto.
Qed.
Lemma full_cost_val : forall lamb, X <> [] ->
  full_cost cP lamb = Ok (oob_mse oob (length ts) (seq 0 (length X)) y (pred lamb)).
Proof.
  intros lamb NX. assert (LI : length idx = length X) by (destruct (oob_info_val ts oob X lf WF NE NX OR LV) as (i'&w'&E&L&_); congruence).
  rewrite <- part_cost_val.
  - unfold full_cost, part_cost. cbn [c_Gamma c_eta c_idx c_w c_y cP]. rewrite LI.
    destruct (calc_y_oob lamb Gamma eta idx w (seq 0 (length X))) as [[yo ev]|]; cbn [bind]; auto.
    destruct (take_rows_val y (seq 0 (length X))) as (yi&E2&L2&V2); [intros i Hi; apply in_seq in Hi; lia|]. rewrite E2. cbn [bind].
    f_equal. apply (nth_eq_ext _ _ 0); rewrite seq_length in *; [lia|]. intros j Hj. rewrite LY in Hj. rewrite V2 by auto. rewrite seq_nth by auto. auto.
  - intros o Ho. apply in_seq in Ho. lia.
  - destruct X; [congruence|discriminate].
Qed.
Lemma pred_smoothed : forall lamb o, 
  (forall q, (q < length ts)%nat -> out_of_bag oob o q = true ->
     rowsum eta lamb (leaf_row ts lf q o) = 0 -> rowsum Gamma lamb (leaf_row ts lf q o) = 0) ->
  pred lamb o = oob_mean oob (length ts) o (fun q => smoothed Gamma eta lamb (leaf_row ts lf q o)).
Proof.
  intros lamb o ZZ. apply oob_mean_ext. intros q Hq B. cbn zeta. unfold smoothed. specialize (ZZ q Hq B).
  destruct (Req_EM_T (rowsum eta lamb (leaf_row ts lf q o)) 0) as [Z|Z].
  + rewrite (ZZ Z). unfold Rdiv. ring.
  + destruct (Req_EM_T (rowsum Gamma lamb (leaf_row ts lf q o)) 0) as [Z1|Z1]; auto. rewrite Z1. unfold Rdiv. ring.
Qed.
Lemma oob_mse_ext : forall obs p p', (forall o, In o obs -> p o = p' o) -> oob_mse oob (length ts) obs y p = oob_mse oob (length ts) obs y p'.
Proof.
  intros obs p p' H. unfold oob_mse. f_equal. apply sumto_ext. intros j Hj. cbn zeta. rewrite (H (nth j obs 0%nat)) by (apply nth_In; auto). auto.
Qed.
Lemma p_C33_cost : forall lamb, X <> [] ->
  (forall o q, (o < length X)%nat -> (q < length ts)%nat -> out_of_bag oob o q = true ->
     rowsum eta lamb (leaf_row ts lf q o) = 0 -> rowsum Gamma lamb (leaf_row ts lf q o) = 0) ->
  full_cost cP lamb = Ok (oob_mse oob (length ts) (seq 0 (length X)) y (fun o => oob_mean oob (length ts) o (fun q => smoothed Gamma eta lamb (leaf_row ts lf q o)))).
Proof.
  intros lamb NX ZZ. rewrite full_cost_val by auto. f_equal. apply oob_mse_ext. intros o Ho. apply in_seq in Ho. apply pred_smoothed.
  intros q. apply ZZ. lia.
Qed.

(** the gradient of the loss, in terms of calc_y_oob_grad *)
Lemma l2_grad_val : forall lamb obs, (forall o, In o obs -> (o < length X)%nat) -> obs <> [] ->
  (forall o q, In o obs -> (q < length ts)%nat -> out_of_bag oob o q = true -> rowsum eta lamb (leaf_row ts lf q o) <> 0) ->
  exists g r, calc_y_oob_grad lamb Gamma eta idx w obs = Ok g /\ calc_l2_grad lamb Gamma eta idx w obs y = Ok r /\ length r = length lamb /\
  forall k, (k < length lamb)%nat -> nth k r 0 =
    sumto (length obs) (fun j => let o := nth j obs 0%nat in if ever oob (length ts) o then 2 * (pred lamb o - nth o y 0) * nth k (nth j g []) 0 else 0) / n_ever oob (length ts) obs.
Proof.
  intros lamb obs OB NO NZ.
  destruct (y_oob_forest ts oob X lf idx w Gamma eta obs WF NE OR LV EI LG LE OB NO lamb) as (yo&ev&E&L1&->&V).
  destruct (grad_forest ts oob X lf idx w Gamma eta obs WF NE OR LV EI LG LE OB NO lamb) as (g&E3&L3&V3).
  destruct (take_rows_val y obs) as (yi&E2&L2&V2); [intros; rewrite LY; auto|].
  exists g. unfold calc_l2_grad. rewrite E2. cbn [bind]. rewrite E. cbn [bind]. rewrite E3. cbn [bind].
  eexists. split; [reflexivity|]. split; [reflexivity|]. split; [rewrite map_length, seq_length; auto|].
  intros k Hk. rewrite nth_map_seq by auto. cbn [Nat.add]. rewrite dot_sumto by (rewrite map2_length, col_length; lia).
  rewrite map2_length, L1, L2, Nat.min_id. unfold Rdiv at 1. rewrite <- sumto_scal_r. apply sumto_ext. intros j Hj. cbn zeta.
  rewrite nth_map2 with (da := 0) (db := 0) by lia. rewrite col_nth. rewrite (V j Hj), (V2 j 0 Hj). change (oob_mean oob (length ts) (nth j obs 0%nat) _) with (pred lamb (nth j obs 0%nat)).
  unfold n_ever. rn. rewrite countb_sum, map_length.
  assert (SE : sumto (length obs) (fun j => if nth j (map (ever oob (length ts)) obs) false then 1 else 0) =
    sumto (length obs) (fun j => if ever oob (length ts) (nth j obs 0%nat) then 1 else 0)).
  { apply sumto_ext. intros i Hi. rewrite nth_map_in with (d := 0%nat) by auto. auto. }
  rewrite SE. destruct (ever oob (length ts) (nth j obs 0%nat)) eqn:EV; [unfold Rdiv; ring|].
  destruct (V3 j Hj) as [_ G3]. rewrite (G3 k Hk); [|intros; apply NZ; auto; apply nth_In; auto].
  unfold oob_mean at 1. rewrite oob_none by (apply ever_not; auto). unfold Rdiv. ring.
Qed.
End Loss.
