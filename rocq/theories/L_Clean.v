(** L_Clean: lemmas about the out-of-bag bookkeeping and predictions. *)
From Verif Require Import Base TreeSpec Spec M_Tree M_Gamma M_Levels M_Prox M_Grad M_Sgd M_Smooth M_Clean SpecSmooth SpecTune SpecClean.
From Verif Require Import L_Base L_Tree L_TreeModel L_TreeModel2 L_Dist L_Gamma L_Gamma2 L_Sgd L_Grad L_Smooth L_Smooth2 L_Smooth3 L_Smooth4 L_Route L_Tune L_Depth2 L_Box.
From Coq Require Import Reals Lra Lia.
Local Open Scope R_scope.

(** *** lists *)
Lemma take_rows_val : forall {A} (l : list A) idx, (forall i, In i idx -> (i < length l)%nat) ->
  exists r, take_rows l idx = Ok r /\ length r = length idx /\
  forall j d, (j < length idx)%nat -> nth j r d = nth (nth j idx 0%nat) l d.
Proof.
  intros A l idx H. destruct (take_rows_total l idx H) as (r&E&L). exists r. split; auto. split; auto.
  intros j d Hj. unfold take_rows in E. destruct (mapM_nth_error _ _ _ E j (nth j idx 0%nat)) as (y&Y1&Y2).
  - apply nth_error_nth'; auto.
  - destruct (nth_error l (nth j idx 0%nat)) as [z|] eqn:Z; [|discriminate].
    rewrite (nth_error_nth _ _ d Y1), (nth_error_nth _ _ d Z). congruence.
Qed.
Lemma concat_uniform : forall {A} (bl : list (list A)) T, (forall r, In r bl -> length r = T) ->
  length (concat bl) = (length bl * T)%nat /\
  forall j q d, (j < length bl)%nat -> (q < T)%nat -> nth (j * T + q) (concat bl) d = nth q (nth j bl []) d.
Proof.
  induction bl as [|b bl IH]; intros T H; [split; auto; intros; cbn in *; lia|].
  destruct (IH T (fun r Hr => H r (or_intror Hr))) as [A1 A2]. pose proof (H b (or_introl eq_refl)) as LB.
  cbn [concat length]. split; [rewrite app_length, A1, LB; lia|].
  intros [|j] q d Hj Hq; cbn [nth].
  - rewrite app_nth1 by lia. auto.
  - rewrite app_nth2 by lia. rewrite LB. replace (S j * T + q - T)%nat with (j * T + q)%nat by lia. apply A2; lia.
Qed.
Lemma divmod : forall n k (j : nat), (j < n * k)%nat -> (0 < k)%nat -> (j / k < n)%nat /\ (j mod k < k)%nat /\ j = (j / k * k + j mod k)%nat.
Proof.
  intros n k j H P. pose proof (Nat.div_mod j k ltac:(lia)). split; [apply Nat.div_lt_upper_bound; lia|].
  split; [apply Nat.mod_upper_bound; lia|]. lia.
Qed.
Lemma div_block : forall (j k q : nat), (q < k)%nat -> ((j * k + q) / k = j)%nat.
Proof. intros. rewrite Nat.div_add_l by lia. rewrite Nat.div_small by auto. lia. Qed.

Lemma kron_dot : forall n k (v : list R) j, length v = (n * k)%nat -> (j < n)%nat ->
  nth j (mv (kron_ones n k) v) 0 = sumto k (fun q => nth (j * k + q) v 0).
Proof.
  intros n k v j Lv Hj. rewrite mv_nth. unfold kron_ones. rewrite nth_map_seq by auto.
  rewrite dot_sumto by (rewrite map_length, seq_length; auto). rewrite map_length, seq_length. rewrite sumto_blocks.
  rewrite (sumto_single n _ j Hj).
  - apply sumto_ext. intros q Hq. rewrite nth_map_seq by nia. cbn [Nat.add]. rewrite div_block by auto. rewrite Nat.eqb_refl. rn. ring.
  - intros i Hi NE. apply sumto_zero. intros q Hq. rewrite nth_map_seq by nia. cbn [Nat.add]. rewrite div_block by auto.
    destruct (Nat.eqb_spec i j); [contradiction|]. rn. ring.
Qed.
Lemma block_diag_nth : forall (bs : mat R) k, (forall b, In b bs -> length b = k) -> forall j, (j < length bs)%nat ->
  length (nth j (block_diag bs) []) = (length bs * k)%nat /\
  forall i q, (i < length bs)%nat -> (q < k)%nat ->
    nth (i * k + q) (nth j (block_diag bs) []) 0 = if Nat.eqb i j then nth q (nth j bs []) 0 else 0.
Proof.
  intros bs k H j Hj. unfold block_diag. rewrite nth_map_seq by auto. cbn [Nat.add].
  set (f := fun jb : nat * list R => if Nat.eqb (fst jb) j then snd jb else repeat 0 (length (snd jb))).
  set (bl := map f (combine (seq 0 (length bs)) bs)).
  assert (LB : length bl = length bs) by (unfold bl; rewrite map_length, combine_length, seq_length; lia).
  assert (NB : forall i, (i < length bs)%nat -> nth i bl [] = if Nat.eqb i j then nth i bs [] else repeat 0 k).
  { intros i Hi. unfold bl. rewrite nth_map_in with (d := (0%nat, [])) by (rewrite combine_length, seq_length; lia).
    rewrite combine_nth by (rewrite seq_length; auto). rewrite seq_nth by auto. unfold f. cbn [fst snd Nat.add].
    rewrite (H (nth i bs [])) by (apply nth_In; auto). auto. }
  assert (UL : forall r, In r bl -> length r = k).
  { intros r Hr. destruct (In_nth _ _ [] Hr) as (i&Hi&<-). rewrite LB in Hi. rewrite NB by auto.
    destruct (Nat.eqb i j); [apply H, nth_In; auto|apply repeat_length]. }
  destruct (concat_uniform bl k UL) as [A1 A2]. change (@n0 R _) with 0. fold f. fold bl. split; [rewrite A1, LB; auto|].
  intros i q Hi Hq. rewrite A2 by (rewrite ?LB; auto). rewrite NB by auto.
  destruct (Nat.eqb_spec i j) as [->|]; auto. apply nth_repeat_lt; auto.
Qed.
Lemma block_dot : forall (bs : mat R) k w v j, (forall b, In b bs -> length b = k) -> (j < length bs)%nat ->
  length w = (length bs * k)%nat -> length v = (length bs * k)%nat ->
  dot (map2 nmul (nth j (block_diag bs) []) w) v = sumto k (fun q => nth q (nth j bs []) 0 * nth (j * k + q) w 0 * nth (j * k + q) v 0).
Proof.
  intros bs k w v j H Hj Lw Lv. destruct (block_diag_nth bs k H j Hj) as [LB VB].
  rewrite dot_sumto by (rewrite map2_length, LB, Lw, Lv; lia). rewrite map2_length, LB, Lw, Nat.min_id. rewrite sumto_blocks.
  rewrite (sumto_single (length bs) _ j Hj).
  - apply sumto_ext. intros q Hq. rewrite nth_map2 with (da := 0) (db := 0) by (rewrite ?LB, ?Lw; nia).
    rewrite VB by auto. rewrite Nat.eqb_refl. rn. ring.
  - intros i Hi NE. apply sumto_zero. intros q Hq. rewrite nth_map2 with (da := 0) (db := 0) by (rewrite ?LB, ?Lw; nia).
    rewrite VB by auto. destruct (Nat.eqb_spec i j); [contradiction|]. rn. ring.
Qed.
Lemma slice_nth : forall (l : list R) i k n, length l = (n * k)%nat -> (i < n)%nat ->
  length (slice i k l) = k /\ forall q, (q < k)%nat -> nth q (slice i k l) 0 = nth (i * k + q) l 0.
Proof.
  intros l i k n L Hi. unfold slice. split; [rewrite firstn_length, skipn_length; nia|].
  intros q Hq. rewrite <- (firstn_skipn (i * k) l) at 2. rewrite app_nth2 by (rewrite firstn_length; nia).
  rewrite firstn_length, Nat.min_l by nia. replace (i * k + q - i * k)%nat with q by lia.
  rewrite <- (firstn_skipn k (skipn (i * k) l)) at 2. rewrite app_nth1 by (rewrite firstn_length, skipn_length; nia). auto.
Qed.

(** *** a rectangular index array *)
Section Pred.
Variables (Gamma eta : mat R) (idx : list (list nat)) (w : list R) (T n : nat) (obs : list nat).
Hypothesis TP : (0 < T)%nat.
Hypothesis LI : length idx = n.
Hypothesis RI : forall r, In r idx -> length r = T.
Hypothesis LW : length w = (n * T)%nat.
Hypothesis LGE : length Gamma = length eta.
Hypothesis IR : forall r i, In r idx -> In i r -> (i < length Gamma)%nat.
Hypothesis OB : forall o, In o obs -> (o < n)%nat.

Notation ix o q := (nth q (nth o idx []) 0%nat).
Notation Lm := (length obs).

Lemma trees_T : obs <> [] -> n_trees idx = T.
Proof.
  intros NE. unfold n_trees. destruct obs as [|o ob]; [congruence|]. specialize (OB o (or_introl eq_refl)).
  destruct idx as [|r rs]; [cbn in LI; lia|]. apply RI. left; auto.
Qed.
Lemma weights_ok : obs <> [] -> exists ws, obs_weights idx w obs = Ok ws /\ length ws = Lm /\ (forall r, In r ws -> length r = T) /\
  forall j q, (j < Lm)%nat -> (q < T)%nat -> nth q (nth j ws []) 0 = nth (T * nth j obs 0%nat + q) w 0.
Proof.
  intros NE. unfold obs_weights. rewrite (trees_T NE).
  assert (ONE : forall o, In o obs -> exists r, take_rows w (seq (T * o) T) = Ok r /\ length r = T /\ forall q, (q < T)%nat -> nth q r 0 = nth (T * o + q) w 0).
  { intros o Ho. destruct (take_rows_val w (seq (T * o) T)) as (r&E&L&V).
    - intros i Hi. apply in_seq in Hi. specialize (OB o Ho). rewrite LW. nia.
    - rewrite seq_length in L, V. exists r. split; auto. split; auto. intros q Hq. rewrite V by auto. rewrite seq_nth by auto. auto. }
  destruct (mapM_total (fun ob => take_rows w (seq (T * ob) T)) obs) as (ws&E&L).
  { intros o Ho. destruct (ONE o Ho) as (r&Er&_). eauto. }
  assert (X : forall j, (j < Lm)%nat -> take_rows w (seq (T * nth j obs 0%nat) T) = Ok (nth j ws [])).
  { intros j Hj. destruct (mapM_nth_error _ _ _ E j (nth j obs 0%nat)) as (y&Y1&Y2); [apply nth_error_nth'; auto|].
    rewrite (nth_error_nth _ _ [] Y1). auto. }
  exists ws. split; auto. split; auto. split.
  - intros r Hr. destruct (In_nth _ _ [] Hr) as (j&Hj&<-). rewrite L in Hj.
    destruct (ONE (nth j obs 0%nat) (nth_In _ _ Hj)) as (r'&E1&L1&_). rewrite X in E1 by auto. congruence.
  - intros j q Hj Hq. destruct (ONE (nth j obs 0%nat) (nth_In _ _ Hj)) as (r'&E1&L1&V1). rewrite X in E1 by auto.
    assert (r' = nth j ws []) by congruence. subst r'. auto.
Qed.
Lemma GH_ok : exists G H, create_G_H Gamma eta idx obs = Ok (G, H) /\ length G = (Lm * T)%nat /\ length H = (Lm * T)%nat /\
  forall j q, (j < Lm)%nat -> (q < T)%nat ->
    nth (j * T + q) G [] = nth (ix (nth j obs 0%nat) q) Gamma [] /\ nth (j * T + q) H [] = nth (ix (nth j obs 0%nat) q) eta [].
Proof.
  destruct (take_rows_val idx obs) as (cur&E&L&V); [intros; rewrite LI; auto|].
  assert (CI : forall r, In r cur -> In r idx).
  { intros r Hr. destruct (In_nth _ _ [] Hr) as (j&Hj&<-). rewrite L in Hj. rewrite V by auto. apply nth_In. rewrite LI. apply OB, nth_In; auto. }
  destruct (concat_uniform cur T (fun r Hr => RI r (CI r Hr))) as [CL CV]. rewrite L in CL.
  assert (RG : forall i, In i (concat cur) -> (i < length Gamma)%nat).
  { intros i Hi. apply in_concat in Hi. destruct Hi as (r&Hr&Hi). eapply IR; eauto. }
  destruct (take_rows_val Gamma (concat cur) RG) as (G&EG&LG&VG).
  destruct (take_rows_val eta (concat cur)) as (H&EH&LH&VH); [rewrite <- LGE; auto|].
  exists G, H. unfold create_G_H. rewrite E. cbn [bind]. rewrite EG. cbn [bind]. rewrite EH. cbn [bind].
  split; auto. split; [lia|]. split; [lia|]. intros j q Hj Hq.
  rewrite VG, VH by nia. rewrite CV by lia. rewrite V by auto. auto.
Qed.

Definition gv lamb o q := dot (nth (ix o q) Gamma []) lamb.
Definition hv lamb o q := dot (nth (ix o q) eta []) lamb.
Definition wv o q := nth (T * o + q) w 0.

Lemma y_oob_val : forall lamb, obs <> [] -> exists y ever, calc_y_oob lamb Gamma eta idx w obs = Ok (y, ever) /\
  length y = Lm /\ length ever = Lm /\ forall j, (j < Lm)%nat -> let o := nth j obs 0%nat in
    nth j y 0 = sumto T (fun q => wv o q * (gv lamb o q / (if Req_EM_T (gv lamb o q) 0 then 1 else hv lamb o q))) /\
    (nth j ever false = true <-> sumto T (wv o) = 1).
Proof.
  intros lamb NE. destruct (weights_ok NE) as (ws&EW&LWs&UW&VW). destruct GH_ok as (G&H&EGH&LG&LH&V).
  unfold calc_y_oob, calc_G_H_fill. rewrite EW. cbn [bind]. rewrite EGH. cbn [bind].
  destruct (concat_uniform ws T UW) as [CL CV]. rewrite LWs in CL.
  eexists. eexists. split; [reflexivity|]. rewrite (trees_T NE). split; [rewrite mv_length; unfold kron_ones; rewrite map_length, seq_length; auto|].
  split; [unfold ever_oob; rewrite map_length; auto|]. intros j Hj. cbn zeta. split.
  - rewrite kron_dot by (auto; rewrite !map2_length, CL, !mv_length, LG, LH; lia).
    apply sumto_ext. intros q Hq. destruct (V j q Hj Hq) as [VG VH].
    rewrite nth_map2 with (da := 0) (db := 0) by (rewrite ?map2_length, ?CL, ?mv_length, ?LG, ?LH; nia).
    rewrite CV by lia. rewrite VW by auto.
    rewrite nth_map2 with (da := 0) (db := 0) by (rewrite ?map2_length, ?CL, ?mv_length, ?LG, ?LH; nia).
    rewrite nth_map2 with (da := 0) (db := 0) by (rewrite ?map2_length, ?CL, ?mv_length, ?LG, ?LH; nia).
    rewrite !mv_nth, VG, VH. fold (gv lamb (nth j obs 0%nat) q). fold (hv lamb (nth j obs 0%nat) q). fold (wv (nth j obs 0%nat) q). rn.
    destruct (Reqb_spec (gv lamb (nth j obs 0%nat) q) 0) as [E|E]; destruct (Req_EM_T (gv lamb (nth j obs 0%nat) q) 0); try contradiction; auto.
  - unfold ever_oob. rewrite nth_map_in with (d := []) by lia. rn.
    assert (EQ : nsum (nth j ws []) = sumto T (wv (nth j obs 0%nat))).
    { rewrite nsum_sumto. rewrite (UW (nth j ws [])) by (apply nth_In; lia). apply sumto_ext. intros q Hq. apply VW; auto. }
    rewrite EQ. destruct (Reqb_spec (sumto T (wv (nth j obs 0%nat))) 1); split; auto; intros; try discriminate; contradiction.
Qed.
Lemma y_oob_grad_val : forall lamb, obs <> [] -> exists g, calc_y_oob_grad lamb Gamma eta idx w obs = Ok g /\ length g = Lm /\
  forall j, (j < Lm)%nat -> let o := nth j obs 0%nat in length (nth j g []) = length lamb /\
  forall k, (k < length lamb)%nat -> nth k (nth j g []) 0 =
    sumto T (fun q => 1 / (if Req_EM_T (gv lamb o q) 0 then 1 else gv lamb o q) * wv o q * nth k (nth (ix o q) Gamma []) 0) -
    sumto T (fun q => gv lamb o q / ((if Req_EM_T (hv lamb o q) 0 then 1 else hv lamb o q) * (if Req_EM_T (hv lamb o q) 0 then 1 else hv lamb o q))
                       * wv o q * nth k (nth (ix o q) eta []) 0).
Proof.
  intros lamb NE. destruct (weights_ok NE) as (ws&EW&LWs&UW&VW). destruct GH_ok as (G&H&EGH&LG&LH&V).
  unfold calc_y_oob_grad, calc_G_H_fill. rewrite EW. cbn [bind]. rewrite EGH. cbn [bind].
  destruct (concat_uniform ws T UW) as [CL CV]. rewrite LWs in CL. rewrite (trees_T NE).
  set (b1 := map (get_G_fill (mv G lamb) T) (seq 0 Lm)). set (b2 := map (get_G_over_H2_fill (mv G lamb) (mv H lamb) T) (seq 0 Lm)).
  assert (L1 : length b1 = Lm) by (unfold b1; rewrite map_length, seq_length; auto).
  assert (L2 : length b2 = Lm) by (unfold b2; rewrite map_length, seq_length; auto).
  assert (LMG : length (mv G lamb) = (Lm * T)%nat) by (rewrite mv_length; auto).
  assert (LMH : length (mv H lamb) = (Lm * T)%nat) by (rewrite mv_length; auto).
  assert (V1 : forall j, (j < Lm)%nat -> length (nth j b1 []) = T /\ forall q, (q < T)%nat -> nth q (nth j b1 []) 0 =
    1 / (if Req_EM_T (gv lamb (nth j obs 0%nat) q) 0 then 1 else gv lamb (nth j obs 0%nat) q)).
  { intros j Hj. destruct (slice_nth (mv G lamb) j T Lm LMG Hj) as [S1 S2]. unfold b1. rewrite nth_map_seq by auto. cbn [Nat.add]. unfold get_G_fill.
    split; [rewrite map_length, fill1_length; auto|]. intros q Hq. rewrite nth_map_in with (d := 0) by (rewrite fill1_length; lia).
    rewrite fill1_nth by lia. rewrite S2 by auto. rewrite mv_nth. rewrite (proj1 (V j q Hj Hq)). fold (gv lamb (nth j obs 0%nat) q). rn. reflexivity. }
  assert (V2 : forall j, (j < Lm)%nat -> length (nth j b2 []) = T /\ forall q, (q < T)%nat -> nth q (nth j b2 []) 0 =
    gv lamb (nth j obs 0%nat) q / ((if Req_EM_T (hv lamb (nth j obs 0%nat) q) 0 then 1 else hv lamb (nth j obs 0%nat) q) *
       (if Req_EM_T (hv lamb (nth j obs 0%nat) q) 0 then 1 else hv lamb (nth j obs 0%nat) q))).
  { intros j Hj. destruct (slice_nth (mv G lamb) j T Lm LMG Hj) as [S1 S2]. destruct (slice_nth (mv H lamb) j T Lm LMH Hj) as [S3 S4].
    unfold b2. rewrite nth_map_seq by auto. cbn [Nat.add]. unfold get_G_over_H2_fill.
    split; [rewrite map2_length, fill1_length; lia|]. intros q Hq. rewrite nth_map2 with (da := 0) (db := 0) by (rewrite ?fill1_length; lia).
    rewrite fill1_nth by lia. rewrite S2, S4 by auto. rewrite !mv_nth. destruct (V j q Hj Hq) as [-> ->].
    fold (gv lamb (nth j obs 0%nat) q). fold (hv lamb (nth j obs 0%nat) q). rn. reflexivity. }
  assert (U1 : forall b, In b b1 -> length b = T) by (intros b Hb; destruct (In_nth _ _ [] Hb) as (j&Hj&<-); apply V1; lia).
  assert (U2 : forall b, In b b2 -> length b = T) by (intros b Hb; destruct (In_nth _ _ [] Hb) as (j&Hj&<-); apply V2; lia).
  assert (LB1 : length (block_diag b1) = Lm) by (unfold block_diag; rewrite map_length, seq_length; auto).
  assert (LB2 : length (block_diag b2) = Lm) by (unfold block_diag; rewrite map_length, seq_length; auto).
  eexists. split; [reflexivity|]. split; [rewrite map2_length; unfold weighted_prod; rewrite !map_length; lia|].
  intros j Hj. cbn zeta. rewrite nth_map2 with (da := []) (db := []) by (unfold weighted_prod; rewrite map_length; lia).
  unfold weighted_prod. rewrite !nth_map_in with (d := []) by lia.
  split; [rewrite map2_length, !map_length, seq_length; lia|].
  intros k Hk. rewrite nth_map2 with (da := 0) (db := 0) by (rewrite map_length, seq_length; auto). rewrite !nth_map_seq by auto. cbn [Nat.add].
  rewrite (block_dot b1 T) by (rewrite ?L1, ?col_length; auto). rewrite (block_dot b2 T) by (rewrite ?L2, ?col_length; auto).
  change (@nsub R _) with Rminus. f_equal; apply sumto_ext; intros q Hq; rewrite CV by lia; rewrite VW by auto; rewrite col_nth; fold (wv (nth j obs 0%nat) q).
  - rewrite (proj2 (V1 j Hj)) by auto. rewrite (proj1 (V j q Hj Hq)). ring.
  - rewrite (proj2 (V2 j Hj)) by auto. rewrite (proj2 (V j q Hj Hq)). ring.
Qed.
End Pred.

(** *** generate_oob_info *)
Lemma dotn_hit : forall (a : list nat) L i, length a = L -> (i < L)%nat ->
  (forall j, (j < L)%nat -> nth j a 0%nat = if Nat.eqb j i then 1%nat else 0%nat) -> dotn a (seq 0 L) = i.
Proof.
  assert (Z : forall a s, (forall j, (j < length a)%nat -> nth j a 0%nat = 0%nat) -> dotn a (seq s (length a)) = 0%nat).
  { induction a as [|x a IH]; intros s H; auto. unfold dotn in *. cbn [length seq map2 sumn fold_right].
    pose proof (H 0%nat ltac:(cbn; lia)) as H0. cbn in H0. subst x. cbn.
    apply (IH (S s)). intros j Hj. apply (H (S j)). cbn; lia. }
  assert (G : forall a s i, (i < length a)%nat -> (forall j, (j < length a)%nat -> nth j a 0%nat = if Nat.eqb j i then 1%nat else 0%nat) ->
    dotn a (seq s (length a)) = (s + i)%nat).
  { induction a as [|x a IH]; intros s i Hi H; [cbn in Hi; lia|]. pose proof (H 0%nat ltac:(cbn; lia)) as H0. cbn [nth] in H0.
    destruct i as [|i].
    - cbn in H0. subst x. pose proof (Z a (S s)) as Za. unfold dotn in *. cbn. unfold sumn in Za. rewrite Za; [lia|].
      intros j Hj. apply (H (S j)). cbn; lia.
    - cbn in H0. subst x. pose proof (IH (S s) i) as Ia. unfold dotn in *. cbn. unfold sumn in Ia. rewrite Ia; [lia|cbn in Hi; lia|].
      intros j Hj. apply (H (S j)). cbn; lia. }
  intros a L i <- Hi H. rewrite (G a 0%nat i Hi H). lia.
Qed.
Lemma leaf_number_val : forall (t : tree R) x i, wf_tree t -> leaf_of t x i -> leaf_number t x = i.
Proof.
  intros t x i WF (Hi&Ri). unfold leaf_number. rewrite num_leaf_eq. destruct (one_leaf t WF x) as (u&Hu&Ru&Uu).
  assert (LR : length (map (fun v => if existsb (Nat.eqb v) (path_nodes (size t) t x 0) then 1%nat else 0%nat) (seq 0 (size t))) = size t) by (rewrite map_length, seq_length; auto).
  apply dotn_hit; auto; [apply leaf_select_len; auto|].
  intros j Hj. unfold leaf_hit. rewrite leaf_select_nth by auto. pose proof (leaf_id_lt t j Hj) as LT.
  rewrite nth_map_seq by auto. cbn [Nat.add].
  destruct (existsb (Nat.eqb (leaf_id t j)) (path_nodes (size t) t x 0)) eqn:E.
  - apply existsb_exists in E. destruct E as (v&Hv&Ev). apply Nat.eqb_eq in Ev. subst v. apply path_reaches in Hv; auto.
    rewrite (Uu j Hj Hv), (Uu i Hi Ri). rewrite Nat.eqb_refl. auto.
  - destruct (Nat.eqb_spec j i) as [->|]; auto. exfalso.
    assert (existsb (Nat.eqb (leaf_id t i)) (path_nodes (size t) t x 0) = true); [|congruence].
    apply existsb_exists. exists (leaf_id t i). rewrite Nat.eqb_refl. split; auto. apply path_reaches; auto.
Qed.
Lemma leaves_of_ex : forall (ts : list (tree R)) X, Forall wf_tree ts -> exists lf, leaves_of ts X lf.
Proof.
  intros ts X WF. exists (fun q o => match nth_error ts q with Some t => leaf_number t (nth o X []) | None => 0%nat end).
  intros q t o Hq Ho. rewrite Hq. assert (W : wf_tree t) by (eapply Forall_forall; eauto; eapply nth_error_In; eauto).
  destruct (one_leaf t W (nth o X [])) as (u&Hu&Ru&_). rewrite (leaf_number_val t _ u W (conj Hu Ru)). split; auto.
Qed.
Lemma leaves_of_unique : forall (ts : list (tree R)) X lf lf' q o, Forall wf_tree ts -> leaves_of ts X lf -> leaves_of ts X lf' ->
  (q < length ts)%nat -> (o < length X)%nat -> lf q o = lf' q o.
Proof.
  intros ts X lf lf' q o WF A B Hq Ho. destruct (nth_error ts q) as [t|] eqn:E; [|apply nth_error_None in E; lia].
  assert (W : wf_tree t) by (eapply Forall_forall; eauto; eapply nth_error_In; eauto).
  rewrite <- (leaf_number_val t _ _ W (A q t o E Ho)). apply (leaf_number_val t _ _ W (B q t o E Ho)).
Qed.
Lemma sumn_sumto : forall (l : list nat), INR (sumn l) = sumto (length l) (fun q => INR (nth q l 0%nat)).
Proof.
  induction l as [|a l IH]; [auto|]. cbn [sumn fold_right length]. unfold sumn in IH. rewrite plus_INR, IH.
  clear IH. revert a. assert (X : forall n f, sumto (S n) f = f 0%nat + sumto n (fun q => f (S q))).
  { induction n as [|n IH]; intros f; [cbn; ring|]. cbn [sumto] in *. rewrite IH. ring. }
  intros a. rewrite X. cbn [nth]. auto.
Qed.
Lemma oob_bit : forall oob o q, (if existsb (Nat.eqb o) (oob q) then 1%nat else 0%nat) = if out_of_bag oob o q then 1%nat else 0%nat.
Proof.
  intros. unfold out_of_bag. destruct (existsb (Nat.eqb o) (oob q)) eqn:E; destruct (in_dec Nat.eq_dec o (oob q)) as [Y|N]; auto; exfalso.
  - apply N. apply existsb_exists in E. destruct E as (v&Hv&Ev). apply Nat.eqb_eq in Ev. subst; auto.
  - assert (existsb (Nat.eqb o) (oob q) = true); [|congruence]. apply existsb_exists. exists o. rewrite Nat.eqb_refl; auto.
Qed.
Lemma oob_count_nat : forall oob nt o, exists c, oob_count oob nt o = INR c /\
  (c = 0%nat -> forall q, (q < nt)%nat -> out_of_bag oob o q = false) /\
  c = sumn (map (fun q => if out_of_bag oob o q then 1%nat else 0%nat) (seq 0 nt)).
Proof.
  intros. eexists. split; [|split; [|reflexivity]].
  - rewrite sumn_sumto, map_length, seq_length. unfold oob_count, sum_sel. apply sumto_ext. intros q Hq.
    rewrite nth_map_seq by auto. cbn [Nat.add]. destruct (out_of_bag oob o q); auto.
  - intros Z q Hq. destruct (out_of_bag oob o q) eqn:E; auto. exfalso.
    assert (X : forall (l : list nat) i, (i < length l)%nat -> (nth i l 0 <= sumn l)%nat).
    { induction l as [|a l IH]; intros i Hi; [cbn in Hi; lia|]. destruct i; cbn; [lia|]. specialize (IH i ltac:(cbn in Hi; lia)). unfold sumn in IH. lia. }
    specialize (X (map (fun q => if out_of_bag oob o q then 1%nat else 0%nat) (seq 0 nt)) q ltac:(rewrite map_length, seq_length; auto)).
    rewrite nth_map_seq in X by auto. cbn [Nat.add] in X. rewrite E in X. lia.
Qed.

Lemma oob_info_val : forall (ts : list (tree R)) oob X lf, Forall wf_tree ts -> ts <> [] -> X <> [] ->
  oob_rows oob (length ts) (length X) -> leaves_of ts X lf ->
  exists idx w, generate_oob_info ts oob X = Ok (idx, w) /\ length idx = length X /\ length w = (length X * length ts)%nat /\
  (forall r, In r idx -> length r = length ts) /\
  (forall o q, (o < length X)%nat -> (q < length ts)%nat -> nth q (nth o idx []) 0%nat = leaf_row ts lf q o /\
     (offset ts q <= leaf_row ts lf q o < offset ts (S q))%nat) /\
  (forall o q, (o < length X)%nat -> (q < length ts)%nat ->
     nth (length ts * o + q) w 0 = if out_of_bag oob o q then 1 / oob_count oob (length ts) o else 0).
Proof.
  intros ts oob X lf WF NE NX OR LV. unfold generate_oob_info.
  assert (E1 : existsb (fun q => existsb (fun o => Nat.leb (length X) o) (oob q)) (seq 0 (length ts)) = false).
  { apply Bool.not_true_is_false. intros E. apply existsb_exists in E. destruct E as (q&Hq&E). apply in_seq in Hq.
    apply existsb_exists in E. destruct E as (o&Ho&E). apply Nat.leb_le in E. specialize (OR q o ltac:(lia) Ho). lia. }
  rewrite E1. assert (E2 : Nat.eqb (length X) 0 = false) by (apply Nat.eqb_neq; destruct X; [congruence|cbn; lia]).
  rewrite E2, Bool.andb_false_r. eexists. eexists. split; [reflexivity|].
  set (prime := map (fun o => map (fun q => if existsb (Nat.eqb o) (oob q) then 1%nat else 0%nat) (seq 0 (length ts))) (seq 0 (length X))).
  assert (LC : length (offsets 0 (map num_leaf ts)) = length ts) by (rewrite offsets_length, map_length; auto).
  split; [apply map_length|].
  assert (UW : forall r, In r (map (fun r => map (fun e => @nof R _ e / nof (if Nat.eqb (sumn r) 0 then 1%nat else sumn r)) r) prime) -> length r = length ts).
  { intros r Hr. apply in_map_iff in Hr. destruct Hr as (p&<-&Hp). rewrite map_length. unfold prime in Hp. apply in_map_iff in Hp.
    destruct Hp as (o&<-&_). rewrite map_length, seq_length. auto. }
  destruct (concat_uniform _ _ UW) as [CL CV]. rewrite map_length in CL, CV. unfold prime in CL at 2, CV at 1. rewrite map_length, seq_length in CL, CV.
  split; [exact CL|]. split; [intros r Hr; apply in_map_iff in Hr; destruct Hr as (x&<-&_); rewrite map2_length, map_length; lia|]. split.
  - intros o q Ho Hq. rewrite nth_map_in with (d := []) by auto. rewrite nth_map2 with (da := 0%nat) (db := 0%nat) by (rewrite ?map_length; lia).
    destruct (nth_error ts q) as [t|] eqn:E; [|apply nth_error_None in E; lia].
    assert (W : wf_tree t) by (eapply Forall_forall; eauto; eapply nth_error_In; eauto).
    rewrite nth_map_in with (d := t) by auto. rewrite (nth_error_nth _ _ t E). rewrite (leaf_number_val t _ _ W (LV q t o E Ho)).
    rewrite offsets_nth by (rewrite map_length; auto). unfold leaf_row.
    assert (OE : sumn (firstn q (map num_leaf ts)) = offset ts q).
    { unfold offset. rewrite firstn_map. f_equal. apply map_ext. apply num_leaf_eq. }
    rewrite OE. rewrite (offset_S ts q t E). pose proof (proj1 (LV q t o E Ho)). lia.
  - intros o q Ho Hq. replace (length ts * o + q)%nat with (o * length ts + q)%nat by lia. change (@ndiv R _) with Rdiv. rewrite CV by auto.
    rewrite nth_map_in with (d := []) by (unfold prime; rewrite map_length, seq_length; auto).
    unfold prime. rewrite nth_map_seq by auto. cbn [Nat.add].
    rewrite nth_map_in with (d := 0%nat) by (rewrite map_length, seq_length; auto). rewrite nth_map_seq by auto. cbn [Nat.add]. rewrite oob_bit.
    rewrite (map_ext _ (fun q => if out_of_bag oob o q then 1%nat else 0%nat)) by (intros; apply oob_bit).
    destruct (oob_count_nat oob (length ts) o) as (c&C1&C2&C3). rewrite <- C3, C1.
    destruct (out_of_bag oob o q) eqn:B.
    + destruct (Nat.eqb_spec c 0) as [Z|Z]; [specialize (C2 Z q Hq); congruence|]. rn. cbn [INR]. auto.
    + rn. cbn [INR]. unfold Rdiv. ring.
Qed.
Lemma oob_count_pos : forall oob nt o q, (q < nt)%nat -> out_of_bag oob o q = true -> 0 < oob_count oob nt o.
Proof.
  intros oob nt o q Hq B. destruct (oob_count_nat oob nt o) as (c&C1&C2&_). rewrite C1. apply lt_0_INR.
  destruct c; [specialize (C2 eq_refl q Hq); congruence|lia].
Qed.
Lemma oob_none : forall oob nt o, (forall q, (q < nt)%nat -> out_of_bag oob o q = false) -> forall f, sum_sel nt (out_of_bag oob o) f = 0.
Proof. intros oob nt o N f. apply sumto_zero. intros q Hq. rewrite N by auto. auto. Qed.
Lemma weights_mean : forall oob nt o (f : nat -> R), sumto nt (fun q => (if out_of_bag oob o q then 1 / oob_count oob nt o else 0) * f q) =
  oob_mean oob nt o f.
Proof.
  intros. unfold oob_mean, sum_sel, Rdiv. rewrite <- sumto_scal_r. apply sumto_ext. intros q Hq. destruct (out_of_bag oob o q); ring.
Qed.
Lemma oob_mean_one : forall oob nt o, ((exists q, (q < nt)%nat /\ out_of_bag oob o q = true) /\ oob_mean oob nt o (fun _ => 1) = 1) \/
  ((forall q, (q < nt)%nat -> out_of_bag oob o q = false) /\ forall f, oob_mean oob nt o f = 0).
Proof.
  intros. destruct (oob_count_nat oob nt o) as (c&C1&C2&_). destruct (Nat.eq_dec c 0) as [Z|Z].
  - right. split; [auto|]. intros f. unfold oob_mean. rewrite (oob_none oob nt o (C2 Z)). unfold Rdiv. ring.
  - left. assert (NZ : oob_count oob nt o <> 0) by (rewrite C1; apply not_0_INR; auto). split.
    + destruct (existsb (out_of_bag oob o) (seq 0 nt)) eqn:E.
      * apply existsb_exists in E. destruct E as (q&Hq&B). apply in_seq in Hq. exists q. split; [lia|auto].
      * exfalso. apply NZ. apply oob_none. intros q Hq. apply Bool.not_true_is_false. intros B.
        assert (existsb (out_of_bag oob o) (seq 0 nt) = true); [|congruence]. apply existsb_exists. exists q. split; auto. apply in_seq. lia.
    + unfold oob_mean. fold (oob_count oob nt o). field; auto.
Qed.

Lemma p_C32 : forall (ts : list (tree R)) oob X, Forall wf_tree ts -> ts <> [] -> X <> [] -> oob_rows oob (length ts) (length X) ->
  exists idx w lf, generate_oob_info ts oob X = Ok (idx, w) /\ leaves_of ts X lf /\
  length idx = length X /\ length w = (length X * length ts)%nat /\
  forall o, (o < length X)%nat -> length (nth o idx []) = length ts /\
    (forall q, (q < length ts)%nat -> nth q (nth o idx []) 0%nat = leaf_row ts lf q o /\ (offset ts q <= leaf_row ts lf q o < offset ts (S q))%nat) /\
    (forall q, (q < length ts)%nat -> 0 <= nth (length ts * o + q) w 0 /\
       (out_of_bag oob o q = false -> nth (length ts * o + q) w 0 = 0) /\
       (out_of_bag oob o q = true -> nth (length ts * o + q) w 0 = 1 / oob_count oob (length ts) o)) /\
    ((exists q, (q < length ts)%nat /\ out_of_bag oob o q = true) -> sumto (length ts) (fun q => nth (length ts * o + q) w 0) = 1) /\
    ((forall q, (q < length ts)%nat -> out_of_bag oob o q = false) -> sumto (length ts) (fun q => nth (length ts * o + q) w 0) = 0).
Proof.
  intros ts oob X WF NE NX OR. destruct (leaves_of_ex ts X WF) as (lf&LV).
  destruct (oob_info_val ts oob X lf WF NE NX OR LV) as (idx&w&E&L1&L2&UI&VI&VW).
  exists idx, w, lf. split; auto. split; auto. split; auto. split; auto. intros o Ho.
  split; [apply UI, nth_In; lia|]. split; [intros; apply VI; auto|]. split.
  - intros q Hq. rewrite VW by auto. destruct (out_of_bag oob o q) eqn:B.
    + pose proof (oob_count_pos oob _ o q Hq B). split; [|split; intros; congruence].
      apply Rlt_le. apply Rdiv_lt_0_compat; lra.
    + split; [lra|]. split; intros; congruence.
  - assert (SE : sumto (length ts) (fun q => nth (length ts * o + q) w 0) = oob_mean oob (length ts) o (fun _ => 1)).
    { rewrite <- weights_mean. apply sumto_ext. intros q Hq. rewrite VW by auto. ring. }
    rewrite SE. destruct (oob_mean_one oob (length ts) o) as [((q0&Hq0&B0)&M)|(N&M)]; split; intros H; auto.
    + rewrite H in B0 by auto. discriminate.
    + destruct H as (q&Hq&B). rewrite N in B by auto. discriminate.
Qed.
