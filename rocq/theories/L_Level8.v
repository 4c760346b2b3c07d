(** L_Level8: smooth_all minimises the mean tuning error of the trees (plus a multiple of the squared norm). *)
From Verif Require Import Base TreeSpec Spec M_Tree M_Gamma M_Levels M_Grad M_Smooth M_Level SpecSmooth SpecTune SpecLevel.
From Verif Require Import L_Base L_Tree L_TreeModel L_Dist L_Gamma L_Gamma2 L_Sgd L_Grad L_Smooth L_Smooth2 L_Smooth3 L_Route L_Tune L_Clean3 L_Level3 L_Level4 L_Level5 L_Level6 L_Level7.
From Coq Require Import Reals Lra Lia.
Local Open Scope R_scope.

Lemma qp_quad : forall n G a l, square n G -> length a = n -> length l = n ->
  qp_cost G a l = / 2 * quad n G (fun k => nth k l 0) - sumto n (fun k => nth k a 0 * nth k l 0).
Proof.
  intros n G a l [LG RG] La Ll. unfold qp_cost. rn. rewrite (dot_sumto a l) by congruence. rewrite La. f_equal.
  rewrite dot_sumto by (rewrite mv_length; congruence). rewrite Ll. replace (1 / (1 + 1)) with (/ 2) by lra. f_equal. unfold quad. apply sumto_ext. intros i Hi.
  rewrite mv_nth. rewrite dot_sumto by (rewrite RG; auto). rewrite RG by auto. rewrite <- sumto_scal. apply sumto_ext. intros j Hj. ring.
Qed.
(** rows with weights and targets *)
Section Rows.
Variables (K : nat) (M : mat R) (w y : list R).
Hypothesis LM : length M = length w.
Hypothesis Ly : length y = length w.
Hypothesis RM : forall r, (r < length M)%nat -> length (nth r M []) = K.
Lemma gram_ent : forall i j, (i < K)%nat -> (j < K)%nat -> nth j (nth i (gram_w K M w) []) 0 = sumto (length w) (fun r => nth r w 0 * nth i (nth r M []) 0 * nth j (nth r M []) 0).
Proof.
  intros i j Hi Hj. unfold gram_w. rewrite nth_map_seq by auto. rewrite nth_map_seq by auto. cbn [Nat.add].
  rewrite dot_sumto by (rewrite map2_length, !col_length; lia). rewrite map2_length, col_length, LM, Nat.min_id. apply sumto_ext. intros r Hr.
  rewrite nth_map2 with (da := 0) (db := 0) by (rewrite ?col_length; lia). rewrite !col_nth. rn. ring.
Qed.
Lemma gram_square : square K (gram_w K M w).
Proof. unfold gram_w. split; [rewrite map_length, seq_length; auto|]. intros i Hi. rewrite nth_map_seq by auto. rewrite map_length, seq_length. auto. Qed.
Lemma sym_gram : square K (symmetrise (gram_w K M w)) /\ forall i j, (i < K)%nat -> (j < K)%nat ->
  nth j (nth i (symmetrise (gram_w K M w)) []) 0 = sumto (length w) (fun r => nth r w 0 * nth i (nth r M []) 0 * nth j (nth r M []) 0).
Proof.
  destruct gram_square as [L R1]. unfold symmetrise. rewrite L.
  assert (RW : forall i, (i < K)%nat -> nth i (map2 (map2 (fun a b => ndiv (nadd a b) (nadd n1 n1))) (gram_w K M w) (transpose 0 K (gram_w K M w))) [] = map2 (fun a b => (a + b) / (1 + 1)) (nth i (gram_w K M w) []) (nth i (transpose 0 K (gram_w K M w)) [])).
  { intros i Hi. rewrite nth_map2 with (da := []) (db := []); [reflexivity|lia|rewrite transpose_length; auto]. }
  split.
  - split; [rewrite map2_length, transpose_length; lia|]. intros i Hi. rn. rewrite RW by auto. rewrite map2_length, transpose_row_length, R1, L by auto. lia.
  - intros i j Hi Hj. rn. rewrite RW by auto. rewrite nth_map2 with (da := 0) (db := 0); [|rewrite R1; auto|rewrite transpose_row_length; auto; lia].
    rewrite transpose_entry by (auto; lia). rewrite !gram_ent by auto.
    rewrite (sumto_ext (length w) (fun r => nth r w 0 * nth j (nth r M []) 0 * nth i (nth r M []) 0) (fun r => nth r w 0 * nth i (nth r M []) 0 * nth j (nth r M []) 0)) by (intros; ring). field.
Qed.
Lemma rhs_ent : length (rhs_w K M w y) = K /\ forall i, (i < K)%nat -> nth i (rhs_w K M w y) 0 = sumto (length w) (fun r => nth r w 0 * nth i (nth r M []) 0 * nth r y 0).
Proof.
  unfold rhs_w. split; [rewrite map_length, seq_length; auto|]. intros i Hi. rewrite nth_map_seq by auto. cbn [Nat.add].
  rewrite dot_sumto by (rewrite map2_length, col_length; lia). rewrite map2_length, col_length, LM, Nat.min_id. apply sumto_ext. intros r Hr.
  rewrite nth_map2 with (da := 0) (db := 0) by (rewrite ?col_length; lia). rewrite !col_nth. rn. ring.
Qed.
(** the cost is half the weighted squared error, up to a constant *)
Lemma objective : forall c G l, lifted K (symmetrise (gram_w K M w)) c G -> length l = K ->
  2 * qp_cost G (rhs_w K M w y) l = sumto (length w) (fun r => nth r w 0 * ((sumto K (fun k => nth k (nth r M []) 0 * nth k l 0) - nth r y 0) ^ 2 - nth r y 0 ^ 2))
    + c * sumto K (fun k => nth k l 0 * nth k l 0).
Proof.
  intros c G l LF Ll. destruct rhs_ent as [LR VR]. destruct sym_gram as [SG VG].
  rewrite (qp_quad K); [|apply LF|auto|auto]. rewrite (quad_lift K _ _ _ _ LF).
  assert (Q : quad K (symmetrise (gram_w K M w)) (fun k => nth k l 0) = sumto (length w) (fun r => nth r w 0 * (sumto K (fun k => nth k (nth r M []) 0 * nth k l 0)) ^ 2)).
  { unfold quad. transitivity (sumto K (fun i => sumto (length w) (fun r => nth r w 0 * (nth i (nth r M []) 0 * nth i l 0) * sumto K (fun k => nth k (nth r M []) 0 * nth k l 0)))).
    - apply sumto_ext. intros i Hi.
      transitivity (sumto K (fun j => sumto (length w) (fun r => nth r w 0 * (nth i (nth r M []) 0 * nth i l 0) * (nth j (nth r M []) 0 * nth j l 0)))).
      + apply sumto_ext. intros j Hj. rewrite VG by auto. rewrite <- sumto_scal, <- sumto_scal_r. apply sumto_ext. intros; ring.
      + rewrite sumto_swap. apply sumto_ext. intros r Hr. apply sumto_scal.
    - rewrite sumto_swap. apply sumto_ext. intros r Hr. rewrite sumto_scal_r, sumto_scal. ring. }
  assert (A : sumto K (fun k => nth k (rhs_w K M w y) 0 * nth k l 0) = sumto (length w) (fun r => nth r w 0 * (sumto K (fun k => nth k (nth r M []) 0 * nth k l 0) * nth r y 0))).
  { transitivity (sumto K (fun k => sumto (length w) (fun r => nth r w 0 * nth r y 0 * (nth k (nth r M []) 0 * nth k l 0)))).
    - apply sumto_ext. intros k Hk. rewrite VR by auto. rewrite <- sumto_scal_r. apply sumto_ext. intros; ring.
    - rewrite sumto_swap. apply sumto_ext. intros r Hr. rewrite sumto_scal. ring. }
  rewrite Q, A.
  transitivity ((sumto (length w) (fun r => nth r w 0 * sumto K (fun k => nth k (nth r M []) 0 * nth k l 0) ^ 2)) - 2 * sumto (length w) (fun r => nth r w 0 * (sumto K (fun k => nth k (nth r M []) 0 * nth k l 0) * nth r y 0)) + c * sumto K (fun k => nth k l 0 * nth k l 0)).
  - rewrite ?sumto_scal. field.
  - f_equal. rewrite <- sumto_scal. rewrite sumto_minus. apply sumto_ext. intros; ring.
Qed.
End Rows.

Lemma mask_sum3 : forall (m : list bool) (A : mat R) (B C : list R) (F : list R -> R -> R -> R), length A = length m -> length B = length m -> length C = length m ->
  sumto (length (mask_select m B)) (fun r => F (nth r (mask_select m A) []) (nth r (mask_select m B) 0) (nth r (mask_select m C) 0))
  = sumto (length m) (fun r => if nth r m false then F (nth r A []) (nth r B 0) (nth r C 0) else 0).
Proof.
  induction m as [|b m IH]; intros A B C F HA HB HC; [reflexivity|]. destruct A as [|x A]; [discriminate|]. destruct B as [|y B]; [discriminate|]. destruct C as [|z C]; [discriminate|].
  cbn [length] in *. rewrite (sumto_shift (length m)). cbn [nth]. rewrite <- IH by lia. destruct b; cbn [mask_select length]; [rewrite sumto_shift; reflexivity|lra].
Qed.
Lemma mask_len3 : forall {A B} m (a : list A) (b : list B), length a = length m -> length b = length m -> length (mask_select m a) = length (mask_select m b).
Proof. intros A B m a b HA HB. rewrite !mask_select_length; auto. Qed.
Lemma mask_rows : forall m (A : mat R) (P : list R -> Prop), (forall r, (r < length A)%nat -> P (nth r A [])) -> forall r, (r < length (mask_select m A))%nat -> P (nth r (mask_select m A) []).
Proof.
  induction m as [|b m IH]; intros A P HP r Hr; [cbn in Hr; lia|]. destruct A as [|x A]; [destruct b; cbn in Hr; lia|].
  assert (T : forall r, (r < length A)%nat -> P (nth r A [])) by (intros r0 H0; apply (HP (S r0)); cbn; lia).
  destruct b; cbn [mask_select] in *; [|apply IH; auto]. destruct r as [|r]; cbn [nth]; [apply (HP 0%nat); cbn; lia|]. apply IH; auto. cbn in Hr. lia.
Qed.

Lemma lifted_trans : forall n G c G' c' G'', lifted n G c G' -> lifted n G' c' G'' -> lifted n G (c + c') G''.
Proof. intros n G c G' c' G'' [S1 V1] [S2 V2]. split; auto. intros i j Hi Hj. rewrite V2, V1 by auto. destruct (_ =? _)%nat; lra. Qed.
Lemma lifted_self : forall n G, square n G -> lifted n G 0 G.
Proof. intros n G SG. pose proof (add_diag_ok n 0 G SG) as H. rewrite add_diag_0 in H. auto. Qed.
Lemma lift_nonneg : forall eps k, 0 <= eps -> 0 <= total_lift eps k.
Proof. intros eps [|k] H; unfold total_lift; [lra|]. apply Rmult_le_pos; [lra|apply pow_le; lra]. Qed.
Lemma lift_total : forall eps k, lift_of eps (total_lift eps k).
Proof. intros eps [|k]; [left; auto|right; exists k; reflexivity]. Qed.
Lemma lmean_zero : forall (o : all_opts R) t i, wf_tree t -> pos_leaves t -> (i < n_leaves t)%nat -> lmean o t i 0 = leaf_v t 0 i.
Proof.
  intros o t i W PL Hi. unfold lmean. rewrite (kmean_unit t Reg _ i 0 Hi).
  - unfold leaf_ny, leaf_v, node_ny. cbn. specialize (PL i Hi). unfold leaf_w in PL. unfold leaf_w. field. lra.
  - specialize (PL i Hi). lra.
  - intros j Hj. unfold csel. destruct (Nat.eqb_spec i j) as [<-|NE].
    + rewrite (ddist_diag t Standard i W Hi). destruct (a_parents_all o); reflexivity.
    + pose proof (ddist_off t Standard i j W Hi Hj NE). destruct (a_parents_all o); [destruct (Z.leb_spec (ddist t Standard i j) (Z.of_nat 0))|destruct (Z.eqb_spec (ddist t Standard i j) (Z.of_nat 0))]; auto; lia.
Qed.

(** loss of one tree: a constant plus the weighted squared errors of the leaf means *)
Lemma tree_loss : forall (t : tree R) X y w yl lf, wf_tree t -> process_tuning_leaf_attributes_tree t (-(1)) X y = Ok (w, yl) -> routed t X lf ->
  exists B, forall pred, sumto (length X) (fun o => (nth o y 0 - pred (lf o)) ^ 2) / INR (length X)
    = B + sumto (n_leaves t) (fun i => if negb (Reqb (nth i w 0) (-(1))) then nth i w 0 * ((pred i - nth i yl 0) ^ 2 - nth i yl 0 ^ 2) else 0).
Proof.
  intros t X y w yl lf WF HP RT. destruct (attr_spec t _ X y w yl WF HP) as (NX&LY&AS). destruct (AS lf RT) as (LW&LYl&V). clear AS.
  assert (PX : 0 < INR (length X)) by (apply (lt_INR 0); destruct X; [congruence|cbn; lia]).
  assert (RL : forall o, (o < length X)%nat -> (lf o < n_leaves t)%nat) by (intros o Ho; destruct (RT o Ho) as [[? _] _]; auto).
  set (cnt := fun i => sum_sel (length X) (in_leaf lf i) (fun _ => 1)).
  set (D := fun i => sum_sel (length X) (in_leaf lf i) (fun o => (nth o y 0 - nth i yl 0) * (nth o y 0 - nth i yl 0))).
  exists (sumto (n_leaves t) (fun i => (D i + cnt i * nth i yl 0 ^ 2) / INR (length X))). intros pred.
  rewrite <- (sum_over_leaves (n_leaves t) (length X) lf) by auto. unfold Rdiv. rewrite <- sumto_scal_r. rewrite <- sumto_plus. apply sumto_ext. intros i Hi.
  destruct (V i Hi) as [Wi Yi]. cbv zeta in Wi, Yi. fold (cnt i) in Wi, Yi.
  assert (CP : 0 <= cnt i) by (unfold cnt, sum_sel; apply sumto_nonneg; intros o _; destruct (in_leaf lf i o); lra).
  assert (S0 : sum_sel (length X) (in_leaf lf i) (fun o => (nth o y 0 - pred (lf o)) ^ 2) = sum_sel (length X) (in_leaf lf i) (fun o => (nth o y 0 - pred i) * (nth o y 0 - pred i))).
  { unfold sum_sel. apply sumto_ext. intros o Ho. unfold in_leaf. destruct (Nat.eqb_spec (lf o) i); [subst; ring|auto]. }
  rewrite S0. rewrite (parallel_axis (length X) (in_leaf lf i) (fun o => nth o y 0) (cnt i) (pred i) (nth i yl 0)); [|reflexivity|].
  - fold (D i). destruct (Req_EM_T (cnt i) 0) as [Z|Z].
    + rewrite Wi. destruct (Reqb_spec (-(1)) (-(1))) as [_|N]; [|exfalso; auto]. cbn [negb]. rewrite Z. ring.
    + rewrite Wi. destruct (Reqb_spec (cnt i / INR (length X)) (-(1))) as [E|_].
      * exfalso. assert (0 <= cnt i / INR (length X)) by (apply Rmult_le_pos; [auto|left; apply Rinv_0_lt_compat; auto]). lra.
      * cbn [negb]. unfold Rdiv. ring.
  - destruct (Req_EM_T (cnt i) 0) as [Z|Z]; [|rewrite Yi; field; auto]. rewrite Z, (sum_sel_count_zero _ _ (fun o => nth o y 0)) by auto. ring.
Qed.

Lemma picked_take : forall {A} (l : list A) idx r, take_rows l idx = Ok r <-> picked l idx r.
Proof.
  intros A l. unfold take_rows, picked. induction idx as [|i idx IH]; intros r; cbn [mapM].
  - split; intros H; [assert (r = []) by congruence; subst; constructor|inversion H; auto].
  - destruct (nth_error l i) as [x|] eqn:E; cbn [bind].
    + destruct (mapM _ idx) as [rs|e] eqn:M; cbn [bind].
      * split; intros H; [assert (r = x :: rs) by congruence; subst; constructor; auto; apply IH; auto|]. inversion H as [|? y ? ys E1 E2]; subst. apply IH in E2. congruence.
      * split; intros H; [discriminate|]. inversion H as [|? y ? ys E1 E2]; subst. apply IH in E2. congruence.
    + split; intros H; [discriminate|]. inversion H as [|? y ? ys E1 E2]; subst. congruence.
Qed.
Lemma tuning_set_ok : forall (o : all_opts R) oob boot q d, all_tuning o oob boot q = Ok d <-> tuning_set o oob boot q d.
Proof.
  intros o oob boot q [X y]. unfold all_tuning, tuning_set. cbn [fst snd].
  assert (P : forall idx, bind (take_rows (a_X o) idx) (fun Xt => bind (take_rows (a_y o) idx) (fun yt => Ok (Xt, yt))) = Ok (X, y) <-> picked (a_X o) idx X /\ picked (a_y o) idx y).
  { intros idx. rewrite <- !picked_take. split.
    - intros H. apply bind_ok in H. destruct H as (X1&H1&H). apply bind_ok in H. destruct H as (y1&H2&H). split; congruence.
    - intros [-> ->]. reflexivity. }
  destruct (a_resample o); [apply P|]. destruct (a_X_tune o) as [X1|]; [destruct (a_y_tune o) as [y1|]|]; try apply P. split; intros; congruence.
Qed.

Section Opt.
Variables (fuel : nat) (feps : R) (solve : bool -> mat R -> list R -> option (list R)) (in_null : mat R -> list R -> bool).
Variables (o : all_opts R) (oob boot : nat -> list nat) (ts : list (tree R)).
Hypothesis WF : Forall wf_tree ts.

Lemma loss_form : forall w yl data lf, all_leaf_targets o oob boot ts = Ok (w, yl) -> all_data o oob boot ts data lf ->
  exists B, forall pred : nat -> nat -> R, mean_sse (length ts) data lf pred
    = B + sumto (length ts) (fun q => sumto (n_leaves (nth q ts no_tree)) (fun i => let r := (offset ts q + i)%nat in
        if negb (Reqb (nth r w 0) (-(1))) then nth r w 0 * ((pred q i - nth r yl 0) ^ 2 - nth r yl 0 ^ 2) else 0)).
Proof.
  intros w yl data lf HT DT. destruct (all_targets_spec o oob boot ts w yl WF HT) as (LW&LY&SP).
  set (F := fun q (pred : nat -> nat -> R) => sumto (n_leaves (nth q ts no_tree)) (fun i => let r := (offset ts q + i)%nat in
        if negb (Reqb (nth r w 0) (-(1))) then nth r w 0 * ((pred q i - nth r yl 0) ^ 2 - nth r yl 0 ^ 2) else 0)).
  set (Ls := fun q (pred : nat -> nat -> R) => sumto (length (fst (data q))) (fun o => (nth o (snd (data q)) 0 - pred q (lf q o)) ^ 2) / INR (length (fst (data q)))).
  assert (EX : forall n, (n <= length ts)%nat -> exists B, forall pred, sumto n (fun q => Ls q pred) = B + sumto n (fun q => F q pred)).
  { induction n as [|n IH]; intros Hn; [exists 0; intros; cbn; lra|]. destruct (IH ltac:(lia)) as (B&HB).
    assert (N : nth_error ts n = Some (nth n ts no_tree)) by (apply nth_error_nth'; lia).
    destruct (SP n _ N) as (X&y&wq&yq&T1&T2&T3). destruct (DT n _ N) as [T4 T5]. apply tuning_set_ok in T4. assert (ED : data n = (X, y)) by congruence.
    assert (W : wf_tree (nth n ts no_tree)) by (eapply Forall_forall; eauto; eapply nth_error_In; eauto).
    rewrite ED in T5. destruct (tree_loss _ X y wq yq (lf n) W T2 T5) as (Bn&HBn). exists (B + Bn). intros pred. cbn [sumto]. rewrite HB. unfold Ls at 1. rewrite ED. cbn [fst snd].
    assert (EF : F n pred = sumto (n_leaves (nth n ts no_tree)) (fun i => if negb (Reqb (nth i wq 0) (-(1))) then nth i wq 0 * ((pred n i - nth i yq 0) ^ 2 - nth i yq 0 ^ 2) else 0)).
    { unfold F. apply sumto_ext. intros i Hi. cbv zeta. destruct (T3 i Hi) as [-> ->]. reflexivity. }
    rewrite EF, (HBn (pred n)). ring. }
  destruct (EX (length ts) (le_n _)) as (B&HB). exists B. exact HB.
Qed.

(** the solver's answer is feasible and no feasible weights cost less *)
Hypothesis OPT : forall G a l, length a = K_of ts -> solve (a_no_constraint o) G a = Some l -> feasible (a_no_constraint o) (K_of ts) l /\
  forall l', feasible (a_no_constraint o) (K_of ts) l' -> qp_objective (K_of ts) G a l <= qp_objective (K_of ts) G a l'.
Lemma feasible_len : forall nc n l, feasible nc n l -> length l = n.
Proof. intros [|] n l H; [auto|]. destruct H; auto. Qed.

Lemma opt_main : forall f lamb, smooth_all fuel feps solve in_null o oob boot ts = Ok (f, lamb) -> a_sanity o = false ->
  exists k1 k2, feasible (a_no_constraint o) (K_of ts) lamb /\ forall data lf, all_data o oob boot ts data lf ->
    forall l', feasible (a_no_constraint o) (K_of ts) l' ->
      mean_sse (length ts) data lf (fun q i => sumto (K_of ts) (fun k => nth k lamb 0 * lmean o (nth q ts no_tree) i k)) + (total_lift feps k1 + total_lift feps k2) * sqnorm lamb
      <= mean_sse (length ts) data lf (fun q i => sumto (K_of ts) (fun k => nth k l' 0 * lmean o (nth q ts no_tree) i k)) + (total_lift feps k1 + total_lift feps k2) * sqnorm l'.
Proof.
  intros f lamb H SA. destruct (all_inv fuel feps solve in_null o oob boot ts WF f lamb H) as (w&yl&Gs&G1&G2&l0&Y&HT&LG&VG&(HU&HR&HL&LA&_)&_). rewrite SA in HL. subst l0.
  destruct (all_targets_spec o oob boot ts w yl WF HT) as (LW&LY&_).
  set (seen := map (fun x => negb (Reqb x (-(1)))) w) in *. fold (K_of ts) in *. cbv zeta in HU, HR, LA.
  set (Gm := mask_select seen Gs) in *. set (wm := mask_select seen w) in *. set (ym := mask_select seen yl) in *.
  assert (Ls : length seen = length w) by (unfold seen; apply map_length).
  assert (LM : length Gm = length wm) by (apply mask_len3; congruence).
  assert (Lym : length ym = length wm) by (apply mask_len3; congruence).
  assert (RM : forall r, (r < length Gm)%nat -> length (nth r Gm []) = K_of ts).
  { apply (mask_rows seen Gs (fun row => length row = K_of ts)). intros r Hr. rewrite LG in Hr. destruct (offset_find ts r Hr) as (q&t&i&Nq&Hi&->). apply (VG q t i Nq Hi). }
  destruct (sym_gram (K_of ts) Gm wm ym LM Lym) as [SG _].
  set (S0 := symmetrise (gram_w (K_of ts) Gm wm)) in *. set (a := rhs_w (K_of ts) Gm wm ym) in *.
  assert (U : exists k1, lifted (K_of ts) S0 (total_lift feps k1) G1).
  { unfold update_til_psd in HU. destruct (allclose_sym S0); [|discriminate]. cbn [negb] in HU. apply bind_ok in HU. destruct HU as ([G' []]&HU&E). assert (G' = G1) by congruence. subst G'.
    match type of HU with retry fuel ?at0 feps 0 S0 = _ => pose proof (retry_spec at0 feps S0 fuel 0) as RS end.
    unfold total_lift at 1 in RS. rewrite add_diag_0, HU in RS. destruct RS as (j&_&->&_). exists j. apply add_diag_ok; auto. }
  destruct U as (k1&U1).
  match type of HR with retry fuel ?at0 feps 0 G1 = _ => pose proof (retry_spec at0 feps G1 fuel 0) as RS end.
  unfold total_lift at 1 in RS. rewrite add_diag_0, HR in RS. destruct RS as (k2&_&E2&SV&_). exists k1, k2.
  assert (LF : lifted (K_of ts) S0 (total_lift feps k1 + total_lift feps k2) G2). { eapply lifted_trans; [exact U1|]. rewrite E2. apply add_diag_ok. apply U1. }
  cbv beta in SV. destruct (OPT _ _ _ LA SV) as [FE MN]. split; [exact FE|].
  intros data lf DT l' FE'. destruct (loss_form w yl data lf HT DT) as (B&HB).
  assert (OB : forall l, length l = K_of ts ->
    mean_sse (length ts) data lf (fun q i => sumto (K_of ts) (fun k => nth k l 0 * lmean o (nth q ts no_tree) i k)) + (total_lift feps k1 + total_lift feps k2) * sqnorm l
    = B + 2 * qp_objective (K_of ts) G2 a l).
  { intros l Hl. rewrite HB. unfold qp_objective. rewrite <- (qp_quad (K_of ts) G2 a l); [|apply LF|exact LA|exact Hl].
    unfold a at 1. rewrite (objective (K_of ts) Gm wm ym LM Lym (total_lift feps k1 + total_lift feps k2) G2 l LF Hl).
    pose proof (mask_sum3 seen Gs w yl (fun row wr yr => wr * ((sumto (K_of ts) (fun k => nth k row 0 * nth k l 0) - yr) ^ 2 - yr ^ 2)) ltac:(congruence) ltac:(congruence) ltac:(congruence)) as MS3. cbv beta in MS3. fold Gm wm ym in MS3. rewrite MS3. clear MS3.
    rewrite Ls, LW, sumto_offset.
    assert (NQ : sqnorm l = sumto (K_of ts) (fun k => nth k l 0 * nth k l 0)).
    { unfold sqnorm. rewrite nsum_sumto, map_length, Hl. apply sumto_ext. intros k Hk. rewrite nth_map_in with (d := 0) by lia. reflexivity. }
    rewrite NQ. rewrite Rplus_assoc. f_equal. f_equal. apply sumto_ext. intros q Hq.
    assert (N : nth_error ts q = Some (nth q ts no_tree)) by (apply nth_error_nth'; auto). apply sumto_ext. intros i Hi. cbv zeta.
    assert (Hr : (offset ts q + i < length w)%nat) by (rewrite LW; pose proof (offset_le ts q _ N); lia).
    unfold seen. rewrite nth_map_in with (d := 0) by auto. destruct (VG q _ i N Hi) as [_ V1].
    rewrite (sumto_ext (K_of ts) (fun k => nth k (nth (offset ts q + i) Gs []) 0 * nth k l 0) (fun k => nth k l 0 * lmean o (nth q ts no_tree) i k)); [reflexivity|].
    intros k Hk. rewrite V1 by auto. ring. }
  rewrite !OB by (eapply feasible_len; eauto). specialize (MN l' FE'). lra.
Qed.
End Opt.

Lemma choice_of : forall {A} (P : nat -> A -> Prop) (d : A) n, (forall q, (q < n)%nat -> exists x, P q x) -> exists f, forall q, (q < n)%nat -> P q (f q).
Proof.
  intros A P d. induction n as [|n IH]; intros H; [exists (fun _ => d); intros; lia|]. destruct IH as (f&Hf); [intros; apply H; lia|]. destruct (H n ltac:(lia)) as (i&Hi).
  exists (fun q => if Nat.eqb q n then i else f q). intros q Hq. destruct (Nat.eqb_spec q n); [subst; auto|apply Hf; lia].
Qed.
Lemma level_mean_unique : forall (t : tree R) pa i k m m', level_mean t pa i k m -> level_mean t pa i k m' -> m = m'.
Proof.
  intros t pa i k m m' (s&S1&->) (s'&S2&->). unfold kmean, kmass.
  assert (E : forall j, (j < n_leaves t)%nat -> s j = s' j).
  { intros j Hj. specialize (S1 j Hj). specialize (S2 j Hj). destruct (s j), (s' j); auto.
    - symmetry. apply S2, S1. reflexivity.
    - apply S1, S2. reflexivity. }
  rewrite (sumto_ext (n_leaves t) (fun j => (if s j then 1 else 0) * leaf_w t j) (fun j => (if s' j then 1 else 0) * leaf_w t j)) by (intros j Hj; rewrite E; auto).
  rewrite (sumto_ext (n_leaves t) (fun j => (if s j then 1 else 0) * leaf_ny t Reg 0 j) (fun j => (if s' j then 1 else 0) * leaf_ny t Reg 0 j)) by (intros j Hj; rewrite E; auto). reflexivity.
Qed.
Lemma mean_sse_ext : forall ts (data : nat -> mat R * list R) lf p p', (forall q t, nth_error ts q = Some t -> routed t (fst (data q)) (lf q)) ->
  (forall q t i, nth_error ts q = Some t -> (i < n_leaves t)%nat -> p q i = p' q i) -> mean_sse (length ts) data lf p = mean_sse (length ts) data lf p'.
Proof.
  intros ts data lf p p' RT E. unfold mean_sse. apply sumto_ext. intros q Hq. f_equal. apply sumto_ext. intros x Hx.
  assert (N : nth_error ts q = Some (nth q ts no_tree)) by (apply nth_error_nth'; auto). destruct (RT q _ N x Hx) as [[Hl _] _]. rewrite (E q _ _ N Hl). reflexivity.
Qed.
Lemma all_data_ex : forall (o : all_opts R) oob boot ts w yl, Forall wf_tree ts -> all_leaf_targets o oob boot ts = Ok (w, yl) -> exists data lf, all_data o oob boot ts data lf.
Proof.
  intros o oob boot ts w yl WF HT. destruct (all_targets_spec o oob boot ts w yl WF HT) as (_&_&SP).
  destruct (choice_of (fun q d => tuning_set o oob boot q (fst d) /\ routed (nth q ts no_tree) (fst (fst d)) (snd d)) (([], []), fun _ => 0%nat) (length ts)) as (g&Hg).
  - intros q Hq. assert (N : nth_error ts q = Some (nth q ts no_tree)) by (apply nth_error_nth'; auto). destruct (SP q _ N) as (X&y&_&_&T1&_). apply tuning_set_ok in T1.
    destruct (routed_ex (nth q ts no_tree) X) as (lf&RT). { eapply Forall_forall; eauto. eapply nth_error_In; eauto. } exists ((X, y), lf). auto.
  - exists (fun q => fst (g q)), (fun q => snd (g q)). intros q t N. assert (Hq : (q < length ts)%nat) by (apply nth_error_Some; congruence). rewrite <- (nth_error_nth _ q no_tree N). apply Hg; auto.
Qed.

Lemma p_C70 : forall fuel feps solve in_null (o : all_opts R) oob boot ts f lamb, Forall wf_tree ts -> 0 <= feps ->
  (forall G a l, length a = K_of ts -> solve (a_no_constraint o) G a = Some l -> feasible (a_no_constraint o) (K_of ts) l /\
     forall l', feasible (a_no_constraint o) (K_of ts) l' -> qp_objective (K_of ts) G a l <= qp_objective (K_of ts) G a l') ->
  a_sanity o = false -> smooth_all fuel feps solve in_null o oob boot ts = Ok (f, lamb) ->
  exists c1 c2 c, lift_of feps c1 /\ lift_of feps c2 /\ c = c1 + c2 /\ 0 <= c /\ feasible (a_no_constraint o) (K_of ts) lamb /\ (exists data lf, all_data o oob boot ts data lf) /\
  forall data lf, all_data o oob boot ts data lf ->
    (forall l' m, feasible (a_no_constraint o) (K_of ts) l' ->
       (forall q t i k, nth_error ts q = Some t -> (i < n_leaves t)%nat -> (k < K_of ts)%nat -> level_mean t (a_parents_all o) i k (m q i k)) ->
       mean_sse (length ts) data lf (fun q i => leaf_v (nth q f no_tree) 0 i) + c * sqnorm lamb
       <= mean_sse (length ts) data lf (fun q i => sumto (K_of ts) (fun k => nth k l' 0 * m q i k)) + c * sqnorm l') /\
    (Forall pos_leaves ts ->
       mean_sse (length ts) data lf (fun q i => leaf_v (nth q f no_tree) 0 i) + c * sqnorm lamb
       <= mean_sse (length ts) data lf (fun q i => leaf_v (nth q ts no_tree) 0 i) + c).
Proof.
  intros fuel feps solve in_null o oob boot ts f lamb WF EP OPT SA H.
  destruct (opt_main fuel feps solve in_null o oob boot ts WF OPT f lamb H SA) as (k1&k2&FE&MN).
  exists (total_lift feps k1), (total_lift feps k2), (total_lift feps k1 + total_lift feps k2). split; [apply lift_total|]. split; [apply lift_total|]. split; [reflexivity|]. split; [pose proof (lift_nonneg feps k1 EP); pose proof (lift_nonneg feps k2 EP); lra|]. split; [exact FE|].
  destruct (all_inv fuel feps solve in_null o oob boot ts WF f lamb H) as (w&yl&Gs&G1&G2&l0&Y&HT&LG&VG&_&HY&HW).
  split; [eapply all_data_ex; eauto|].
  intros data lf DT. assert (RT : forall q t, nth_error ts q = Some t -> routed t (fst (data q)) (lf q)) by (intros q t N; apply (DT q t N)).
  assert (VF : mean_sse (length ts) data lf (fun q i => leaf_v (nth q f no_tree) 0 i) = mean_sse (length ts) data lf (fun q i => sumto (K_of ts) (fun k => nth k lamb 0 * lmean o (nth q ts no_tree) i k))).
  { apply mean_sse_ext; [exact RT|]. intros q t i N Hi.
    assert (LY : length Y = offset ts (length ts)) by (subst Y; rewrite map_length, mv_length; auto).
    destruct (write_forest_ok Y ts 0 WF) as (f'&E&Lf&P); [lia|]. assert (f' = f) by congruence. subst f'. destruct (P q t N) as (t'&N'&SB&V). specialize (V i Hi). cbn [Nat.add] in V.
    rewrite (nth_error_nth _ q no_tree N'), (nth_error_nth _ q no_tree N). apply (leaf_v_at t t'); [apply (same_leaf_id _ t' i SB)|]. rewrite V.
    destruct (VG q t i N Hi) as [L1 V1]. fold (K_of ts) in L1, V1. subst Y.
    assert (Hr : (offset ts q + i < length (mv Gs lamb))%nat). { rewrite mv_length, LG. pose proof (offset_le ts q t N). lia. }
    rewrite nth_map_in with (d := 0) by auto. rewrite mv_nth. pose proof (feasible_len _ _ _ FE) as LL. rewrite dot_sumto by congruence. rewrite L1. f_equal. apply sumto_ext. intros k Hk. rewrite V1 by auto. ring. }
  assert (KP : (0 < K_of ts)%nat) by (unfold K_of; lia).
  rewrite VF. split.
  - intros l' m FE' LM. specialize (MN data lf DT l' FE').
    rewrite (mean_sse_ext ts data lf (fun q i => sumto (K_of ts) (fun k => nth k l' 0 * m q i k)) (fun q i => sumto (K_of ts) (fun k => nth k l' 0 * lmean o (nth q ts no_tree) i k)) RT); [exact MN|].
    intros q t i N Hi. apply sumto_ext. intros k Hk. f_equal. apply (level_mean_unique t (a_parents_all o) i k); [apply LM; auto|]. rewrite (nth_error_nth _ q no_tree N). eapply lmean_ok; eauto.
  - intros PL. assert (FU : feasible (a_no_constraint o) (K_of ts) (upd (repeat 0 (K_of ts)) 0 1)).
    { pose proof (simplex_unit (K_of ts) KP) as SX. destruct (a_no_constraint o); [apply SX|exact SX]. }
    specialize (MN data lf DT _ FU).
    assert (SQ : sqnorm (upd (repeat 0 (K_of ts)) 0 1) = 1).
    { unfold sqnorm. rewrite nsum_sumto, map_length, upd_length, repeat_length. rewrite (sumto_single _ _ 0%nat KP).
      - rewrite nth_map_in with (d := 0) by (rewrite upd_length, repeat_length; auto). rewrite unit_nth. cbn [Nat.eqb andb]. destruct (Nat.ltb_spec 0 (K_of ts)); [ring|lia].
      - intros k Hk NZ. rewrite nth_map_in with (d := 0) by (rewrite upd_length, repeat_length; auto). rewrite unit_nth. destruct (Nat.eqb_spec k 0); [contradiction|]. cbn [andb]. ring. }
    rewrite SQ in MN. rewrite Rmult_1_r in MN.
    rewrite (mean_sse_ext ts data lf (fun q i => leaf_v (nth q ts no_tree) 0 i) (fun q i => sumto (K_of ts) (fun k => nth k (upd (repeat 0 (K_of ts)) 0 1) 0 * lmean o (nth q ts no_tree) i k)) RT); [exact MN|].
    intros q t i N Hi. rewrite (nth_error_nth _ q no_tree N). rewrite (sumto_single _ _ 0%nat KP).
    + rewrite unit_nth. cbn [Nat.eqb andb]. destruct (Nat.ltb_spec 0 (K_of ts)); [|lia]. rewrite lmean_zero; [ring| | |auto]; [eapply Forall_forall; [exact WF|]|rewrite Forall_forall in PL; apply PL]; eapply nth_error_In; eauto.
    + intros k Hk NZ. rewrite unit_nth. destruct (Nat.eqb_spec k 0); [contradiction|]. cbn [andb]. ring.
Qed.
(** the solution of the normal equations is optimal without constraints *)
Lemma p_C70_inverse : forall n G a l, square n G -> symmetric n G -> pos_semidef n G -> length a = n -> length l = n ->
  (forall i, (i < n)%nat -> sumto n (fun j => nth j (nth i G []) 0 * nth j l 0) = nth i a 0) ->
  forall l', length l' = n -> qp_objective n G a l <= qp_objective n G a l'.
Proof.
  intros n G a l SG SY PS La Ll EQ l' Ll'. unfold qp_objective.
  set (x := fun k => nth k l 0). set (y := fun k => nth k l' 0). set (g := fun i j => nth j (nth i G []) 0).
  pose proof (PS (fun k => y k - x k)) as P. unfold quad in *. fold x y.
  assert (XX : forall u v : nat -> R, sumto n (fun i => sumto n (fun j => u i * g i j * v j)) = sumto n (fun i => u i * sumto n (fun j => g i j * v j))).
  { intros u v. apply sumto_ext. intros i Hi. rewrite <- sumto_scal. apply sumto_ext. intros; ring. }
  assert (SW : forall u v : nat -> R, sumto n (fun i => sumto n (fun j => u i * g i j * v j)) = sumto n (fun i => sumto n (fun j => v i * g i j * u j))).
  { intros u v. rewrite sumto_swap. apply sumto_ext. intros i Hi. apply sumto_ext. intros j Hj. unfold g. rewrite (SY j i Hj Hi). ring. }
  assert (UX : forall u, sumto n (fun i => sumto n (fun j => u i * g i j * x j)) = sumto n (fun i => nth i a 0 * u i)).
  { intros u. rewrite XX. apply sumto_ext. intros i Hi. unfold g, x. rewrite EQ by auto. ring. }
  assert (EXP : sumto n (fun i => sumto n (fun j => (y i - x i) * g i j * (y j - x j))) = sumto n (fun i => sumto n (fun j => y i * g i j * y j)) - 2 * sumto n (fun i => sumto n (fun j => y i * g i j * x j)) + sumto n (fun i => sumto n (fun j => x i * g i j * x j))).
  { rewrite double. pattern (sumto n (fun i => sumto n (fun j => y i * g i j * x j))) at 2. rewrite (SW y x).
    rewrite <- sumto_plus. rewrite sumto_minus, <- sumto_plus. apply sumto_ext. intros i Hi. rewrite <- sumto_plus. rewrite sumto_minus, <- sumto_plus. apply sumto_ext. intros; ring. }
  fold g in P |- *. change (forall i j, nth j (nth i G []) 0 = g i j) in |- * || idtac.
  change (0 <= sumto n (fun i => sumto n (fun j => (y i - x i) * g i j * (y j - x j)))) in P. rewrite EXP, !UX in P.
  change (/ 2 * sumto n (fun i => sumto n (fun j => x i * g i j * x j)) - sumto n (fun k => nth k a 0 * x k) <= / 2 * sumto n (fun i => sumto n (fun j => y i * g i j * y j)) - sumto n (fun k => nth k a 0 * y k)).
  rewrite UX. lra.
Qed.
