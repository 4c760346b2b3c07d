(** L_Level7: the leaf values smooth_all writes. *)
From Verif Require Import Base TreeSpec Spec M_Tree M_Gamma M_Levels M_Grad M_Smooth M_Level SpecSmooth SpecTune SpecLevel.
From Verif Require Import L_Base L_Tree L_TreeModel L_Dist L_Gamma L_Gamma2 L_Sgd L_Grad L_Smooth L_Smooth2 L_Smooth3 L_Route L_Tune L_Level4 L_Level5 L_Level6.
From Coq Require Import Reals Lra Lia.
Local Open Scope R_scope.

Lemma ratio_ok_entry : forall (Ga Et : mat R) r k, ratio_ok Ga Et = true -> length Ga = length Et -> (forall i, (i < length Ga)%nat -> length (nth i Ga []) = length (nth i Et [])) ->
  (r < length Et)%nat -> (k < length (nth r Et []))%nat -> nth k (nth r Et []) 0 = 0 -> nth k (nth r Ga []) 0 = 0.
Proof.
  intros Ga Et r k H L R1 Hr Hk Z. unfold ratio_ok in H. rewrite forallb_forall in H.
  specialize (H (nth k (nth r Ga []) 0, nth k (nth r Et []) 0)).
  assert (I0 : In (nth k (nth r Ga []) 0, nth k (nth r Et []) 0) (combine (concat Ga) (concat Et))).
  { apply (in_combine_concat Ga Et _ 0 L R1). exists r, k. split; [lia|]. split; [rewrite R1; auto; lia|auto]. }
  specialize (H I0). cbn [fst snd] in H. rn. rewrite Z in H. destruct (Reqb_spec 0 0) as [_|N]; [|exfalso; auto].
  destruct (Reqb_spec (nth k (nth r Ga []) 0) 0); auto. discriminate.
Qed.

Section All.
Variables (fuel : nat) (feps : R) (solve : bool -> mat R -> list R -> option (list R)) (in_null : mat R -> list R -> bool).
Variables (o : all_opts R) (oob boot : nat -> list nat) (ts : list (tree R)).
Hypothesis WF : Forall wf_tree ts.
Let K := (snd (calc_depth_for_forest ts) + 1)%nat.
Definition lmean (t : tree R) (i k : nat) : R := kmean t Reg (fun j => if csel t Standard (a_parents_all o) i k j then 1 else 0) 0.

Lemma lmean_ok : forall q t i k, nth_error ts q = Some t -> (i < n_leaves t)%nat -> level_mean t (a_parents_all o) i k (lmean t i k).
Proof.
  intros q t i k N Hi. exists (csel t Standard (a_parents_all o) i k). split; [|reflexivity]. apply csel_selects; auto. eapply Forall_forall; eauto. eapply nth_error_In; eauto.
Qed.

Lemma all_inv : forall f lamb, smooth_all fuel feps solve in_null o oob boot ts = Ok (f, lamb) ->
  exists w yl Gs G1 G2 l0 Y,
    all_leaf_targets o oob boot ts = Ok (w, yl) /\
    length Gs = offset ts (length ts) /\
    (forall q t i, nth_error ts q = Some t -> (i < n_leaves t)%nat -> length (nth (offset ts q + i) Gs []) = K /\
       forall k, (k < K)%nat -> nth k (nth (offset ts q + i) Gs []) 0 = lmean t i k) /\
    (let seen := map (fun x => negb (Reqb x (-(1)))) w in
     let a := rhs_w K (mask_select seen Gs) (mask_select seen w) (mask_select seen yl) in
     update_til_psd fuel feps (symmetrise (gram_w K (mask_select seen Gs) (mask_select seen w))) = Ok G1 /\
     retry fuel (fun M => solve (a_no_constraint o) M a) feps 0 G1 = Ok (G2, l0) /\
     lamb = (if a_sanity o then upd (repeat 0 (length l0)) 0 1 else l0) /\
     length a = K /\
     (a_inner_assess o = true -> in_null G2 (map2 Rminus (upd (repeat 0 (length l0)) 0 1) l0) = false ->
        (exists d, In d (map2 Rminus l0 (upd (repeat 0 (length l0)) 0 1)) /\ (/ 10) ^ 7 < Rabs d) ->
        qp_cost G2 a l0 <= qp_cost G2 a (upd (repeat 0 (length l0)) 0 1))) /\
    Y = map (fun v => [v]) (mv Gs lamb) /\ write_forest Y 0 ts = Ok f.
Proof.
  intros f lamb H. unfold smooth_all, smooth_all_with in H. destruct (negb (Nat.eqb (length (a_y o)) (length (a_X o)))); [discriminate|].
  apply bind_ok in H. destruct H as ([w yl]&HT&H).
  destruct (depth_mats Reg (a_parents_all o) Standard ts WF) as (G&E&Ti&HG&M). rewrite HG in H. cbn [bind] in H.
  destruct M as (LG&LE&LT&LC&V). cbn [n_gamma] in LG, LC. destruct G as [|G0 [|G9 ?]]; try discriminate LG. cbn [concat] in H. rewrite app_nil_r in H.
  specialize (LC 0%nat ltac:(lia)). cbn [nth] in LC.
  destruct (ratio_ok G0 E) eqn:RO; [|discriminate]. cbn [negb] in H. cbv zeta in H.
  set (eps := ndiv n1 (nof (length (a_X o)))) in *. set (Gs := ratio_rows eps G0 E) in *.
  apply bind_ok in H. destruct H as (G1&H1&H). apply bind_ok in H. destruct H as ([G2 l0]&H2&H).
  match type of H with bind (if ?b then Ok ?n else Ok true) _ = _ => set (ex := b) in *; set (nl := n) in * end.
  match type of H with bind _ (fun skip => if (negb skip && ?i && ?c)%bool then _ else ?r) = _ =>
    assert (H' : (if (ex && negb nl && i && c)%bool then Err AssertionError else r) = Ok (f, lamb)) by (destruct ex, nl; exact H) end.
  clear H. rename H' into H. destruct (_ && _ && _ && _)%bool eqn:CHK in H; [discriminate|]. unfold ex, nl in CHK.
  apply bind_ok in H. destruct H as (f'&HW&H).
  exists w, yl, Gs, G1, G2, l0. eexists. split; [exact HT|].
  assert (LGs : length Gs = offset ts (length ts)) by (unfold Gs, ratio_rows; rewrite map2_length; lia).
  assert (RL : forall r, (r < length E)%nat -> length (nth r G0 []) = K /\ length (nth r E []) = K).
  { intros r Hr. rewrite LE in Hr. destruct (offset_find ts r Hr) as (q&t&i&Nq&Hi&->). destruct (V q t Nq i Hi) as (_&_&A1&_&A2). destruct (A2 0%nat ltac:(cbn; lia)) as [A3 _]. cbn [nth] in A3. split; auto. }
  split; [exact LGs|]. split.
  { intros q t i Nq Hi. destruct (V q t Nq i Hi) as (A0&_&A1&A2&A3). destruct (A3 0%nat ltac:(cbn; lia)) as [A4 A5]. cbn [nth] in A4, A5. cbn [nth] in *. fold K in A1, A2, A4, A5.
    assert (RW : nth (offset ts q + i) Gs [] = map2 (fun g e => ndiv g (if neqb e n0 then eps else e)) (nth (offset ts q + i) G0 []) (nth (offset ts q + i) E [])).
    { unfold Gs, ratio_rows. rewrite nth_map2 with (da := []) (db := []) by lia. reflexivity. }
    rewrite RW. split; [rewrite map2_length; lia|]. intros k Hk. rewrite nth_map2 with (da := 0) (db := 0) by lia.
    assert (RE := ratio_ok_entry G0 E (offset ts q + i) k RO LC). rewrite A2, A5 by auto. rewrite A2, A5 in RE by auto. rewrite Nq in *.
    unfold lmean, kmean, kmass. rewrite (sumto_ext (n_leaves t) (fun j => (if csel t Standard (a_parents_all o) i k j then 1 else 0) * leaf_w t j) (fun j => if csel t Standard (a_parents_all o) i k j then leaf_w t j else 0)) by (intros j Hj; destruct (csel t Standard (a_parents_all o) i k j); ring).
    rewrite (sumto_ext (n_leaves t) (fun j => (if csel t Standard (a_parents_all o) i k j then 1 else 0) * leaf_ny t Reg 0 j) (fun j => if csel t Standard (a_parents_all o) i k j then leaf_ny t Reg 0 j else 0)) by (intros j Hj; destruct (csel t Standard (a_parents_all o) i k j); ring).
    unfold sum_sel in *. rn. set (e := sumto (n_leaves t) (fun j => if csel t Standard (a_parents_all o) i k j then leaf_w t j else 0)) in *. destruct (Reqb_spec e 0) as [Z|Z]; destruct (Req_EM_T e 0) as [Z'|Z']; try contradiction; auto.
    rewrite RE; auto; [unfold Rdiv; ring| |lia]. intros r Hr. destruct (RL r) as [-> ->]; auto. lia. }
  assert (HS : f' = f /\ lamb = (if a_sanity o then upd (repeat 0 (length l0)) 0 1 else l0)) by (injection H as E1 E2; split; [exact E1|symmetry; exact E2]). destruct HS as [-> HL].
  assert (HY : write_forest (map (fun v => [v]) (mv Gs lamb)) 0 ts = Ok f) by (rewrite HL; exact HW). clear HW H.
  split; [|split; [reflexivity|exact HY]].
  cbv zeta. split; [exact H1|]. split; [exact H2|]. split; [exact HL|]. split; [unfold rhs_w; rewrite map_length, seq_length; auto|].
  intros IA IN (d&Hd&BD). rewrite IA in CHK. change (@nsub R _) with Rminus in CHK. 
  match type of CHK with (existsb ?p ?l && negb ?n && true && ?c)%bool = false => assert (EX : existsb p l = true); [apply existsb_exists; exists d; split; [exact Hd|] | assert (NN : n = false) by exact IN; rewrite EX, NN in CHK; cbn [negb andb] in CHK] end.
  - rewrite nabs_R, npow_pow. rn. replace (1 / INR 10) with (/ 10) by (cbn; lra). destruct (Rltb_spec ((/ 10) ^ 7) (Rabs d)) as [|GE]; [reflexivity|exfalso; apply (Rlt_irrefl ((/ 10) ^ 7)); eapply Rlt_le_trans; [exact BD|]; exact GE || (apply Rnot_lt_le; exact GE)].
  - match type of CHK with nltb ?x ?y = false => change (Rltb x y = false) in CHK; destruct (Rltb_spec x y) as [|GE]; [discriminate|] end. exact GE.
Qed.

Hypothesis SL : forall nc G a l, solve nc G a = Some l -> length l = length a.

Lemma all_len : forall f lamb, smooth_all fuel feps solve in_null o oob boot ts = Ok (f, lamb) -> length lamb = K.
Proof.
  intros f lamb H. destruct (all_inv f lamb H) as (w&yl&Gs&G1&G2&l0&Y&_&_&_&(_&HR&HL&LA&_)&_).
  match type of HR with retry fuel ?at0 feps 0 G1 = _ => pose proof (retry_spec at0 feps G1 fuel 0) as RS end.
  unfold total_lift at 1 in RS. rewrite add_diag_0, HR in RS. destruct RS as (j&_&_&C&_). apply SL in C. rewrite HL. destruct (a_sanity o); [rewrite upd_length, repeat_length|]; congruence.
Qed.
Lemma all_values : forall f lamb, smooth_all fuel feps solve in_null o oob boot ts = Ok (f, lamb) ->
  length lamb = K /\ length f = length ts /\
  forall q t, nth_error ts q = Some t -> exists t', nth_error f q = Some t' /\ same_but_leaf_values t t' /\
    forall i, (i < n_leaves t)%nat -> nth (leaf_id t i) (t_value t') [] = [sumto K (fun k => nth k lamb 0 * lmean t i k)].
Proof.
  intros f lamb H. pose proof (all_len f lamb H) as LL. destruct (all_inv f lamb H) as (w&yl&Gs&G1&G2&l0&Y&_&LG&VG&_&HY&HW).
  split; auto.
  assert (LY : length Y = offset ts (length ts)) by (subst Y; rewrite map_length, mv_length; auto).
  destruct (write_forest_ok Y ts 0 WF) as (f'&E&Lf&P); [lia|]. assert (f' = f) by congruence. subst f'. split; auto.
  intros q t N. destruct (P q t N) as (t'&N'&SB&V). exists t'. split; auto. split; auto. intros i Hi. rewrite V by auto. cbn [Nat.add].
  destruct (VG q t i N Hi) as [L1 V1]. subst Y.
  assert (Hr : (offset ts q + i < length (mv Gs lamb))%nat). { rewrite mv_length, LG. pose proof (offset_le ts q t N). lia. }
  rewrite nth_map_in with (d := 0) by auto. rewrite mv_nth. rewrite dot_sumto by congruence. rewrite L1. f_equal. apply sumto_ext. intros k Hk. rewrite V1 by auto. ring.
Qed.
End All.

Definition K_of (ts : list (tree R)) : nat := (snd (calc_depth_for_forest ts) + 1)%nat.
Lemma p_C56_values : forall fuel feps solve in_null (o : all_opts R) oob boot ts f lamb, Forall wf_tree ts ->
  (forall nc G a l, solve nc G a = Some l -> length l = length a) ->
  smooth_all fuel feps solve in_null o oob boot ts = Ok (f, lamb) ->
  length lamb = K_of ts /\ length f = length ts /\
  forall q t, nth_error ts q = Some t -> exists t', nth_error f q = Some t' /\ same_but_leaf_values t t' /\
    forall i, (i < n_leaves t)%nat -> exists m, (forall k, (k < K_of ts)%nat -> level_mean t (a_parents_all o) i k (m k)) /\
      nth (leaf_id t i) (t_value t') [] = [sumto (K_of ts) (fun k => nth k lamb 0 * m k)].
Proof.
  intros fuel feps solve in_null o oob boot ts f lamb WF SL H. destruct (all_values _ _ _ _ _ _ _ _ WF SL _ _ H) as (A&B&C). split; auto. split; auto.
  intros q t N. destruct (C q t N) as (t'&N'&SB&V). exists t'. split; auto. split; auto. intros i Hi. exists (lmean o t i). split; [|apply V; auto].
  intros k _. eapply lmean_ok; eauto.
Qed.
Lemma simplex_unit : forall n, (0 < n)%nat -> simplex n (upd (repeat 0 n) 0 1).
Proof.
  intros n Hn. split; [rewrite upd_length, repeat_length; auto|]. split; [|apply nsum_unit; auto].
  intros x Hx. apply (In_nth _ _ 0) in Hx. destruct Hx as (k&_&<-). rewrite unit_nth. destruct (_ && _)%bool; lra.
Qed.
Lemma all_simplex : forall fuel feps solve in_null (o : all_opts R) oob boot ts f lamb, Forall wf_tree ts ->
  (forall G a l, solve (a_no_constraint o) G a = Some l -> a_sanity o = true /\ length l = length a \/ simplex (length a) l) ->
  smooth_all fuel feps solve in_null o oob boot ts = Ok (f, lamb) -> simplex (K_of ts) lamb.
Proof.
  intros fuel feps solve in_null o oob boot ts f lamb WF SS H.
  destruct (all_inv fuel feps solve in_null o oob boot ts WF f lamb H) as (w&yl&Gs&G1&G2&l0&Y&_&_&_&(_&HR&HL&LA&_)&_).
  match type of HR with retry fuel ?at0 feps 0 G1 = _ => pose proof (retry_spec at0 feps G1 fuel 0) as RS end.
  unfold total_lift at 1 in RS. rewrite add_diag_0, HR in RS. destruct RS as (j&_&_&C&_). apply SS in C. rewrite LA in C. fold (K_of ts) in C. rewrite HL.
  assert (LL : length l0 = K_of ts) by (destruct C as [[_ C]|[C _]]; auto).
  destruct (a_sanity o); [|destruct C as [[C _]|C]; [discriminate|auto]]. rewrite LL. apply simplex_unit. unfold K_of. lia.
Qed.
Lemma simplex_comb : forall n l (m : nat -> R) lo hi, simplex n l -> (forall k, (k < n)%nat -> lo <= m k <= hi) -> lo <= sumto n (fun k => nth k l 0 * m k) <= hi.
Proof.
  intros n l m lo hi (L&P&S1) B. rewrite nsum_sumto, L in S1.
  assert (Q : forall c, sumto n (fun k => nth k l 0 * c) = c) by (intros c; rewrite sumto_scal_r, S1; lra).
  split; [rewrite <- (Q lo) at 1|rewrite <- (Q hi)]; apply sumto_le; intros k Hk; apply Rmult_le_compat_l; try (apply B; auto); apply P, nth_In; lia.
Qed.
Lemma csel_self : forall (t : tree R) pa i k, wf_tree t -> (i < n_leaves t)%nat -> (pa = true \/ k = 0%nat) -> csel t Standard pa i k i = true.
Proof.
  intros t pa i k WF Hi Q. unfold csel. rewrite (ddist_diag t Standard i WF Hi). destruct pa; [apply Z.leb_le; lia|]. destruct Q as [|Q]; [discriminate|]. apply Z.eqb_eq. lia.
Qed.
Lemma lmean_range : forall (o : all_opts R) (t : tree R) i k lo hi, wf_tree t -> pos_leaves t -> (i < n_leaves t)%nat -> (a_parents_all o = true \/ k = 0%nat) ->
  (forall j, (j < n_leaves t)%nat -> lo <= leaf_v t 0 j <= hi) -> lo <= lmean o t i k <= hi.
Proof.
  intros o t i k lo hi WF PL Hi Q B. destruct (kmean_range t (fun j => if csel t Standard (a_parents_all o) i k j then 1 else 0) lo hi PL) as [A|[_ A]]; auto.
  - intros j Hj. destruct (csel _ _ _ _ _ _); lra.
  - exfalso. specialize (A i Hi). cbv beta in A. rewrite (csel_self t (a_parents_all o) i k WF Hi Q) in A. lra.
Qed.
Lemma leaf_v_at : forall (t t' : tree R) i x, leaf_id t' i = leaf_id t i -> nth (leaf_id t i) (t_value t') [] = [x] -> leaf_v t' 0 i = x.
Proof. intros t t' i x E H. unfold leaf_v, node_v. rewrite E, H. reflexivity. Qed.
Lemma p_C56_range : forall fuel feps solve in_null (o : all_opts R) oob boot ts f lamb, Forall wf_tree ts ->
  (forall G a l, solve (a_no_constraint o) G a = Some l -> simplex (length a) l) ->
  (forall nc G a l, solve nc G a = Some l -> length l = length a) ->
  a_parents_all o = true ->
  smooth_all fuel feps solve in_null o oob boot ts = Ok (f, lamb) ->
  forall q t t' lo hi, nth_error ts q = Some t -> nth_error f q = Some t' -> pos_leaves t ->
    (forall j, (j < n_leaves t)%nat -> lo <= leaf_v t 0 j <= hi) ->
    forall i, (i < n_leaves t)%nat -> exists x, nth (leaf_id t i) (t_value t') [] = [x] /\ lo <= x <= hi.
Proof.
  intros fuel feps solve in_null o oob boot ts f lamb WF SS SL PA H q t t' lo hi N N' PL B i Hi.
  destruct (all_values _ _ _ _ _ _ _ _ WF SL _ _ H) as (A1&A2&C). destruct (C q t N) as (t2&N2&SB&V). assert (t2 = t') by congruence. subst t2.
  eexists. split; [apply V; auto|]. assert (SX := all_simplex _ _ _ _ _ _ _ _ _ _ WF (fun G a l E => or_intror (SS G a l E)) H).
  apply simplex_comb; auto. intros k Hk. apply lmean_range; auto. eapply Forall_forall; eauto. eapply nth_error_In; eauto.
Qed.
Lemma p_C56_sanity : forall fuel feps solve in_null (o : all_opts R) oob boot ts f lamb, Forall wf_tree ts ->
  (forall nc G a l, solve nc G a = Some l -> length l = length a) ->
  a_sanity o = true ->
  smooth_all fuel feps solve in_null o oob boot ts = Ok (f, lamb) ->
  forall q t t', nth_error ts q = Some t -> nth_error f q = Some t' -> pos_leaves t ->
    forall i, (i < n_leaves t)%nat -> nth (leaf_id t i) (t_value t') [] = [leaf_v t 0 i].
Proof.
  intros fuel feps solve in_null o oob boot ts f lamb WF SL SA H q t t' N N' PL i Hi.
  destruct (all_values _ _ _ _ _ _ _ _ WF SL _ _ H) as (A1&A2&C). destruct (C q t N) as (t2&N2&SB&V). assert (t2 = t') by congruence. subst t2.
  rewrite V by auto. f_equal.
  destruct (all_inv fuel feps solve in_null o oob boot ts WF f lamb H) as (w&yl&Gs&G1&G2&l0&Y&_&_&_&(_&_&HL&_)&_). rewrite SA in HL.
  assert (W : wf_tree t) by (eapply Forall_forall; eauto; eapply nth_error_In; eauto).
  rewrite (sumto_single _ _ 0%nat); [|lia|].
  - rewrite HL, unit_nth. cbn [Nat.eqb andb]. rewrite HL, upd_length, repeat_length in A1. rewrite A1. destruct (Nat.ltb_spec 0 (snd (calc_depth_for_forest ts) + 1)); [|lia].
    unfold lmean. rewrite (kmean_unit t Reg _ i 0 Hi).
    + unfold leaf_ny, leaf_v, node_ny. cbn. specialize (PL i Hi). unfold leaf_w in PL. unfold leaf_w. field. lra.
    + specialize (PL i Hi). lra.
    + intros j Hj. unfold csel. destruct (Nat.eqb_spec i j) as [<-|NE].
      * rewrite (ddist_diag t Standard i W Hi). destruct (a_parents_all o); reflexivity.
      * pose proof (ddist_off t Standard i j W Hi Hj NE). destruct (a_parents_all o); [destruct (Z.leb_spec (ddist t Standard i j) (Z.of_nat 0))|destruct (Z.eqb_spec (ddist t Standard i j) (Z.of_nat 0))]; auto; lia.
  - intros k Hk N0. rewrite HL, unit_nth. destruct (Nat.eqb_spec k 0); [contradiction|]. cbn [andb]. ring.
Qed.
(** constant leaf values, default options: the weight at a distance no leaf has is lost *)
Lemma p_C56_constant : forall fuel feps solve in_null (o : all_opts R) oob boot ts f lamb, Forall wf_tree ts ->
  (forall nc G a l, solve nc G a = Some l -> length l = length a) ->
  smooth_all fuel feps solve in_null o oob boot ts = Ok (f, lamb) ->
  forall q t t' v, nth_error ts q = Some t -> nth_error f q = Some t' -> pos_leaves t ->
    (forall j, (j < n_leaves t)%nat -> leaf_v t 0 j = v) ->
    forall i, (i < n_leaves t)%nat -> exists r : nat -> R,
      (forall k, (k < K_of ts)%nat -> indicates (exists j d, (j < n_leaves t)%nat /\ TreeSpec.leaf_dist t Standard (leaf_id t i) (leaf_id t j) d /\ (if a_parents_all o then (d <= k)%nat else d = k)) (r k)) /\
      nth (leaf_id t i) (t_value t') [] = [v * sumto (K_of ts) (fun k => nth k lamb 0 * r k)].
Proof.
  intros fuel feps solve in_null o oob boot ts f lamb WF SL H q t t' v N N' PL CV i Hi.
  destruct (all_values _ _ _ _ _ _ _ _ WF SL _ _ H) as (A1&A2&C). destruct (C q t N) as (t2&N2&SB&V). assert (t2 = t') by congruence. subst t2.
  assert (W : wf_tree t) by (eapply Forall_forall; eauto; eapply nth_error_In; eauto).
  exists (fun k => if existsb (csel t Standard (a_parents_all o) i k) (seq 0 (n_leaves t)) then 1 else 0). split.
  - intros k Hk. pose proof (csel_selects t W Standard (a_parents_all o) i k Hi) as SE. split; intros Q.
    + destruct Q as (j&d&Hj&D1&D2). replace (existsb _ _) with true; auto. symmetry. apply existsb_exists. exists j. split; [apply in_seq; lia|]. apply SE; eauto.
    + destruct (existsb _ _) eqn:E; auto. exfalso. apply Q. apply existsb_exists in E. destruct E as (j&Hj&E). apply in_seq in Hj. apply SE in E; [|lia]. destruct E as (d&D1&D2). exists j, d. split; [lia|auto].
  - rewrite V by auto. f_equal. rewrite <- sumto_scal. apply sumto_ext. intros k Hk.
    destruct (kmean_range t (fun j => if csel t Standard (a_parents_all o) i k j then 1 else 0) v v PL) as [A|[A1' A2']].
    + intros j Hj. destruct (csel _ _ _ _ _ _); lra.
    + intros j Hj. rewrite CV by auto. lra.
    + assert (E : lmean o t i k = v) by (unfold lmean; lra). rewrite E. destruct (existsb _ _) eqn:X; [ring|].
      assert (Z : kmean t Reg (fun j => if csel t Standard (a_parents_all o) i k j then 1 else 0) 0 = 0).
      { unfold kmean. destruct (Req_EM_T _ 0) as [|NZ]; auto. exfalso. apply NZ. unfold kmass. rewrite (sumto_ext _ _ (fun _ => 0)); [rewrite sumto_const; ring|].
        intros j Hj. replace (csel t Standard (a_parents_all o) i k j) with false; [ring|]. symmetry. apply Bool.not_true_iff_false. intros Y. apply Bool.not_true_iff_false in X. apply X.
        apply existsb_exists. exists j. split; auto. apply in_seq. lia. }
      unfold lmean in E. rewrite Z in E. rewrite <- E. ring.
    + assert (E : lmean o t i k = 0) by (unfold lmean; auto). rewrite E. replace (existsb _ _) with false; [ring|]. symmetry. apply Bool.not_true_iff_false. intros Y.
      apply existsb_exists in Y. destruct Y as (j&Hj&Y). apply in_seq in Hj. specialize (A2' j ltac:(lia)). cbv beta in A2'. rewrite Y in A2'. lra.
Qed.
