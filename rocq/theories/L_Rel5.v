(** L_Rel5: other units of the sample weights, another origin of the response: the descent. *)
From Verif Require Import Base TreeSpec Spec M_Tree M_Gamma M_Levels M_Prox M_Grad M_Sgd M_Smooth SpecSmooth SpecRel.
From Verif Require Import L_Base L_Grad L_Sgd L_Sgd2 L_Rel.
From Coq Require Import Reals Lra.
Local Open Scope R_scope.

(** *** rows of Gamma and eta: eta times s, Gamma plus b eta times s *)
Definition aff_row (s b : R) (g e : list R) : list R := map2 (fun x y => s * (x + b * y)) g e.
Inductive aff_rows (b : R) : mat R -> mat R -> mat R -> mat R -> Prop :=
| aff_nil : aff_rows b [] [] [] []
| aff_cons : forall s g e G E G' E', s <> 0 -> length g = length e -> aff_rows b G E G' E' ->
    aff_rows b (g :: G) (e :: E) (aff_row s b g e :: G') (map (Rmult s) e :: E').

Lemma aff_app : forall b G E G' E', aff_rows b G E G' E' -> forall H F H' F', aff_rows b H F H' F' ->
  aff_rows b (G ++ H) (E ++ F) (G' ++ H') (E' ++ F').
Proof. intros b G E G' E' A. induction A; intros; cbn; auto. constructor; auto. Qed.
Lemma aff_mask : forall b G E G' E', aff_rows b G E G' E' -> forall m,
  aff_rows b (mask_select m G) (mask_select m E) (mask_select m G') (mask_select m E').
Proof.
  intros b G E G' E' A. induction A; intros [|x m]; cbn [mask_select]; try constructor; try (destruct x; constructor; fail).
  destruct x; auto. constructor; auto.
Qed.
Lemma aff_concat : forall b E E' G G', Forall2 (fun g g' => aff_rows b g E g' E') G G' ->
  aff_rows b (concat G) (concat (repeat E (length G))) (concat G') (concat (repeat E' (length G))).
Proof. intros b E E' G G' F. induction F; cbn; [constructor|]. apply aff_app; auto. Qed.
Lemma aff_dot : forall s b g e l, length g = length e -> dot (aff_row s b g e) l = s * (dot g l + b * dot e l).
Proof.
  intros s b. induction g as [|x g IH]; intros [|y e] l L; try discriminate.
  - cbn. rewrite !dot_nil_l. ring.
  - destruct l as [|z l]; [rewrite !dot_nil_r; ring|]. cbn [aff_row map2]. fold (aff_row s b g e). rewrite !dot_cons, IH by (simpl in L; lia). ring.
Qed.
Lemma aff_nth : forall s b g e k, length g = length e -> nth k (aff_row s b g e) 0 = s * (nth k g 0 + b * nth k e 0).
Proof.
  intros s b. induction g as [|x g IH]; intros [|y e] [|k] L; try discriminate; cbn; try ring. apply IH. simpl in L; lia.
Qed.

Definition massy (E : mat R) (l : list R) : Prop := forall e, In e E -> dot e l <> 0.

Lemma zero_ok_cons : forall g e (G E : list R), zero_ok (g :: G) (e :: E) = ((if Reqb e 0 then Reqb g 0 else true) && zero_ok G E)%bool.
Proof. reflexivity. Qed.
Lemma aff_zero_ok : forall b G E G' E' l, aff_rows b G E G' E' -> zero_ok (mv G' l) (mv E' l) = zero_ok (mv G l) (mv E l).
Proof.
  intros b G E G' E' l A. induction A; auto. cbn [mv map]. rewrite !zero_ok_cons.
  change (map (fun r => dot r l) G') with (mv G' l). change (map (fun r => dot r l) E') with (mv E' l).
  rewrite IHA, aff_dot, dot_scal_l by auto. f_equal.
  destruct (Reqb_spec (dot e l) 0) as [Z|Z].
  - rewrite Z, Rmult_0_r, Reqb_true by auto. destruct (Reqb_spec (dot g l) 0) as [Q|Q].
    + apply Reqb_true. rewrite Q. ring.
    + apply Reqb_false. intros X. apply Rmult_integral in X. destruct X; [auto|]. apply Q. lra.
  - rewrite Reqb_false; [reflexivity|]. intros X. apply Rmult_integral in X. tauto.
Qed.
Lemma massy_ok : forall (G E : mat R) l, massy E l -> zero_ok (mv G l) (mv E l) = true.
Proof.
  induction G as [|g G IH]; intros [|e E] l M; auto. cbn [mv map]. rewrite zero_ok_cons.
  rewrite Reqb_false by (apply M; left; auto). cbn [andb]. apply IH. intros x Hx. apply M. right; auto.
Qed.

Definition Ak (Gf Ef : list R) (G E : mat R) (k : nat) : list R :=
  map2 nsub (map2 (fun e g => nmul (ndiv n1 e) g) Ef (col k G)) (map2 nmul (map2 (fun g e => ndiv g (nmul e e)) Gf Ef) (col k E)).

Lemma fill1_cons : forall (x : R) l, fill1 (x :: l) = (if Reqb x 0 then 1 else x) :: fill1 l.
Proof. reflexivity. Qed.
Lemma aff_pred : forall b G E G' E' l, aff_rows b G E G' E' -> massy E l ->
  map2 ndiv (mv G' l) (fill1 (mv E' l)) = map (Rplus b) (map2 ndiv (mv G l) (fill1 (mv E l))).
Proof.
  intros b G E G' E' l A. induction A as [|s g e G E G' E' S0 LE A IH]; intros M; auto.
  assert (D : dot e l <> 0) by (apply M; left; auto).
  assert (SD : s * dot e l <> 0) by (apply Rmult_integral_contrapositive_currified; auto).
  cbn [mv map]. rewrite !fill1_cons. cbn [map2 map].
  change (map (fun r => dot r l) G) with (mv G l). change (map (fun r => dot r l) E) with (mv E l).
  change (map (fun r => dot r l) G') with (mv G' l). change (map (fun r => dot r l) E') with (mv E' l).
  rewrite IH by (intros x Hx; apply M; right; auto). f_equal.
  rewrite aff_dot, dot_scal_l by auto. rewrite !Reqb_false by assumption.
  rn. field. auto.
Qed.
Lemma aff_Ak : forall b G E G' E' l k, aff_rows b G E G' E' -> massy E l ->
  Ak (mv G' l) (fill1 (mv E' l)) G' E' k = Ak (mv G l) (fill1 (mv E l)) G E k.
Proof.
  intros b G E G' E' l k A. induction A as [|s g e G E G' E' S0 LE A IH]; intros M; auto.
  assert (D : dot e l <> 0) by (apply M; left; auto).
  assert (SD : s * dot e l <> 0) by (apply Rmult_integral_contrapositive_currified; auto).
  unfold Ak in *. cbn [mv map col]. rewrite !fill1_cons. cbn [map2].
  change (map (fun r => dot r l) G) with (mv G l). change (map (fun r => dot r l) E) with (mv E l).
  change (map (fun r => dot r l) G') with (mv G' l). change (map (fun r => dot r l) E') with (mv E' l).
  change (map (fun r => nth k r n0) G) with (col k G). change (map (fun r => nth k r n0) E) with (col k E).
  change (map (fun r => nth k r n0) G') with (col k G'). change (map (fun r => nth k r n0) E') with (col k E').
  rewrite IH by (intros x Hx; apply M; right; auto). f_equal.
  rewrite aff_dot, dot_scal_l by auto. rewrite !Reqb_false by assumption.
  change (@n0 R _) with 0. rewrite aff_nth by auto.
  replace (nth k (map (Rmult s) e) 0) with (s * nth k e 0) by (rewrite <- (Rmult_0_r s) at 2; symmetry; apply map_nth).
  rn. field. auto.
Qed.
Lemma aff_values : forall b G E G' E' l, aff_rows b G E G' E' -> massy E l ->
  new_values G' E' l = map (Rplus b) (new_values G E l).
Proof.
  intros b G E G' E' l A. induction A as [|s g e G E G' E' S0 LE A IH]; intros M; auto.
  assert (D : dot e l <> 0) by (apply M; left; auto).
  assert (SD : s * dot e l <> 0) by (apply Rmult_integral_contrapositive_currified; auto).
  unfold new_values in *. cbn [mv map map2].
  change (map (fun r => dot r l) G) with (mv G l). change (map (fun r => dot r l) E) with (mv E l).
  change (map (fun r => dot r l) G') with (mv G' l). change (map (fun r => dot r l) E') with (mv E' l).
  rewrite IH by (intros x Hx; apply M; right; auto). f_equal.
  rewrite aff_dot, dot_scal_l by auto. rn. rewrite !Reqb_false by assumption. field. auto.
Qed.

(** *** targets: plus b where they carry weight *)
Inductive yw_rel (b : R) : list R -> list R -> list R -> Prop :=
| yw_nil : forall w, yw_rel b [] [] w
| yw_cut : forall y y', yw_rel b y y' []
| yw_cons : forall a a' c y y' w, a' = a + b \/ c = 0 -> yw_rel b y y' w -> yw_rel b (a :: y) (a' :: y') (c :: w).
Lemma yw_mask : forall b y y' w, yw_rel b y y' w -> forall m, yw_rel b (mask_select m y) (mask_select m y') (mask_select m w).
Proof.
  intros b y y' w H. induction H; intros m.
  - destruct m as [|[|] m]; constructor.
  - replace (mask_select m (@nil R)) with (@nil R) by (destruct m as [|[|] m]; reflexivity). constructor.
  - destruct m as [|[|] m]; cbn [mask_select]; [constructor|constructor; auto|auto].
Qed.
Lemma yw_zero : forall y w, yw_rel 0 y y w.
Proof. induction y; intros [|c w]; constructor; auto. left; ring. Qed.
Lemma map2_nil_r : forall {A B C} (f : A -> B -> C) l, map2 f l [] = [].
Proof. destruct l; reflexivity. Qed.
Lemma yw_res : forall b y y' w, yw_rel b y y' w -> forall (F : R -> R -> R) p, (forall r r', F r 0 = F r' 0) ->
  map2 F (map2 nsub y' (map (Rplus b) p)) w = map2 F (map2 nsub y p) w.
Proof.
  intros b y y' w H. induction H; intros F p HF; cbn [map2]; auto.
  - rewrite !map2_nil_r. auto.
  - destruct p as [|x p]; cbn [map map2]; auto. rewrite IHyw_rel by auto. f_equal. rn.
    destruct H as [H|H]; rewrite H; [f_equal; ring|auto].
Qed.

Record aff_prob (b : R) (P P' : problem R) : Prop := {
  ap_rows : aff_rows b (p_Gamma P) (p_eta P) (p_Gamma P') (p_eta P');
  ap_yw : yw_rel b (p_y P) (p_y P') (p_w P);
  ap_w : p_w P' = p_w P;
  ap_t : p_tidx P' = p_tidx P }.

Lemma aff_restrict : forall b P P' q, aff_prob b P P' -> aff_prob b (restrict P q) (restrict P' q).
Proof.
  intros b P P' q [A B C D]. unfold restrict. rewrite D, C. constructor; cbn; auto using aff_mask, yw_mask.
Qed.
Lemma aff_cost : forall b P P' l, aff_prob b P P' -> (massy (p_eta P) l \/ exists e, l_cost l2_loss P l = Err e) ->
  l_cost l2_loss P' l = l_cost l2_loss P l.
Proof.
  intros b P P' l A M. cbn [l_cost l2_loss] in *. unfold calc_cost, fills in *.
  rewrite (aff_zero_ok b _ _ _ _ l (ap_rows _ _ _ A)).
  destruct (zero_ok (mv (p_Gamma P) l) (mv (p_eta P) l)) eqn:Z; cbn [bind] in *; auto.
  destruct M as [M|(e&M)]; [|discriminate]. rewrite (aff_pred b _ _ _ _ l (ap_rows _ _ _ A) M), (ap_w _ _ _ A).
  f_equal. f_equal. apply yw_res; [apply (ap_yw _ _ _ A)|]. intros. rn. ring.
Qed.
Lemma aff_cost_ok : forall b P P' l c, aff_prob b P P' -> l_cost l2_loss P l = Ok c -> exists c', l_cost l2_loss P' l = Ok c'.
Proof.
  intros b P P' l c A H. cbn [l_cost l2_loss] in *. unfold calc_cost, fills in *.
  rewrite (aff_zero_ok b _ _ _ _ l (ap_rows _ _ _ A)).
  destruct (zero_ok (mv (p_Gamma P) l) (mv (p_eta P) l)) eqn:Z; cbn [bind] in *; [eauto|discriminate].
Qed.
Lemma aff_grad : forall b P P' l, aff_prob b P P' -> massy (p_eta P) l -> l_grad l2_loss P' l = l_grad l2_loss P l.
Proof.
  intros b P P' l A M. cbn [l_grad l2_loss] in *. unfold take_gradient, fills.
  rewrite (aff_zero_ok b _ _ _ _ l (ap_rows _ _ _ A)), massy_ok by auto. cbn [bind].
  rewrite (aff_pred b _ _ _ _ l (ap_rows _ _ _ A) M), (ap_w _ _ _ A).
  rewrite (yw_res b _ _ _ (ap_yw _ _ _ A)) by (intros; rn; ring).
  f_equal. apply map_ext. intros k. 
  pose proof (aff_Ak b _ _ _ _ l k (ap_rows _ _ _ A) M) as X. unfold Ak in X. rewrite X. reflexivity.
Qed.
Lemma massy_restrict : forall P q l, massy (p_eta P) l -> massy (p_eta (restrict P q)) l.
Proof. intros P q l M e He. apply M. cbn in He. eapply mask_select_incl; eauto. Qed.


(** *** two descents that agree wherever every row has mass *)
Section Agree.
Variables (L : loss R) (proj : list R -> result (list R)) (P P' : problem R).
Hypothesis HC : forall l, massy (p_eta P) l \/ (exists e, l_cost L P l = Err e) -> l_cost L P' l = l_cost L P l.
Hypothesis HK : forall l c, l_cost L P l = Ok c -> exists c', l_cost L P' l = Ok c'.
Hypothesis HG : forall q l, massy (p_eta P) l -> l_grad L (restrict P' q) l = l_grad L (restrict P q) l.
Hypothesis HT : p_tidx P' = p_tidx P.

Lemma agree_step : forall cons t ad nt st d, massy (p_eta P) (g_lamb st) ->
  (forall st', sgd_step L proj cons t ad P nt st d = Ok st' -> massy (p_eta P) (g_lamb st')) ->
  sgd_step L proj cons t ad P' nt st d = sgd_step L proj cons t ad P nt st d.
Proof using HC HG.
  intros cons t ad nt st d M N. unfold sgd_step in *.
  assert (GE : l_grad L (restrict P' (d mod nt)) (g_lamb st) = l_grad L (restrict P (d mod nt)) (g_lamb st)) by (apply HG; auto).
  assert (X : match ad with
    | Some p => do r <- adam_step (l_grad L (restrict P' (d mod nt))) (Some (g_lamb st)) p (g_iv st); Ok (fst r, Some (snd r))
    | None => do grad <- l_grad L (restrict P' (d mod nt)) (g_lamb st); Ok (map2 (fun l g => nsub l (nmul t g)) (g_lamb st) grad, None) end
    = match ad with
    | Some p => do r <- adam_step (l_grad L (restrict P (d mod nt))) (Some (g_lamb st)) p (g_iv st); Ok (fst r, Some (snd r))
    | None => do grad <- l_grad L (restrict P (d mod nt)) (g_lamb st); Ok (map2 (fun l g => nsub l (nmul t g)) (g_lamb st) grad, None) end).
  { destruct ad; [|rewrite GE; reflexivity]. unfold adam_step. destruct (g_iv st); cbn [bind iv_lamb]; rewrite GE; reflexivity. }
  rewrite X. clear X GE. destruct (match ad with Some p => _ | None => _ end) as [[l1 iv1]|]; cbn [bind] in *; auto.
  destruct (if cons then proj l1 else Ok l1) as [l2|]; cbn [bind] in *; auto.
  rewrite (HC l2); auto.
  destruct (l_cost L P l2) as [cn|e] eqn:EC; [left|right; eauto].
  cbn [bind] in N. specialize (N _ eq_refl). exact N.
Qed.

Lemma agree_fold : forall cons t ad nt draws st,
  (forall s st', foldM (sgd_step L proj cons t ad P nt) (firstn s draws) st = Ok st' -> massy (p_eta P) (g_lamb st')) ->
  foldM (sgd_step L proj cons t ad P' nt) draws st = foldM (sgd_step L proj cons t ad P nt) draws st.
Proof using HC HG.
  intros cons t ad nt. induction draws as [|d draws IH]; intros st H; [reflexivity|]. cbn [foldM].
  rewrite (agree_step cons t ad nt st d).
  - destruct (sgd_step L proj cons t ad P nt st d) as [st1|] eqn:E; cbn [bind]; auto.
    apply IH. intros s st' Hs. apply (H (S s)). cbn [firstn foldM]. rewrite E. exact Hs.
  - apply (H 0%nat). reflexivity.
  - intros st1 E. apply (H 1%nat). cbn [firstn foldM]. rewrite E. reflexivity.
Qed.

Lemma best_massy : forall cons t ad nt (Q : list R -> Prop) draws st st',
  foldM (sgd_step L proj cons t ad P nt) draws st = Ok st' -> Q (g_best st) ->
  (forall s st', foldM (sgd_step L proj cons t ad P nt) (firstn s draws) st = Ok st' -> Q (g_lamb st')) ->
  Q (g_best st').
Proof using.
  intros cons t ad nt Q. induction draws as [|d draws IH]; intros st st' F B H; cbn [foldM] in F; [inversion F; subst; auto|].
  bok F. apply (IH a st' F).
  - assert (QA : Q (g_lamb a)) by (apply (H 1%nat); cbn [firstn foldM]; rewrite E; reflexivity).
    unfold sgd_step in E. bok E. destruct a0 as [l1 iv1]. bok E. bok E. inversion E; subst a. cbn [g_best g_lamb] in *.
    match goal with |- context [if ?x then _ else _] => destruct x end; auto.
  - intros s st1 Hs. apply (H (S s)). cbn [firstn foldM]. rewrite E. exact Hs.
Qed.

Lemma agree_run : forall init t cons ad draws,
  (forall s best lst cs, sgd_run L proj cons t ad P init (firstn s draws) = Ok (best, lst, cs) -> massy (p_eta P) lst) ->
  sgd_run L proj cons t ad P' init draws = sgd_run L proj cons t ad P init draws /\
  forall best lst cs, sgd_run L proj cons t ad P init draws = Ok (best, lst, cs) -> massy (p_eta P) best /\ massy (p_eta P) lst.
Proof using HC HK HG HT.
  intros init t cons ad draws H. unfold sgd_run in *. rewrite HT.
  destruct (l_cost L P init) as [c0|e] eqn:EC; cbn [bind] in *.
  2:{ rewrite (HC init) by (right; eauto). rewrite EC. split; [reflexivity|discriminate]. }
  destruct (count_trees (p_tidx P)) as [nt|e] eqn:ET; cbn [bind] in *.
  2:{ destruct (HK init c0 EC) as (c1&->). split; [reflexivity|discriminate]. }
  set (st0 := {| g_lamb := init; g_iv := None; g_best := init; g_cbest := c0; g_costs := [c0] |}) in *.
  assert (HM : forall s st', foldM (sgd_step L proj cons t ad P nt) (firstn s draws) st0 = Ok st' -> massy (p_eta P) (g_lamb st')).
  { intros s st' Hs. apply (H s (g_best st') (g_lamb st') (g_costs st')). rewrite Hs. reflexivity. }
  assert (M0 : massy (p_eta P) init) by (apply (HM 0%nat st0); reflexivity).
  rewrite (HC init) by auto. rewrite EC. cbn [bind]. fold st0.
  rewrite (agree_fold cons t ad nt draws st0 HM). split; [reflexivity|].
  intros best lst cs HB. bok HB. inversion HB; subst; clear HB. split.
  - eapply (best_massy cons t ad nt (massy (p_eta P))); eauto.
  - apply (HM (length draws)). rewrite firstn_all. auto.
Qed.
End Agree.

Lemma aff_sgd : forall b P P' init t cons ad draws, aff_prob b P P' -> ncols (p_Gamma P') = ncols (p_Gamma P) ->
  (forall s best lst cs, stocastic_grad_descent P init t cons ad (firstn s draws) = Ok (best, lst, cs) -> massy (p_eta P) lst) ->
  stocastic_grad_descent P' init t cons ad draws = stocastic_grad_descent P init t cons ad draws /\
  forall best lst cs, stocastic_grad_descent P init t cons ad draws = Ok (best, lst, cs) -> massy (p_eta P) best /\ massy (p_eta P) lst.
Proof.
  intros b P P' init t cons ad draws A NC H. unfold stocastic_grad_descent in *. rewrite NC.
  destruct (negb _); [split; [auto|discriminate]|]. destruct (_ && _)%bool; [split; [auto|discriminate]|].
  apply agree_run; auto.
  - intros l. apply (aff_cost b); auto.
  - intros l c. apply (aff_cost_ok b); auto.
  - intros q l M. apply (aff_grad b); [apply aff_restrict; auto|apply massy_restrict; auto].
  - apply (ap_t _ _ _ A).
Qed.

(** the cross-entropy loss, with the same targets *)
Lemma map_plus0 : forall l : list R, map (Rplus 0) l = l.
Proof. induction l; cbn; auto. rewrite IHl, Rplus_0_l. reflexivity. Qed.
Lemma aff_cost_ce : forall lg P P' l, aff_prob 0 P P' -> p_y P' = p_y P -> massy (p_eta P) l -> l_cost (ce_loss lg) P' l = l_cost (ce_loss lg) P l.
Proof.
  intros lg P P' l A EY M. cbn [l_cost ce_loss]. unfold calc_cost_ce.
  rewrite (aff_pred 0 _ _ _ _ l (ap_rows _ _ _ A) M), map_plus0, (ap_w _ _ _ A), EY. reflexivity.
Qed.
Definition Bk (Gf Ef : list R) (G E : mat R) (k : nat) : list R :=
  map2 (fun num e => ndiv num (nmul e e)) (map2 nsub (map2 nmul (col k G) Ef) (map2 nmul (col k E) Gf)) Ef.
Lemma aff_Bk : forall b G E G' E' l k, aff_rows b G E G' E' -> massy E l ->
  Bk (mv G' l) (fill1 (mv E' l)) G' E' k = Bk (mv G l) (fill1 (mv E l)) G E k.
Proof.
  intros b G E G' E' l k A. induction A as [|s g e G E G' E' S0 LE A IH]; intros M; auto.
  assert (D : dot e l <> 0) by (apply M; left; auto).
  assert (SD : s * dot e l <> 0) by (apply Rmult_integral_contrapositive_currified; auto).
  unfold Bk in *. cbn [mv map col]. rewrite !fill1_cons. cbn [map2].
  change (map (fun r => dot r l) G) with (mv G l). change (map (fun r => dot r l) E) with (mv E l).
  change (map (fun r => dot r l) G') with (mv G' l). change (map (fun r => dot r l) E') with (mv E' l).
  change (map (fun r => nth k r n0) G) with (col k G). change (map (fun r => nth k r n0) E) with (col k E).
  change (map (fun r => nth k r n0) G') with (col k G'). change (map (fun r => nth k r n0) E') with (col k E').
  rewrite IH by (intros x Hx; apply M; right; auto). f_equal.
  rewrite aff_dot, dot_scal_l by auto. rewrite !Reqb_false by assumption.
  change (@n0 R _) with 0. rewrite aff_nth by auto.
  replace (nth k (map (Rmult s) e) 0) with (s * nth k e 0) by (rewrite <- (Rmult_0_r s) at 2; symmetry; apply map_nth).
  rn. field. auto.
Qed.
Lemma aff_grad_ce : forall lg P P' l, aff_prob 0 P P' -> p_y P' = p_y P -> massy (p_eta P) l -> l_grad (ce_loss lg) P' l = l_grad (ce_loss lg) P l.
Proof.
  intros lg P P' l A EY M. cbn [l_grad ce_loss]. unfold take_gradient_ce, fills.
  rewrite (aff_zero_ok 0 _ _ _ _ l (ap_rows _ _ _ A)), massy_ok by auto. cbn [bind].
  rewrite (aff_pred 0 _ _ _ _ l (ap_rows _ _ _ A) M), map_plus0, (ap_w _ _ _ A), EY.
  f_equal. apply map_ext. intros k.
  pose proof (aff_Bk 0 _ _ _ _ l k (ap_rows _ _ _ A) M) as X. unfold Bk in X. rewrite X. reflexivity.
Qed.
Lemma aff_sgd_ce : forall lg P P' init t cons eps ad draws, aff_prob 0 P P' -> p_y P' = p_y P -> ncols (p_Gamma P') = ncols (p_Gamma P) ->
  (forall s best lst cs, stocastic_grad_descent_ce lg P init t cons eps ad (firstn s draws) = Ok (best, lst, cs) -> massy (p_eta P) lst) ->
  stocastic_grad_descent_ce lg P' init t cons eps ad draws = stocastic_grad_descent_ce lg P init t cons eps ad draws /\
  forall best lst cs, stocastic_grad_descent_ce lg P init t cons eps ad draws = Ok (best, lst, cs) -> massy (p_eta P) best /\ massy (p_eta P) lst.
Proof.
  intros lg P P' init t cons eps ad draws A EY NC H. unfold stocastic_grad_descent_ce in *. rewrite NC.
  destruct (negb _); [split; [auto|discriminate]|].
  apply agree_run; auto.
  - intros l [M|(e&M)]; [apply aff_cost_ce; auto|discriminate].
  - intros l c _. eexists. reflexivity.
  - intros q l M. apply aff_grad_ce; [apply aff_restrict; auto| |apply massy_restrict; auto].
    unfold restrict; cbn. rewrite EY, (ap_t _ _ _ A). reflexivity.
  - apply (ap_t _ _ _ A).
Qed.
