(** L_Rel: two runs side by side. *)
From Verif Require Import Base TreeSpec Spec M_Tree M_Gamma M_Levels M_Prox M_Grad M_Sgd M_Smooth SpecSmooth SpecRel
  L_Base L_Tree L_TreeModel L_TreeModel2 L_Dist L_Gamma L_Gamma2 L_Grad L_Sgd.
From Coq Require Import Reals Lra.
Local Open Scope R_scope.

Lemma map_repeat' : forall {A B} (f : A -> B) x n, map f (repeat x n) = repeat (f x) n.
Proof. induction n; cbn; congruence. Qed.
Lemma rrel_bind : forall {A B C D} (Rl : A -> B -> Prop) (Sl : C -> D -> Prop) x y f g,
  rrel Rl x y -> (forall a b, Rl a b -> rrel Sl (f a) (g b)) -> rrel Sl (bind x f) (bind y g).
Proof. intros. destruct x, y; cbn in *; auto; contradiction. Qed.
Lemma rrel_eq : forall {A} (x y : result A), rrel eq x y <-> x = y.
Proof. intros. destruct x, y; cbn; split; intros H; try congruence; contradiction. Qed.
Lemma rrel_map : forall {A B} (f : A -> B) x y, rrel (fun a b => b = f a) x y <-> y = rmap f x.
Proof. intros. destruct x, y; cbn; split; intros H; try congruence; contradiction. Qed.
Lemma rrel_impl : forall {A B} (Rl Sl : A -> B -> Prop) x y, (forall a b, Rl a b -> Sl a b) -> rrel Rl x y -> rrel Sl x y.
Proof. intros. destruct x, y; cbn in *; auto. Qed.
Lemma foldM_rrel : forall {A A' B B'} (Rl : A -> A' -> Prop) (Sl : B -> B' -> Prop) f f' l l' a a',
  (forall a a' x x', Rl a a' -> Sl x x' -> rrel Rl (f a x) (f' a' x')) ->
  Forall2 Sl l l' -> Rl a a' -> rrel Rl (foldM f l a) (foldM f' l' a').
Proof.
  intros A A' B B' Rl Sl f f' l l' a a' H F. revert a a'. induction F; intros a a' Ra; cbn; auto.
  eapply rrel_bind; eauto.
Qed.
Lemma mapM_rrel : forall {A A' B B'} (Rl : A -> A' -> Prop) (Sl : B -> B' -> Prop) f f' l l',
  (forall a a', Rl a a' -> rrel Sl (f a) (f' a')) ->
  Forall2 Rl l l' -> rrel (Forall2 Sl) (mapM f l) (mapM f' l').
Proof.
  intros A A' B B' Rl Sl f f' l l' H F. induction F; cbn; auto.
  eapply rrel_bind; [eauto|]. intros. eapply rrel_bind; [eauto|]. intros. cbn. auto.
Qed.
Lemma Forall2_combine_seq : forall {A B} (Rl : A -> B -> Prop) l l' s, Forall2 Rl l l' ->
  Forall2 (fun x y => fst x = fst y /\ Rl (snd x) (snd y)) (combine (seq s (length l)) l) (combine (seq s (length l')) l').
Proof. intros A B Rl l l' s F. revert s. induction F; intros s; cbn; constructor; auto. Qed.
Lemma Forall2_len : forall {A B} (Rl : A -> B -> Prop) l l', Forall2 Rl l l' -> length l = length l'.
Proof. intros A B Rl l l' F. induction F; cbn; auto. Qed.
Lemma Forall2_mapr : forall {A B} (f : A -> B) l, Forall2 (fun a b => b = f a) l (map f l).
Proof. induction l; cbn; constructor; auto. Qed.
Lemma Forall2_map_inv : forall {A B} (f : A -> B) l l', Forall2 (fun a b => b = f a) l l' -> l' = map f l.
Proof. intros A B f l l' F. induction F; cbn; congruence. Qed.

(** *** a descent whose cost and gradient are multiplied by the positive number [al] *)
Definition sc_iv (al : R) (v : adam_iv R) : adam_iv R :=
  {| iv_t := iv_t v; iv_lamb := iv_lamb v; iv_m1 := map (Rmult al) (iv_m1 v); iv_m2 := map (Rmult (al * al)) (iv_m2 v) |}.
Definition sc_par (al : R) (p : adam_par R) : adam_par R :=
  {| ad_alpha := ad_alpha p; ad_b1 := ad_b1 p; ad_b2 := ad_b2 p; ad_eps := al * ad_eps p |}.
Definition sc_st (al : R) (st : sgd_state R) : sgd_state R :=
  {| g_lamb := g_lamb st; g_iv := option_map (sc_iv al) (g_iv st); g_best := g_best st;
     g_cbest := al * g_cbest st; g_costs := map (Rmult al) (g_costs st) |}.

Section Sim.
Variables (al : R) (L : loss R) (P P' : problem R).
Hypothesis (AL : 0 < al).
Hypothesis HC : forall l, l_cost L P' l = rmap (Rmult al) (l_cost L P l).
Hypothesis HG : forall q l, l_grad L (restrict P' q) l = rmap (map (Rmult al)) (l_grad L (restrict P q) l).

Lemma map_map2' : forall {A B C} (f : A -> B -> C) (g : C -> C) l m, map g (map2 f l m) = map2 (fun a b => g (f a b)) l m.
Proof. induction l; destruct m; cbn; auto. f_equal. auto. Qed.

Lemma adam_update_sc : forall p v g, adam_update (sc_par al p) (sc_iv al v) (map (Rmult al) g) = sc_iv al (adam_update p v g).
Proof.
  intros p v g. unfold adam_update, sc_iv, sc_par. cbn [iv_t iv_lamb iv_m1 iv_m2 ad_alpha ad_b1 ad_b2 ad_eps].
  assert (M1 : map2 (fun m g0 => nadd (nmul m (ad_b1 p)) (nmul (nsub n1 (ad_b1 p)) g0)) (map (Rmult al) (iv_m1 v)) (map (Rmult al) g)
    = map (Rmult al) (map2 (fun m g0 => nadd (nmul m (ad_b1 p)) (nmul (nsub n1 (ad_b1 p)) g0)) (iv_m1 v) g)).
  { rewrite map2_map_l, map2_map_r, map_map2'. apply map2_ext_in. intros; rn; ring. }
  assert (M2 : map2 (fun m g0 => nadd (nmul m (ad_b2 p)) (nmul (nsub n1 (ad_b1 p)) (nmul g0 g0))) (map (Rmult (al * al)) (iv_m2 v)) (map (Rmult al) g)
    = map (Rmult (al * al)) (map2 (fun m g0 => nadd (nmul m (ad_b2 p)) (nmul (nsub n1 (ad_b1 p)) (nmul g0 g0))) (iv_m2 v) g)).
  { rewrite map2_map_l, map2_map_r, map_map2'. apply map2_ext_in. intros; rn; ring. }
  rewrite M1, M2. f_equal. f_equal. rewrite !map_map. rewrite !map2_map_l, !map2_map_r.
  apply map2_ext_in. intros a b _ _. rn. unfold Rdiv. rewrite !Rmult_assoc.
  rewrite <- (Rmult_assoc al al), (sqrt_mult_alt (al * al)) by nra. rewrite sqrt_square by lra.
  rewrite <- Rmult_plus_distr_l, Rinv_mult.
  set (u := / (1 - npow (ad_b1 p) _)). set (z := / (sqrt _ + _)). field. lra.
Qed.

Lemma sgd_step_sc : forall proj cons t adam nt st d,
  sgd_step L proj cons (t / al) (option_map (sc_par al) adam) P' nt (sc_st al st) d =
  rmap (sc_st al) (sgd_step L proj cons t adam P nt st d).
Proof using AL HC HG.
  intros proj cons t adam nt st d. apply rrel_map. unfold sgd_step.
  apply rrel_bind with (Rl := fun a b => b = (fst a, option_map (sc_iv al) (snd a))).
  - destruct adam as [p|]; cbn [option_map].
    + unfold adam_step.
      assert (ST : rrel (fun a b => b = sc_iv al a)
        (match g_iv st with Some v => Ok v
         | None => Ok {| iv_t := 0; iv_lamb := g_lamb st; iv_m1 := repeat n0 (length (g_lamb st)); iv_m2 := repeat n0 (length (g_lamb st)) |} end)
        (match g_iv (sc_st al st) with Some v => Ok v
         | None => Ok {| iv_t := 0; iv_lamb := g_lamb st; iv_m1 := repeat n0 (length (g_lamb st)); iv_m2 := repeat n0 (length (g_lamb st)) |} end)).
      { unfold sc_st; cbn [g_iv]. destruct (g_iv st); cbn; auto. unfold sc_iv; cbn.
        rewrite !map_repeat'. rn. rewrite !Rmult_0_r. reflexivity. }
      apply rrel_bind with (Rl := fun a b => b = (fst a, sc_iv al (snd a))).
      * eapply rrel_bind; [exact ST|]. intros a b ->.
        eapply rrel_bind with (Rl := fun a b => b = map (Rmult al) a).
        { cbn [iv_lamb]. rewrite HG. change (g_lamb (sc_st al st)) with (g_lamb st).
          destruct (l_grad L (restrict P (d mod nt)) (g_lamb st)); cbn; auto. }
        intros g g' ->. cbn [rrel]. 
        change ({| iv_t := iv_t (sc_iv al a); iv_lamb := g_lamb (sc_st al st); iv_m1 := iv_m1 (sc_iv al a); iv_m2 := iv_m2 (sc_iv al a) |})
          with (sc_iv al {| iv_t := iv_t a; iv_lamb := g_lamb st; iv_m1 := iv_m1 a; iv_m2 := iv_m2 a |}).
        rewrite adam_update_sc. reflexivity.
      * intros [l v] b ->. cbn. reflexivity.
    + rewrite HG. change (g_lamb (sc_st al st)) with (g_lamb st).
      destruct (l_grad L (restrict P (d mod nt)) (g_lamb st)) as [g|]; cbn; auto. f_equal.
      rewrite map2_map_r. apply map2_ext_in. intros; rn. field. lra.
  - intros [l v] b ->. cbn [fst snd]. apply rrel_bind with (Rl := eq); [apply rrel_eq; reflexivity|].
    intros l2 l2' <-. rewrite HC.
    destruct (l_cost L P l2) as [cn|]; cbn; auto. unfold sc_st at 1. cbn. rn.
    assert (E : Rltb (al * cn) (al * g_cbest st) = Rltb cn (g_cbest st)).
    { destruct (Rltb_spec cn (g_cbest st)); [apply Rltb_true|apply Rltb_false]; nra. }
    unfold sc_st; cbn [g_lamb g_iv g_best g_cbest g_costs]. rewrite E.
    rewrite map_app. cbn [map]. destruct (Rltb cn (g_cbest st)); reflexivity.
Qed.

Lemma sgd_run_sc : forall proj cons t adam l draws, p_tidx P' = p_tidx P ->
  sgd_run L proj cons (t / al) (option_map (sc_par al) adam) P' l draws =
  rmap (fun r => (fst (fst r), snd (fst r), map (Rmult al) (snd r))) (sgd_run L proj cons t adam P l draws).
Proof using AL HC HG.
  intros proj cons t adam l draws ET. apply rrel_map. unfold sgd_run. rewrite HC, ET.
  destruct (l_cost L P l) as [c0|]; cbn [rmap bind]; [|reflexivity].
  destruct (count_trees (p_tidx P)) as [nt|]; cbn [rmap bind]; [|reflexivity].
  eapply rrel_bind with (Rl := fun a b => b = sc_st al a).
  - apply foldM_rrel with (Sl := eq).
    + intros a a' x x' -> <-. apply rrel_map. apply sgd_step_sc.
    + clear. induction draws; constructor; auto.
    + reflexivity.
  - intros a b ->. cbn. reflexivity.
Qed.
End Sim.

(** *** the problem in other units *)
Definition sc_prob (c : R) (P : problem R) : problem R :=
  {| p_y := map (Rmult c) (p_y P); p_w := p_w P; p_Gamma := map (map (Rmult c)) (p_Gamma P); p_eta := p_eta P; p_tidx := p_tidx P |}.

Lemma restrict_sc : forall c P q, restrict (sc_prob c P) q = sc_prob c (restrict P q).
Proof. intros. unfold restrict, sc_prob; cbn. rewrite !mask_select_map. reflexivity. Qed.
Lemma dot_scal_l : forall (a b : list R) c, dot (map (Rmult c) a) b = c * dot a b.
Proof. intros. rewrite dot_comm. change (map (Rmult c) a) with (map (fun x => c * x) a). rewrite dot_scal_r, dot_comm. reflexivity. Qed.
Lemma mv_sc : forall c (M : mat R) l, mv (map (map (Rmult c)) M) l = map (Rmult c) (mv M l).
Proof. intros. unfold mv. rewrite !map_map. apply map_ext. intros; apply dot_scal_l. Qed.

Section Sc.
Variable c : R.
Hypothesis NZ : c <> 0.
Lemma fills_sc : forall (G E : mat R) l,
  fills (map (map (Rmult c)) G) E l = rmap (fun r => (map (Rmult c) (fst r), snd r)) (fills G E l).
Proof using NZ.
  intros G E l. unfold fills. rewrite mv_sc.
  assert (Z : zero_ok (map (Rmult c) (mv G l)) (mv E l) = zero_ok (mv G l) (mv E l)).
  { unfold zero_ok. rewrite map2_map_l. f_equal. apply map2_ext_in. intros a b _ _. rn.
    destruct (Reqb b 0); auto. destruct (Reqb_spec a 0); [apply Reqb_true; subst; ring|apply Reqb_false].
    intros Q. apply Rmult_integral in Q. tauto. }
  rewrite Z. destruct (zero_ok (mv G l) (mv E l)); reflexivity.
Qed.
Lemma resid_sc : forall y Gf Ef, map2 nsub (map (Rmult c) y) (map2 ndiv (map (Rmult c) Gf) Ef) = map (Rmult c) (map2 nsub y (map2 (@ndiv R _) Gf Ef)).
Proof.
  intros. rewrite map2_map_l.
  assert (E : map2 ndiv (map (Rmult c) Gf) Ef = map (Rmult c) (map2 (@ndiv R _) Gf Ef)).
  { rewrite map2_map_l, map_map2'. apply map2_ext_in. intros; rn. unfold Rdiv; ring. }
  rewrite E, map2_map_r, map_map2'. apply map2_ext_in. intros; rn; ring.
Qed.
Lemma nsum_sc : forall l : list R, nsum (map (Rmult c) l) = c * nsum l.
Proof. induction l; cbn [map]; rewrite ?nsum_nil, ?nsum_cons, ?IHl; ring. Qed.

Lemma cost_sc : forall P l, l_cost l2_loss (sc_prob c P) l = rmap (Rmult (c * c)) (l_cost l2_loss P l).
Proof using NZ.
  intros. cbn [l_cost l2_loss sc_prob p_y p_Gamma p_eta p_w]. unfold calc_cost. rewrite fills_sc.
  destruct (fills (p_Gamma P) (p_eta P) l) as [[Gf Ef]|]; cbn [rmap bind fst snd]; auto. f_equal. rewrite resid_sc.
  rewrite map2_map_l. set (r := map2 nsub _ _). generalize (p_w P) as w. clear. induction r; destruct w; cbn [map2]; rewrite ?nsum_nil; try ring.
  rewrite !nsum_cons, IHr. rn. ring.
Qed.

Lemma grad_sc : forall P l, l_grad l2_loss (sc_prob c P) l = rmap (map (Rmult (c * c))) (l_grad l2_loss P l).
Proof using NZ.
  intros. cbn [l_grad l2_loss sc_prob p_y p_Gamma p_eta p_w]. unfold take_gradient. rewrite fills_sc.
  destruct (fills (p_Gamma P) (p_eta P) l) as [[Gf Ef]|]; cbn [rmap bind fst snd]; auto. f_equal. rewrite resid_sc.
  rewrite map_map. apply map_ext. intros k.
  assert (C : col k (map (map (Rmult c)) (p_Gamma P)) = map (Rmult c) (col k (p_Gamma P))).
  { unfold col. rewrite !map_map. apply map_ext. intros a. rn. rewrite <- (Rmult_0_r c) at 1. apply map_nth. }
  rewrite C.
  assert (A : map2 nsub (map2 (fun e g => nmul (ndiv n1 e) g) Ef (map (Rmult c) (col k (p_Gamma P))))
      (map2 nmul (map2 (fun g e => ndiv g (nmul e e)) (map (Rmult c) Gf) Ef) (col k (p_eta P)))
    = map (Rmult c) (map2 nsub (map2 (fun e g => nmul (ndiv n1 e) g) Ef (col k (p_Gamma P)))
      (map2 nmul (map2 (fun g e => ndiv g (nmul e e)) Gf Ef) (col k (p_eta P))))).
  { assert (X1 : map2 (fun e g => nmul (ndiv n1 e) g) Ef (map (Rmult c) (col k (p_Gamma P)))
      = map (Rmult c) (map2 (fun e g => nmul (ndiv n1 e) g) Ef (col k (p_Gamma P)))).
    { rewrite map2_map_r, map_map2'. apply map2_ext_in. intros; rn; ring. }
    assert (X2 : map2 nmul (map2 (fun g e => ndiv g (nmul e e)) (map (Rmult c) Gf) Ef) (col k (p_eta P))
      = map (Rmult c) (map2 nmul (map2 (fun g e => ndiv g (nmul e e)) Gf Ef) (col k (p_eta P)))).
    { assert (X3 : map2 (fun g e => ndiv g (nmul e e)) (map (Rmult c) Gf) Ef = map (Rmult c) (map2 (fun g e => ndiv g (nmul e e)) Gf Ef)).
      { rewrite map2_map_l, map_map2'. apply map2_ext_in. intros; rn. unfold Rdiv; ring. }
      rewrite X3, map2_map_l, map_map2'. apply map2_ext_in. intros; rn; ring. }
    rewrite X1, X2, map2_map_l, map2_map_r, map_map2'. apply map2_ext_in. intros; rn; ring. }
  rewrite A. set (u := map2 nsub (map2 _ _ _) _). set (r := map2 nsub _ _).
  rewrite map2_map_l. 
  assert (B : nsum (map2 nmul (map2 (fun a b => nmul (c * a) b) r (p_w P)) (map (Rmult c) u)) = c * c * nsum (map2 nmul (map2 nmul r (p_w P)) u)).
  { rewrite map2_map_r. clearbody u r. revert u. generalize (p_w P) as w. clear. 
    induction r; destruct w; intros [|u us]; cbn [map2]; rewrite ?nsum_nil; try ring.
    rewrite !nsum_cons, IHr. rn. ring. }
  rewrite B. rn. ring.
Qed.

Lemma sgd_sc : forall P l t cons adam draws, 
  stocastic_grad_descent (sc_prob c P) l (t / (c * c)) cons (option_map (sc_par (c * c)) adam) draws =
  rmap (fun r => (fst (fst r), snd (fst r), map (Rmult (c * c)) (snd r))) (stocastic_grad_descent P l t cons adam draws).
Proof using NZ.
  intros. unfold stocastic_grad_descent. 
  assert (E : ncols (p_Gamma (sc_prob c P)) = ncols (p_Gamma P)).
  { cbn. unfold ncols. destruct (p_Gamma P); cbn; auto. apply map_length. }
  rewrite E. destruct (negb _); [reflexivity|]. destruct (_ && _)%bool; [reflexivity|].
  apply sgd_run_sc; auto.
  - apply Rlt_0_sqr in NZ. exact NZ.
  - intros. apply cost_sc.
  - intros. rewrite restrict_sc. apply grad_sc.
Qed.
End Sc.
