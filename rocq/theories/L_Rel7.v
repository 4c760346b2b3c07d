(** L_Rel7: the order of the trees. *)
From Verif Require Import Base TreeSpec Spec M_Tree M_Gamma M_Levels M_Prox M_Grad M_Sgd M_Smooth SpecSmooth SpecRel.
From Verif Require Import L_Base L_Tree L_TreeModel L_Dist L_Gamma L_Gamma2 L_Grad L_Sgd L_Sgd2 L_Smooth L_Smooth2 L_Smooth3 L_Smooth4 L_Rel L_Rel2 L_Rel3.
From Coq Require Import Reals Lra Permutation.
Local Open Scope R_scope.

(** *** a problem as a list of rows *)
Record prow := { r_y : R; r_w : R; r_g : list R; r_e : list R; r_q : nat }.
Definition of_rows (L : list prow) : problem R :=
  {| p_y := map r_y L; p_w := map r_w L; p_Gamma := map r_g L; p_eta := map r_e L; p_tidx := map r_q L |}.
Definition ren (s : nat -> nat) (r : prow) : prow := {| r_y := r_y r; r_w := r_w r; r_g := r_g r; r_e := r_e r; r_q := s (r_q r) |}.

Lemma mask_select_filter : forall {A} (f : A -> bool) l, mask_select (map f l) l = filter f l.
Proof. intros A f l. induction l; cbn; auto. destruct (f a); cbn; congruence. Qed.
Lemma mask_filter_map : forall {A B} (f : A -> bool) (g : A -> B) l, mask_select (map f l) (map g l) = map g (filter f l).
Proof. intros. rewrite mask_select_map, mask_select_filter. reflexivity. Qed.
Lemma restrict_rows : forall L q, restrict (of_rows L) q = of_rows (filter (fun r => Nat.eqb (r_q r) q) L).
Proof.
  intros. unfold restrict, of_rows. cbn [p_y p_w p_Gamma p_eta p_tidx]. rewrite map_map, !mask_filter_map. reflexivity.
Qed.

Definition ef (l : list R) (r : prow) : R := let e := dot (r_e r) l in if Reqb e 0 then 1 else e.
Definition okr (l : list R) (r : prow) : bool := if Reqb (dot (r_e r) l) 0 then Reqb (dot (r_g r) l) 0 else true.
Lemma rows_ok : forall L l, zero_ok (mv (p_Gamma (of_rows L)) l) (mv (p_eta (of_rows L)) l) = forallb (okr l) L.
Proof.
  intros. unfold zero_ok, mv. cbn [of_rows p_Gamma p_eta]. induction L as [|r L IH]; [reflexivity|]. cbn [map map2 forallb]. unfold okr at 1. f_equal. exact IH.
Qed.
Lemma rows_fill : forall L l, fill1 (mv (p_eta (of_rows L)) l) = map (ef l) L.
Proof. intros. unfold fill1, mv. cbn [of_rows p_eta]. rewrite !map_map. reflexivity. Qed.
Lemma rows_gf : forall L l, mv (p_Gamma (of_rows L)) l = map (fun r => dot (r_g r) l) L.
Proof. intros. unfold mv. cbn [of_rows p_Gamma]. rewrite map_map. reflexivity. Qed.
Lemma map2_maps : forall {A B C D} (F : B -> C -> D) (f : A -> B) (g : A -> C) l, map2 F (map f l) (map g l) = map (fun x => F (f x) (g x)) l.
Proof. induction l; cbn; congruence. Qed.

Lemma cost_rows : forall L l, l_cost l2_loss (of_rows L) l = if forallb (okr l) L then
  Ok (nsum (map (fun r => nmul (nmul (nsub (r_y r) (ndiv (dot (r_g r) l) (ef l r))) (nsub (r_y r) (ndiv (dot (r_g r) l) (ef l r)))) (r_w r)) L)) else Err AssertionError.
Proof.
  intros. cbn [l_cost l2_loss]. unfold calc_cost, fills. rewrite rows_ok. destruct (forallb (okr l) L); cbn [bind]; [|reflexivity].
  rewrite rows_fill, rows_gf. cbn [of_rows p_y p_w]. rewrite !map2_maps. reflexivity.
Qed.
Lemma col_rows : forall k (f : prow -> list R) L, col k (map f L) = map (fun r => nth k (f r) 0) L.
Proof. intros. unfold col. rewrite map_map. reflexivity. Qed.
Lemma grad_rows : forall L l, exists h : nat -> prow -> R, l_grad l2_loss (of_rows L) l = (if forallb (okr l) L then
  Ok (map (fun k => nopp (nmul (nadd n1 n1) (nsum (map (h k) L)))) (seq 0 (length l))) else Err AssertionError) /\
  forall L', l_grad l2_loss (of_rows L') l = (if forallb (okr l) L' then
  Ok (map (fun k => nopp (nmul (nadd n1 n1) (nsum (map (h k) L')))) (seq 0 (length l))) else Err AssertionError).
Proof.
  intros L l. eexists. assert (X : forall L, l_grad l2_loss (of_rows L) l = (if forallb (okr l) L then
    Ok (map (fun k => nopp (nmul (nadd n1 n1) (nsum (map ((fun k r => nmul (nmul (nsub (r_y r) (ndiv (dot (r_g r) l) (ef l r))) (r_w r))
       (nsub (nmul (ndiv n1 (ef l r)) (nth k (r_g r) 0)) (nmul (ndiv (dot (r_g r) l) (nmul (ef l r) (ef l r))) (nth k (r_e r) 0)))) k) L)))) (seq 0 (length l))) else Err AssertionError)).
  { clear. intros L. cbn [l_grad l2_loss]. unfold take_gradient, fills. rewrite rows_ok. destruct (forallb (okr l) L); cbn [bind]; [|reflexivity].
    rewrite rows_fill, rows_gf. cbn [of_rows p_y p_w p_Gamma p_eta]. f_equal. apply map_ext. intros k. rewrite !col_rows, !map2_maps. reflexivity. }
  split; [apply X|exact X].
Qed.
Lemma cost_ce_rows : forall lg, exists h : list R -> prow -> R, forall L l, l_cost (ce_loss lg) (of_rows L) l =
  Ok (nopp (nsum (map (h l) (filter (fun r => negb (neqb (r_w r) n0) && negb (neqb (r_y r) n0))%bool L)))).
Proof.
  intros lg. eexists. intros L l. cbn [l_cost ce_loss]. unfold calc_cost_ce. rewrite rows_fill, rows_gf. cbn [of_rows p_y p_w].
  rewrite !map2_maps. rewrite !mask_filter_map. rewrite map_map, !map2_maps.
  match goal with |- Ok (nopp (nsum (map ?f _))) = _ => instantiate (1 := fun l r => nmul (nmul (r_w r) (r_y r)) (lg (ndiv (dot (r_g r) l) (ef l r)))) end.
  reflexivity.
Qed.
Lemma grad_ce_rows : forall lg, exists h : list R -> nat -> prow -> R, forall L l, l_grad (ce_loss lg) (of_rows L) l = (if forallb (okr l) L then
  Ok (map (fun k => nsum (map (h l k) L)) (seq 0 (length l))) else Err AssertionError).
Proof.
  intros lg. exists (fun l k r => nmul (ndiv (nsub (nmul (nth k (r_g r) 0) (ef l r)) (nmul (nth k (r_e r) 0) (dot (r_g r) l))) (nmul (ef l r) (ef l r)))
    (ndiv (nmul (nopp (r_w r)) (r_y r)) (ndiv (dot (r_g r) l) (ef l r)))).
  intros L l. cbn [l_grad ce_loss]. unfold take_gradient_ce, fills. rewrite rows_ok. destruct (forallb (okr l) L); cbn [bind]; [|reflexivity].
  rewrite rows_fill, rows_gf. cbn [of_rows p_y p_w p_Gamma p_eta]. f_equal. apply map_ext. intros k.
  unfold dot at 1. rewrite !col_rows, !map2_maps. reflexivity.
Qed.

(** *** permuted rows *)
Lemma forallb_perm : forall {A} (f : A -> bool) l m, Permutation l m -> forallb f l = forallb f m.
Proof. intros A f l m P. induction P; cbn; try congruence. rewrite !Bool.andb_assoc, (Bool.andb_comm (f y)). reflexivity. Qed.
Lemma filter_perm : forall {A} (f : A -> bool) l m, Permutation l m -> Permutation (filter f l) (filter f m).
Proof.
  intros A f l m P. induction P; cbn; auto.
  - destruct (f x); auto.
  - destruct (f x), (f y); auto. apply perm_swap.
  - eapply perm_trans; eauto.
Qed.
Definition row_sym (L : loss R) : Prop := forall A B l, Permutation A B -> l_cost L (of_rows A) l = l_cost L (of_rows B) l /\ l_grad L (of_rows A) l = l_grad L (of_rows B) l.
Lemma l2_sym : row_sym l2_loss.
Proof.
  intros A B l P. split.
  - rewrite !cost_rows, (forallb_perm (okr l) A B P). destruct (forallb _ B); auto. f_equal. apply nsum_perm, Permutation_map; auto.
  - destruct (grad_rows A l) as (h&->&H). rewrite H, (forallb_perm (okr l) A B P). destruct (forallb _ B); auto. f_equal. apply map_ext. intros k.
    rewrite (nsum_perm _ _ (Permutation_map (h k) P)). reflexivity.
Qed.
Lemma ce_sym : forall lg, row_sym (ce_loss lg).
Proof.
  intros lg A B l P. split.
  - destruct (cost_ce_rows lg) as (h&H). rewrite !H. rewrite (nsum_perm _ _ (Permutation_map (h l) (filter_perm _ _ _ P))). reflexivity.
  - destruct (grad_ce_rows lg) as (h&H). rewrite !H, (forallb_perm (okr l) A B P). destruct (forallb _ B); auto. f_equal. apply map_ext. intros k.
    apply nsum_perm, Permutation_map; auto.
Qed.
(** tree numbers do not enter cost and gradient *)
Definition ren_free (L : loss R) : Prop := forall s A l, l_cost L (of_rows (map (ren s) A)) l = l_cost L (of_rows A) l /\ l_grad L (of_rows (map (ren s) A)) l = l_grad L (of_rows A) l.
Lemma ren_comp : forall s A, p_y (of_rows (map (ren s) A)) = p_y (of_rows A) /\ p_w (of_rows (map (ren s) A)) = p_w (of_rows A) /\
  p_Gamma (of_rows (map (ren s) A)) = p_Gamma (of_rows A) /\ p_eta (of_rows (map (ren s) A)) = p_eta (of_rows A).
Proof. intros. unfold of_rows; cbn. rewrite !map_map. auto. Qed.
Lemma l2_ren : ren_free l2_loss.
Proof. intros s A l. cbn [l_cost l_grad l2_loss]. destruct (ren_comp s A) as (->&->&->&->). auto. Qed.
Lemma ce_ren : forall lg, ren_free (ce_loss lg).
Proof. intros lg s A l. cbn [l_cost l_grad ce_loss]. destruct (ren_comp s A) as (->&->&->&->). auto. Qed.

Section Desc.
Variables (L : loss R) (proj : list R -> result (list R)) (A B : list prow) (s : nat -> nat) (nt : nat).
Hypothesis LS : row_sym L.
Hypothesis LR : ren_free L.
Hypothesis PM : Permutation A (map (ren s) B).
Hypothesis INJ : forall i j, (i < nt)%nat -> (j < nt)%nat -> s i = s j -> i = j.
Hypothesis BB : forall r, In r B -> (r_q r < nt)%nat.

Lemma cost_same : forall l, l_cost L (of_rows B) l = l_cost L (of_rows A) l.
Proof using LS LR PM. intros l. rewrite (proj1 (LS _ _ l PM)), (proj1 (LR s B l)). reflexivity. Qed.
Lemma grad_same : forall q l, (q < nt)%nat -> l_grad L (restrict (of_rows B) q) l = l_grad L (restrict (of_rows A) (s q)) l.
Proof using LS LR PM INJ BB.
  intros q l Hq. rewrite !restrict_rows. rewrite (proj2 (LS _ _ l (filter_perm _ _ _ PM))).
  assert (E : filter (fun r => Nat.eqb (r_q r) (s q)) (map (ren s) B) = map (ren s) (filter (fun r => Nat.eqb (r_q r) q) B)).
  { clear PM. induction B as [|r B' IH]; auto. cbn [map filter]. rewrite IH by (intros; apply BB; right; auto). cbn [ren r_q].
    destruct (Nat.eqb_spec (r_q r) q) as [X|X].
    - rewrite X, Nat.eqb_refl. reflexivity.
    - destruct (Nat.eqb_spec (s (r_q r)) (s q)) as [Y|Y]; auto. exfalso. apply X, INJ; auto. apply BB; left; auto. }
  rewrite E, (proj2 (LR s _ l)). reflexivity.
Qed.
Lemma run_same : forall cons t ad init draws draws', count_trees (p_tidx (of_rows A)) = Ok nt -> count_trees (p_tidx (of_rows B)) = Ok nt ->
  Forall2 (fun d d' => d mod nt = s (d' mod nt)) draws draws' ->
  sgd_run L proj cons t ad (of_rows B) init draws' = sgd_run L proj cons t ad (of_rows A) init draws.
Proof using LS LR PM INJ BB.
  intros cons t ad init draws draws' CA CB F. unfold sgd_run. rewrite CA, CB, cost_same.
  destruct (l_cost L (of_rows A) init) as [c0|]; cbn [bind]; [|reflexivity].
  assert (NT : (nt <> 0)%nat). { unfold count_trees in CA. destruct (p_tidx (of_rows A)); [discriminate|]. inversion CA. lia. }
  assert (X : forall st, foldM (sgd_step L proj cons t ad (of_rows B) nt) draws' st = foldM (sgd_step L proj cons t ad (of_rows A) nt) draws st).
  { clear CA CB. induction F as [|d d' ds ds' E F IH]; intros st; cbn [foldM]; [reflexivity|].
    assert (ES : sgd_step L proj cons t ad (of_rows B) nt st d' = sgd_step L proj cons t ad (of_rows A) nt st d).
    { assert (GE : forall l, l_grad L (restrict (of_rows B) (d' mod nt)) l = l_grad L (restrict (of_rows A) (d mod nt)) l).
      { intros l. rewrite E. apply grad_same. apply Nat.mod_upper_bound; auto. }
      unfold sgd_step. 
      assert (X : match ad with
        | Some p => do r <- adam_step (l_grad L (restrict (of_rows B) (d' mod nt))) (Some (g_lamb st)) p (g_iv st); Ok (fst r, Some (snd r))
        | None => do grad <- l_grad L (restrict (of_rows B) (d' mod nt)) (g_lamb st); Ok (map2 (fun l g => nsub l (nmul t g)) (g_lamb st) grad, None) end
        = match ad with
        | Some p => do r <- adam_step (l_grad L (restrict (of_rows A) (d mod nt))) (Some (g_lamb st)) p (g_iv st); Ok (fst r, Some (snd r))
        | None => do grad <- l_grad L (restrict (of_rows A) (d mod nt)) (g_lamb st); Ok (map2 (fun l g => nsub l (nmul t g)) (g_lamb st) grad, None) end).
      { destruct ad; [|rewrite GE; reflexivity]. unfold adam_step. destruct (g_iv st); cbn [bind iv_lamb]; rewrite GE; reflexivity. }
      rewrite X. clear X. match goal with |- bind ?m _ = _ => destruct m as [[l1 iv1]|e]; cbn [bind]; [|reflexivity] end.
      destruct (if cons then proj l1 else Ok l1) as [l2|]; cbn [bind]; [|reflexivity]. rewrite cost_same. reflexivity. }
    rewrite ES. destruct (sgd_step L proj cons t ad (of_rows A) nt st d); cbn [bind]; auto. }
  rewrite X. reflexivity.
Qed.
End Desc.

(** *** the rows of the problem, tree by tree *)
Definition zip5 (y w : list R) (g e : list (list R)) (q : list nat) : list prow :=
  map2 (fun f x => f x) (map2 (fun f x => f x) (map2 (fun f x => f x) (map2 (fun a b c d e => Build_prow a b c d e) y w) g) e) q.
Lemma zip5_comp : forall y w g e q n, length y = n -> length w = n -> length g = n -> length e = n -> length q = n ->
  map r_y (zip5 y w g e q) = y /\ map r_w (zip5 y w g e q) = w /\ map r_g (zip5 y w g e q) = g /\ map r_e (zip5 y w g e q) = e /\ map r_q (zip5 y w g e q) = q.
Proof.
  unfold zip5. induction y as [|a y IH]; intros w g e q n H1 H2 H3 H4 H5.
  - cbn in H1. subst n. destruct w, g, e, q; try discriminate. cbn. auto.
  - destruct n; [discriminate|]. destruct w, g, e, q; try discriminate. cbn in *.
    destruct (IH w g e q n) as (A&B&C&D&E); try lia. rewrite A, B, C, D, E. auto.
Qed.
Lemma zip5_ren : forall s y w g e q, map (ren s) (zip5 y w g e q) = zip5 y w g e (map s q).
Proof.
  unfold zip5. intros s. induction y as [|a y IH]; intros; [reflexivity|]. destruct w, g, e, q; try reflexivity. cbn. f_equal. apply IH.
Qed.

Section Blocks.
Variables (kd : kind) (o : smooth_opts R) (rd : randomness) (pa : bool) (s : dstyle) (K : nat).
Definition gef (t : tree R) : list (mat R) * mat R := match create_Gamma_eta_tree kd pa s t with Ok r => r | Err _ => ([], []) end.
Definition tg (it : nat * tree R) : result (mat R * list R) :=
  do '(X, y) <- tuning_data kd o rd (fst it); leaf_targets (n_gamma kd) (snd it) X y.
Definition tf (it : nat * tree R) : mat R * list R := match tg it with Ok r => r | Err _ => ([], []) end.
Definition tix (q : nat) : nat := if o_all_trees o then O else q.
Definition blk (c : nat) (it : nat * tree R) : list prow :=
  zip5 (map (fun r => nth c r 0) (fst (tf it))) (snd (tf it)) (map (pad_row pa K) (nth c (fst (gef (snd it))) []))
    (map (pad_row pa K) (snd (gef (snd it)))) (repeat (tix (fst it)) (length (snd (gef (snd it))))).

Lemma gef_ok : forall t, wf_tree t -> create_Gamma_eta_tree kd pa s t = Ok (gef t) /\ length (fst (gef t)) = n_gamma kd /\
  length (snd (gef t)) = n_leaves t /\ (forall c, (c < n_gamma kd)%nat -> length (nth c (fst (gef t)) []) = n_leaves t).
Proof using. intros t W. destruct (create_tree_ok t W s kd pa) as (m&G&E&H&_&H1&H2&_&_&H3&_). unfold gef. rewrite H. cbn. repeat split; auto. intros c Hc. apply H3; auto. Qed.

Lemma map2_grow : forall (F : nat -> mat R) (g : list (mat R)) nc, length g = nc ->
  map2 (fun Ga ga => Ga ++ map (pad_row pa K) ga) (map F (seq 0 nc)) g = map (fun c => F c ++ map (pad_row pa K) (nth c g [])) (seq 0 nc).
Proof using.
  intros F g nc <-. revert F. induction g as [|a g IH]; intros F; [reflexivity|]. cbn [length seq map map2 nth]. f_equal.
  rewrite <- seq_shift, !map_map. rewrite (IH (fun c => F (S c))). apply map_ext. intros; reflexivity.
Qed.
Lemma stack_blocks : forall its acc F E Ti, Forall (fun it => wf_tree (snd it)) its -> 
  foldM (add_tree pa K (create_Gamma_eta_tree kd pa s)) its (map F (seq 0 (n_gamma kd)), E, Ti) = Ok acc ->
  acc = (map (fun c => F c ++ flat_map (fun it => map (pad_row pa K) (nth c (fst (gef (snd it))) [])) its) (seq 0 (n_gamma kd)),
         E ++ flat_map (fun it => map (pad_row pa K) (snd (gef (snd it)))) its,
         Ti ++ flat_map (fun it => repeat (fst it) (length (snd (gef (snd it))))) its).
Proof using.
  induction its as [|it its IH]; intros acc F E Ti W H.
  - cbn in H. inversion H; subst. cbn. rewrite !app_nil_r. f_equal. f_equal. apply map_ext. intros; rewrite app_nil_r; auto.
  - inversion W as [|x l W1 W2]; subst. destruct (gef_ok _ W1) as (C&L1&L2&_). cbn [foldM] in H. unfold add_tree at 1 in H. rewrite C in H. cbn [bind] in H.
    destruct (gef (snd it)) as [g e] eqn:GE. cbn [fst snd] in *. destruct (Nat.ltb K (ncols e)); [discriminate|]. cbn [bind] in H.
    rewrite (map2_grow F g _ L1) in H. apply IH in H; auto. subst acc. cbn [flat_map]. rewrite GE. cbn [fst snd]. rewrite !app_assoc. f_equal. f_equal.
    apply map_ext. intros c. rewrite app_assoc. reflexivity.
Qed.
Lemma targets_blocks : forall its Y W r, foldM (add_targets kd o rd) its (Y, W) = Ok r ->
  Forall (fun it => tg it = Ok (tf it)) its /\ r = (Y ++ flat_map (fun it => fst (tf it)) its, W ++ flat_map (fun it => snd (tf it)) its).
Proof using.
  induction its as [|it its IH]; intros Y W r H.
  - cbn in H. inversion H. split; auto. cbn. rewrite !app_nil_r. reflexivity.
  - cbn [foldM] in H. unfold add_targets at 1 in H. destruct (tuning_data kd o rd (fst it)) as [[X y]|] eqn:T; [|discriminate]. cbn [bind] in *.
    destruct (leaf_targets (n_gamma kd) (snd it) X y) as [[yl w]|] eqn:E; [|discriminate]. cbn [bind fst snd] in *.
    apply IH in H. destruct H as (F&->). assert (TT : tg it = Ok (yl, w)) by (unfold tg; rewrite T; exact E).
    assert (TF : tf it = (yl, w)) by (unfold tf; rewrite TT; reflexivity). split.
    + constructor; [rewrite TF; exact TT|exact F].
    + cbn [flat_map]. rewrite TF. cbn. rewrite !app_assoc. reflexivity.
Qed.
Lemma blocks_targets : forall its Y W, Forall (fun it => tg it = Ok (tf it)) its ->
  foldM (add_targets kd o rd) its (Y, W) = Ok (Y ++ flat_map (fun it => fst (tf it)) its, W ++ flat_map (fun it => snd (tf it)) its).
Proof using.
  induction its as [|it its IH]; intros Y W H.
  - cbn. rewrite !app_nil_r. reflexivity.
  - inversion H as [|a l A B]; subst. cbn [foldM]. unfold add_targets at 1. unfold tg in A. destruct (tuning_data kd o rd (fst it)) as [[X y]|]; [|discriminate]. cbn [bind] in *.
    destruct (tf it) as [yl w] eqn:TF. rewrite A. cbn [bind fst snd]. rewrite IH by auto. cbn [flat_map]. rewrite TF. cbn. rewrite !app_assoc. reflexivity.
Qed.
Lemma tg_len : forall it r, tg it = Ok r -> length (fst r) = n_leaves (snd it) /\ length (snd r) = n_leaves (snd it).
Proof using.
  intros it r H. unfold tg in H. destruct (tuning_data kd o rd (fst it)) as [[X y]|]; [|discriminate]. cbn [bind] in H. unfold leaf_targets in H.
  destruct (obs_V_leaf (snd it) X) as [V|]; [|discriminate]. cbn [bind] in H.
  destruct (negb _); [discriminate|]. destruct (negb _); [discriminate|]. inversion H. cbn [fst snd].
  rewrite map2_length. unfold fill1. rewrite !map_length. unfold transpose. rewrite map_length, seq_length, num_leaf_eq. split; [apply Nat.min_id|reflexivity].
Qed.
Lemma concat_rep : forall {A} (l : list A) (n a : nat), concat (repeat l n) = flat_map (fun _ : nat => l) (seq a n).
Proof using. intros A l n. induction n; intros a; [reflexivity|]. cbn. f_equal. apply (IHn). Qed.
Lemma map_flat : forall {A B C} (f : B -> C) (g : A -> list B) l, map f (flat_map g l) = flat_map (fun x => map f (g x)) l.
Proof using. intros. induction l; cbn; auto. rewrite map_app, IHl. reflexivity. Qed.
Lemma flat_ext : forall {A B} (f g : A -> list B) l, (forall x, In x l -> f x = g x) -> flat_map f l = flat_map g l.
Proof using. intros A B f g l H. induction l; cbn; auto. rewrite H, IHl; auto. intros; apply H; right; auto. left; auto. Qed.

Lemma flatten_blocks : forall its Y W G E Ti, Forall (fun it => wf_tree (snd it)) its ->
  foldM (add_tree pa K (create_Gamma_eta_tree kd pa s)) its (repeat [] (n_gamma kd), [], []) = Ok (G, E, Ti) ->
  foldM (add_targets kd o rd) its ([], []) = Ok (Y, W) ->
  flatten kd o G E Ti Y W = of_rows (flat_map (fun c => flat_map (blk c) its) (seq 0 (n_gamma kd))).
Proof using.
  intros its Y W G E Ti WF HS HT.
  assert (R0 : repeat ([] : mat R) (n_gamma kd) = map (fun _ => []) (seq 0 (n_gamma kd))).
  { clear. generalize 0%nat as a. induction (n_gamma kd) as [|m IH]; intros a; [reflexivity|]. cbn [repeat seq map]. rewrite (IH (S a)). reflexivity. }
  rewrite R0 in HS. apply stack_blocks in HS; auto. apply targets_blocks in HT. destruct HT as (TO&HT). inversion HS; subst G E Ti. inversion HT; subst Y W. clear HS HT R0. cbn [app].
  assert (ZC : forall c it, (c < n_gamma kd)%nat -> In it its ->
     map r_y (blk c it) = map (fun r => nth c r 0) (fst (tf it)) /\ map r_w (blk c it) = snd (tf it) /\
     map r_g (blk c it) = map (pad_row pa K) (nth c (fst (gef (snd it))) []) /\ map r_e (blk c it) = map (pad_row pa K) (snd (gef (snd it))) /\
     map r_q (blk c it) = repeat (tix (fst it)) (length (snd (gef (snd it))))).
  { intros c it Hc Hi. rewrite Forall_forall in WF, TO. destruct (gef_ok _ (WF _ Hi)) as (_&_&L2&L3). destruct (tg_len _ _ (TO _ Hi)) as (T1&T2).
    apply (zip5_comp _ _ _ _ _ (n_leaves (snd it))); rewrite ?map_length, ?repeat_length; auto. }
  unfold flatten, of_rows. rewrite !map_flat.
  assert (MB : forall {B} (r : prow -> B) (f : nat -> nat * tree R -> list B), (forall c it, (c < n_gamma kd)%nat -> In it its -> map r (blk c it) = f c it) ->
    flat_map (fun c => map r (flat_map (blk c) its)) (seq 0 (n_gamma kd)) = flat_map (fun c => flat_map (f c) its) (seq 0 (n_gamma kd))).
  { intros B r f H. apply flat_ext. intros c Hc. rewrite map_flat. apply flat_ext. intros it Hi. apply in_seq in Hc. apply H; auto; lia. }
  f_equal.
  - rewrite (MB _ r_y (fun c it => map (fun r => nth c r 0) (fst (tf it)))) by (intros; apply ZC; auto).
    unfold transpose. rewrite <- flat_map_concat_map. apply flat_ext. intros c Hc. apply map_flat.
  - rewrite (MB _ r_w (fun c it => snd (tf it))) by (intros; apply ZC; auto). apply concat_rep.
  - rewrite (MB _ r_g (fun c it => map (pad_row pa K) (nth c (fst (gef (snd it))) []))) by (intros; apply ZC; auto). rewrite <- flat_map_concat_map. reflexivity.
  - rewrite (MB _ r_e (fun c it => map (pad_row pa K) (snd (gef (snd it))))) by (intros; apply ZC; auto). apply concat_rep.
  - rewrite (MB _ r_q (fun c it => repeat (tix (fst it)) (length (snd (gef (snd it)))))) by (intros; apply ZC; auto).
    rewrite (concat_rep _ _ 0). apply flat_ext. intros c Hc. unfold tix. destruct (o_all_trees o); [|reflexivity]. apply flat_ext. intros it _.
    generalize (length (snd (gef (snd it)))) as m. induction m as [|m IH]; [reflexivity|]. cbn [repeat map]. rewrite IH. reflexivity.
Qed.
End Blocks.

(** *** reordering *)
Lemma perm_bound : forall pi n, Permutation (map pi (seq 0 n)) (seq 0 n) -> forall q, (q < n)%nat -> (pi q < n)%nat.
Proof.
  intros pi n P q Hq. assert (In (pi q) (seq 0 n)) as H. { apply (Permutation_in _ P), in_map, in_seq. lia. } apply in_seq in H. lia.
Qed.
Lemma perm_inj : forall pi n, Permutation (map pi (seq 0 n)) (seq 0 n) -> forall i j, (i < n)%nat -> (j < n)%nat -> pi i = pi j -> i = j.
Proof.
  intros pi n P i j Hi Hj E. assert (ND : NoDup (map pi (seq 0 n))). { eapply Permutation_NoDup; [apply Permutation_sym, P|apply seq_NoDup]. }
  rewrite NoDup_nth with (d := pi 0%nat) in ND. apply ND; rewrite ?map_length, ?seq_length; auto.
  rewrite !map_nth, !seq_nth; auto.
Qed.
Lemma combine_seq_map : forall {A} (d : A) l, combine (seq 0 (length l)) l = map (fun q => (q, nth q l d)) (seq 0 (length l)).
Proof.
  intros A d l. assert (X : forall a m, length m = length l -> combine (seq a (length l)) m = map (fun q => (q, nth (q - a) m d)) (seq a (length l))).
  { induction (length l) as [|n IH]; intros a m E; [reflexivity|]. destruct m as [|x m]; [discriminate|]. cbn [seq combine map]. rewrite Nat.sub_diag. cbn [nth]. f_equal.
    rewrite (IH (S a) m) by (cbn in E; lia). apply map_ext_in. intros q Hq. apply in_seq in Hq. replace (q - a)%nat with (S (q - S a)) by lia. reflexivity. }
  rewrite X by auto. apply map_ext. intros q. rewrite Nat.sub_0_r. reflexivity.
Qed.
Lemma fold_max_perm : forall {A} (f : A -> nat) l m, Permutation l m -> forall a, fold_left (fun x t => Nat.max x (f t)) l a = fold_left (fun x t => Nat.max x (f t)) m a.
Proof.
  intros A f l m P. induction P; intros a; cbn; auto.
  - f_equal. lia.
  - rewrite IHP1. auto.
Qed.
Lemma flat_perm : forall {A B} (f g : A -> list B) l, (forall x, Permutation (f x) (g x)) -> Permutation (flat_map f l) (flat_map g l).
Proof. intros A B f g l H. induction l; cbn; auto. apply Permutation_app; auto. Qed.

Lemma concat_repeat_in : forall {A} (x : A) l m, (m <> 0)%nat -> (In x (concat (repeat l m)) <-> In x l).
Proof.
  intros A x l m Hm. rewrite in_concat. split.
  - intros (l'&H1&H2). apply repeat_spec in H1. subst. auto.
  - intros H. exists l. split; auto. destruct m; [congruence|]. left; auto.
Qed.
Lemma count_mats : forall kd (o : smooth_opts R) ts0 K sel G E Ti Y W, mats kd ts0 K sel G E Ti -> Forall (@wf_tree R) ts0 -> ts0 <> [] -> n_gamma kd <> 0%nat ->
  count_trees (p_tidx (flatten kd o G E Ti Y W)) = Ok (if o_all_trees o then 1%nat else length ts0) /\
  forall i, In i (p_tidx (flatten kd o G E Ti Y W)) -> (i < if o_all_trees o then 1 else length ts0)%nat.
Proof.
  intros kd o ts0 K sel G E Ti Y W M W0 N0 NG. destruct (ncols_mats _ _ _ _ _ _ _ W0 N0 M) as (_&_&EN).
  pose proof M as M'. destruct M' as (_&LE&LT&_&V). cbn [flatten p_tidx].
  assert (TN : Ti <> []) by (destruct Ti; [destruct E; [congruence|discriminate]|discriminate]).
  destruct (o_all_trees o).
  - assert (Z : forall i, In i (concat (repeat (map (fun _ => 0%nat) Ti) (n_gamma kd))) -> i = 0%nat).
    { intros i Hi. apply concat_repeat_in in Hi; auto. apply in_map_iff in Hi. destruct Hi as (x&<-&_). reflexivity. }
    split; [|intros i Hi; rewrite (Z i Hi); lia]. apply count_zero; auto.
    destruct (n_gamma kd); [congruence|]. destruct Ti; [congruence|]. discriminate.
  - assert (Z : forall i, In i (concat (repeat Ti (n_gamma kd))) <-> (i < length ts0)%nat).
    { intros i. rewrite concat_repeat_in by auto. split.
      - intros Hi. apply (In_nth _ _ 0%nat) in Hi. destruct Hi as (r&Hr&<-). rewrite LT in Hr.
        destruct (mats_rows _ _ _ _ _ _ _ M r Hr) as (q&t&j&NQ&Hj&->). destruct (V q t NQ j Hj) as (_&->&_). apply nth_error_Some. congruence.
      - intros Hi. destruct (nth_error ts0 i) as [t|] eqn:NQ; [|apply nth_error_None in NQ; lia].
        assert (LP : (0 < n_leaves t)%nat) by (apply n_leaves_pos; eapply Forall_forall in W0; [exact W0|eapply nth_error_In; eauto]).
        destruct (V i t NQ 0%nat LP) as (H1&H2&_). rewrite <- H2. apply nth_In. lia. }
    split; [|intros i; apply Z].
    set (l := concat (repeat Ti (n_gamma kd))) in *. assert (LN : l <> []).
    { unfold l. destruct (n_gamma kd); [congruence|]. destruct Ti; [congruence|]. discriminate. }
    unfold count_trees. destruct l as [|a l'] eqn:EL; [congruence|]. rewrite <- EL in *. f_equal.
    pose proof (list_maxn_in l LN) as IM. apply Z in IM.
    assert (In (length ts0 - 1)%nat l) as HM. { apply Z. destruct ts0; [congruence|cbn; lia]. }
    apply list_maxn_ge in HM. lia.
Qed.
Lemma leaves_eq : forall kd (t a b : tree R), wf_tree t -> same_but_leaf_values t a -> same_but_leaf_values t b ->
  (forall i, (i < n_leaves t)%nat -> length (nth (leaf_id t i) (t_value a) []) = n_gamma kd /\ length (nth (leaf_id t i) (t_value b) []) = n_gamma kd /\
    forall c, (c < n_gamma kd)%nat -> node_v a c (leaf_id t i) = node_v b c (leaf_id t i)) -> a = b.
Proof.
  intros kd t a b W0 (A1&A2&A3&A4&A5&A6&A7&A8) (B1&B2&B3&B4&B5&B6&B7&B8) H. 
  assert (E : t_value a = t_value b).
  { apply (nth_ext _ _ [] []); [congruence|]. intros v Hv. rewrite A7, (wf_len_value t W0) in Hv. destruct (is_leafb t v) eqn:LF; [|rewrite A8, B8; auto].
    assert (HI : In v (leaf_ids t)) by (apply leaf_ids_spec; auto). apply (In_nth _ _ 0%nat) in HI. destruct HI as (i&Hi&EI).
    destruct (H i Hi) as (H1&H2&H3). unfold leaf_id in H1, H2, H3. rewrite EI in H1, H2, H3. apply (nth_ext _ _ 0 0); [congruence|].
    intros c Hc. apply (H3 c). lia. }
  destruct a, b; cbn in *. congruence.
Qed.

Section Order.
Variables (lg : R -> R) (kd : kind) (o : smooth_opts R) (pa : bool) (pi : nat -> nat) (ts ts' : list (tree R)) (rd rd' : randomness).
Hypothesis WF : Forall wf_tree ts.
Hypothesis NE : ts <> [].
Hypothesis DD : o_dist o = DDepth pa.
Hypothesis RO : reordered pi ts ts' rd rd'.
Let n := length ts.
Let d0 : tree R := mkTree [] [] [] [] [] [] [].
Let its := combine (seq 0 (length ts)) ts.
Let its' := combine (seq 0 (length ts')) ts'.

Lemma its_eq : its = map (fun q => (q, nth q ts d0)) (seq 0 n).
Proof using. apply combine_seq_map. Qed.
Lemma its'_eq : its' = map (fun q => (q, nth (pi q) ts d0)) (seq 0 n).
Proof using RO.
  unfold its'. rewrite (combine_seq_map d0). destruct RO as (L&_&H&_). rewrite L. apply map_ext_in. intros q Hq. apply in_seq in Hq. f_equal.
  destruct (H q) as (E&_); [lia|].
  assert (Hb : (pi q < length ts)%nat). { apply perm_bound with (n := length ts); [apply RO|lia]. }
  rewrite (nth_error_nth' ts d0 Hb) in E. apply nth_error_nth with (d := d0) in E. exact E.
Qed.
Lemma ts'_perm : Permutation ts' ts.
Proof using RO.
  assert (A : ts' = map snd its'). { unfold its'. clear. generalize 0%nat as a. induction ts' as [|t l IH]; intros a; [reflexivity|]. cbn. f_equal. apply IH. }
  assert (B : ts = map snd its). { unfold its. clear. generalize 0%nat as a. induction ts as [|t l IH]; intros a; [reflexivity|]. cbn. f_equal. apply IH. }
  rewrite A, B, its_eq, its'_eq, !map_map. cbn [snd]. rewrite <- (map_map pi (fun q => nth q ts d0)). apply Permutation_map, RO.
Qed.
Lemma wf' : Forall wf_tree ts'.
Proof using RO WF. eapply Permutation_Forall; [apply Permutation_sym, ts'_perm|exact WF]. Qed.
Lemma depth_same : calc_depth_for_forest ts' = (map depth_per_node ts', snd (calc_depth_for_forest ts)).
Proof using RO. unfold calc_depth_for_forest. f_equal. cbn [snd]. apply fold_max_perm with (f := fun t => list_maxn (depth_per_node t)), ts'_perm. Qed.

Lemma tg_same : forall q t, (q < n)%nat -> tg kd o rd' (q, t) = tg kd o rd (pi q, t).
Proof using RO. intros q t Hq. unfold tg, tuning_data. cbn [fst snd]. destruct RO as (_&_&H&_). destruct (H q Hq) as (_&->&->). reflexivity. Qed.

Definition sig (q : nat) : nat := if o_all_trees o then q else pi q.
Lemma blk_same : forall K s c q t, (q < n)%nat -> map (ren sig) (blk kd o rd' pa s K c (q, t)) = blk kd o rd pa s K c (pi q, t).
Proof using RO.
  intros K s c q t Hq. unfold blk. rewrite zip5_ren. unfold tf. rewrite tg_same by auto. cbn [fst snd]. f_equal.
  unfold sig, tix. generalize (length (snd (gef kd pa s t))) as m. induction m as [|m IH]; [reflexivity|]. cbn [repeat map]. rewrite IH.
  destruct (o_all_trees o); reflexivity.
Qed.
Definition allrows (r : randomness) (K : nat) (l : list (nat * tree R)) : list prow :=
  flat_map (fun c => flat_map (blk kd o r pa (o_style o) K c) l) (seq 0 (n_gamma kd)).
Lemma rows_perm : forall K, Permutation (allrows rd K its) (map (ren sig) (allrows rd' K its')).
Proof using RO.
  intros K. unfold allrows. rewrite map_flat. apply flat_perm. intros c. rewrite map_flat, its_eq, its'_eq, !flat_map_concat_map, !map_map, <- !flat_map_concat_map.
  rewrite (flat_ext (fun x => map (ren sig) (blk kd o rd' pa (o_style o) K c (x, nth (pi x) ts d0))) (fun q => blk kd o rd pa (o_style o) K c (pi q, nth (pi q) ts d0))).
  2:{ intros q Hq. apply in_seq in Hq. apply blk_same. lia. }
  transitivity (flat_map (fun q => blk kd o rd pa (o_style o) K c (q, nth q ts d0)) (map pi (seq 0 n))).
  - apply Permutation_flat_map, Permutation_sym, RO.
  - rewrite !flat_map_concat_map, map_map. apply Permutation_refl.
Qed.

Lemma order_opt : forall K G E Ti G' E' Ti' Y W Y' W' sel sel' l r, (0 < n_gamma kd)%nat -> mats kd ts K sel G E Ti -> mats kd ts' K sel' G' E' Ti' ->
  flatten kd o G E Ti Y W = of_rows (allrows rd K its) -> flatten kd o G' E' Ti' Y' W' = of_rows (allrows rd' K its') ->
  optimise lg kd o rd (flatten kd o G E Ti Y W) l = Ok r -> optimise lg kd o rd' (flatten kd o G' E' Ti' Y' W') l = Ok r.
Proof using WF NE RO.
  intros K G E Ti G' E' Ti' Y W Y' W' sel sel' l r NG M M' F F' H.
  destruct (ncols_mats _ _ _ _ _ _ _ WF NE M) as (_&NC&_).
  assert (NE' : ts' <> []). { intros X. destruct RO as (L&_). rewrite X in L. destruct ts; [congruence|discriminate]. }
  destruct (ncols_mats _ _ _ _ _ _ _ wf' NE' M') as (_&NC'&_). specialize (NC ltac:(lia)). specialize (NC' ltac:(lia)).
  destruct (count_mats kd o ts K sel G E Ti Y W M WF NE ltac:(lia)) as (CA&_).
  destruct (count_mats kd o ts' K sel' G' E' Ti' Y' W' M' wf' NE' ltac:(lia)) as (CB&BB).
  assert (LL : length ts' = length ts) by apply RO. rewrite LL in CB, BB.
  set (nt := if o_all_trees o then 1%nat else length ts) in *.
  assert (XL : forall L proj, row_sym L -> ren_free L ->
    sgd_run L proj (negb (o_no_constraint o)) (o_t_fix o) (o_adam o) (flatten kd o G' E' Ti' Y' W') l (r_draws rd') =
    sgd_run L proj (negb (o_no_constraint o)) (o_t_fix o) (o_adam o) (flatten kd o G E Ti Y W) l (r_draws rd)).
  { intros L proj LS LR. rewrite F, F' in *. apply run_same with (s := sig) (nt := nt); auto.
    - apply rows_perm.
    - unfold sig, nt. destruct (o_all_trees o); [lia|]. apply perm_inj, RO.
    - intros x Hx. apply BB. cbn [of_rows p_tidx]. apply in_map; auto.
    - destruct RO as (_&_&_&D). unfold sig, nt. destruct (o_all_trees o); [|exact D].
      clear -D. induction D; constructor; auto. }
  unfold optimise in *. destruct (o_sanity o); [exact H|].
  assert (GA : forall G E Ti Y W, p_Gamma (flatten kd o G E Ti Y W) = concat G) by reflexivity.
  assert (X2 : stocastic_grad_descent (flatten kd o G' E' Ti' Y' W') l (o_t_fix o) (negb (o_no_constraint o)) (o_adam o) (r_draws rd') =
    stocastic_grad_descent (flatten kd o G E Ti Y W) l (o_t_fix o) (negb (o_no_constraint o)) (o_adam o) (r_draws rd)).
  { unfold stocastic_grad_descent. rewrite !GA, NC, NC'. rewrite (XL _ _ l2_sym l2_ren). reflexivity. }
  assert (XC : stocastic_grad_descent_ce lg (flatten kd o G' E' Ti' Y' W') l (o_t_fix o) (negb (o_no_constraint o)) (o_class_eps o) (o_adam o) (r_draws rd') =
    stocastic_grad_descent_ce lg (flatten kd o G E Ti Y W) l (o_t_fix o) (negb (o_no_constraint o)) (o_class_eps o) (o_adam o) (r_draws rd)).
  { unfold stocastic_grad_descent_ce. rewrite !GA, NC, NC'. rewrite (XL _ _ (ce_sym lg) (ce_ren lg)). reflexivity. }
  rewrite X2, XC. exact H.
Qed.

Lemma p_C90 : forall out, smooth lg (Forest kd ts) o rd = Ok out ->
  exists out', smooth lg (Forest kd ts') o rd' = Ok out' /\ s_lamb out' = s_lamb out /\ s_lamb_last out' = s_lamb_last out /\ s_lamb2 out' = s_lamb2 out /\
    s_costs out' = s_costs out /\ length (s_forest out') = length ts /\
    forall q, (q < length ts)%nat -> nth_error (s_forest out') q = nth_error (s_forest out) (pi q).
Proof using WF NE DD RO.
  intros out H.
  assert (NE' : ts' <> []). { intros X. destruct RO as (L&_). rewrite X in L. destruct ts; [congruence|discriminate]. }
  assert (LL : length ts' = length ts) by apply RO.
  set (K := (snd (calc_depth_for_forest ts) + 1)%nat).
  destruct (depth_mats kd pa (o_style o) ts WF) as (G&E&Ti&FM&M). fold K in M.
  destruct (depth_mats kd pa (o_style o) ts' wf') as (G'&E'&Ti'&FM'&M'). rewrite depth_same in M'. cbn [snd] in M'. fold K in M'.
  assert (FO : forest_matrices kd o ts = Ok (G, E, Ti)) by (unfold forest_matrices; rewrite DD; exact FM).
  assert (FO' : forest_matrices kd o ts' = Ok (G', E', Ti')) by (unfold forest_matrices; rewrite DD; exact FM').
  destruct (smooth_inv _ _ _ _ _ _ _ _ _ _ _ H WF NE FO M) as (CC&(Y&W&AT&OP)&L2&_&_&_&_&VF&_).
  assert (WI : Forall (fun it => wf_tree (snd it)) its).
  { apply Forall_forall. intros [q t] Hi. apply in_combine_r in Hi. eapply Forall_forall in WF; eauto. }
  assert (WI' : Forall (fun it => wf_tree (snd it)) its').
  { apply Forall_forall. intros [q t] Hi. apply in_combine_r in Hi. pose proof wf' as X. rewrite Forall_forall in X. auto. }
  pose proof AT as AT0. unfold all_targets in AT0. fold its in AT0. destruct (targets_blocks _ _ _ _ _ _ _ AT0) as (TO&_).
  assert (TO' : Forall (fun it => tg kd o rd' it = Ok (tf kd o rd' it)) its').
  { rewrite its'_eq. apply Forall_forall. intros it Hi. apply in_map_iff in Hi. destruct Hi as (q&<-&Hq). apply in_seq in Hq. unfold tf. rewrite tg_same by lia.
    rewrite its_eq in TO. rewrite Forall_forall in TO. rewrite (TO (pi q, nth (pi q) ts d0)); [reflexivity|].
    apply in_map_iff; exists (pi q); split; [reflexivity|]; apply in_seq; split; [lia|]; apply perm_bound; [apply RO|lia]. }
  pose proof (blocks_targets kd o rd' its' [] [] TO') as AT1. 
  assert (AT' : exists Y' W', all_targets kd o rd' ts' = Ok (Y', W')) by (unfold all_targets; fold its'; eauto). clear AT1.
  destruct AT' as (Y'&W'&AT').
  assert (FB : flatten kd o G E Ti Y W = of_rows (allrows rd K its)) by (eapply flatten_blocks; eauto).
  assert (FB' : flatten kd o G' E' Ti' Y' W' = of_rows (allrows rd' K its')).
  { eapply flatten_blocks; eauto. unfold create_Gamma_eta_forest, stack_forest in FM'. rewrite depth_same in FM'. exact FM'. }
  assert (OP' : optimise lg kd o rd' (flatten kd o G' E' Ti' Y' W') (initial_lamb kd o K) = Ok (s_lamb out, s_lamb_last out, s_costs out)).
  { destruct (Nat.eq_dec (n_gamma kd) 0) as [Z|Z].
    - assert (ZF : flatten kd o G E Ti Y W = of_rows [] /\ flatten kd o G' E' Ti' Y' W' = of_rows []). { rewrite FB, FB'. unfold allrows. rewrite Z. auto. }
      destruct ZF as (Z1&Z2). rewrite Z2. rewrite Z1 in OP. unfold optimise in *. destruct (o_sanity o); [exact OP|]. exfalso.
      assert (Q : forall L proj cn tt ad l dr, sgd_run L proj cn tt ad (of_rows []) l dr = Ok (s_lamb out, s_lamb_last out, s_costs out) -> False).
      { intros. unfold sgd_run in H0. destruct (l_cost _ _ _); cbn in H0; discriminate. }
      unfold stocastic_grad_descent, stocastic_grad_descent_ce in OP. 
      destruct kd; [|destruct (o_class_loss o)]; repeat match type of OP with (if ?b then _ else _) = _ => destruct b; [discriminate|] end; eapply Q; eauto.
    - eapply order_opt with (G := G) (E := E); eauto. lia. }
  assert (RUN : exists out', smooth lg (Forest kd ts') o rd' = Ok out').
  { pose proof H as H0. unfold smooth in H0 |- *. destruct ((oob_logic o || o_resample o) && _)%bool; [discriminate|].
    destruct (match kd with Reg => false | Class _ => o_no_constraint o end); [discriminate|]. clear H0.
    rewrite FO'. cbn [bind]. rewrite AT'. cbn [bind]. destruct (ncols_mats _ _ _ _ _ _ _ wf' NE' M') as (->&_). rewrite OP'. cbn [bind].
    pose proof M' as (_&LE&_&_&V).
    match goal with |- context [write_forest ?Y1 0 ts'] => destruct (write_forest_ok Y1 ts' 0 wf') as (f1&->&_); [rewrite unflatten_length; lia|] end. cbn [bind].
    match goal with |- context [write_forest2 ?Y1 0 ts'] => destruct (write_forest2_ok Y1 ts' wf') as (f2&->&_) end.
    { intros t Ht. rewrite unflatten_length. destruct (In_nth_error _ _ Ht) as (q&Nq). pose proof (offset_le ts' q t Nq). lia. }
    cbn [bind]. eauto. }
  destruct RUN as (out'&RUN). exists out'. split; auto.
  destruct (smooth_inv _ _ _ _ _ _ _ _ _ _ _ RUN wf' NE' FO' M') as (_&(Y1&W1&A1&O1)&L2'&_&_&LF'&_&VF'&_).
  rewrite AT' in A1. inversion A1; subst Y1 W1. rewrite OP' in O1. inversion O1 as [[S1 S2 S3]]. 
  split; [auto|]. split; [auto|]. split; [congruence|]. split; [auto|]. split; [congruence|].
  intros q Hq. destruct RO as (_&PI&RR&_). destruct (RR q Hq) as (NQ&_). pose proof (perm_bound pi _ PI q Hq) as PB.
  pose proof (nth_error_nth' ts d0 PB) as NT. set (t := nth (pi q) ts d0) in *. rewrite NT in NQ.
  destruct (VF _ _ NT) as (a&Na&SA&VA). destruct (VF' _ _ NQ) as (b&Nb&SB&VB). rewrite Na, Nb. f_equal.
  apply (leaves_eq kd t); auto. { rewrite Forall_forall in WF. apply WF. eapply nth_error_In; eauto. }
  intros i Hi. destruct (VA i Hi) as (LA&KA). destruct (VB i Hi) as (LB&KB). split; auto. split; auto. intros c Hc. rewrite KA, KB by auto. rewrite S1.
  unfold kap_sel. rewrite NT, NQ. reflexivity.
Qed.
End Order.
