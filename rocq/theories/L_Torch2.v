(** L_Torch2: the forward pass and the losses. *)
From Verif Require Import Base TreeSpec Spec SpecTorch M_Gamma M_Torch M_Pytorch L_Base L_Gamma L_Gamma2 L_Smooth L_Smooth4 L_Torch.
From Coq Require Import Reals Lra Lia.
Local Open Scope R_scope.

Lemma rect_ncols : forall c M, rect c M -> M <> [] -> ncols M = c.
Proof. intros c [|r M] H N; [congruence|]. apply H. left; auto. Qed.

Lemma F2_length : forall {A B} (P : A -> B -> Prop) a b, Forall2 P a b -> length a = length b.
Proof. intros A B P a b H. induction H; cbn; congruence. Qed.

Lemma bcast_same : forall e s, bcast e s s = Ok s.
Proof.
  intros e s. unfold bcast. assert (X0 : forall l, bcast_rev e l l = Ok l).
  { induction l; [reflexivity|]. cbn [bcast_rev]. rewrite IHl. cbn [bind]. rewrite Nat.eqb_refl. reflexivity. }
  rewrite X0. cbn [bind]. rewrite rev_involutive. reflexivity.
Qed.

Lemma bidx_same : forall s idx, Forall2 lt idx s -> bidx s idx = idx.
Proof.
  intros s idx H. unfold bidx. rewrite (F2_length _ _ _ H), Nat.sub_diag. cbn [skipn].
  induction H as [|i n idx s Hi H IH]; [reflexivity|]. cbn [map2]. rewrite IH.
  destruct (Nat.eqb n 1) eqn:En; [|reflexivity]. apply Nat.eqb_eq in En. replace i with 0%nat by lia. reflexivity.
Qed.

Lemma bop_same : forall e (f : R -> R -> R) x z, sh x = sh z -> exists r, bop e f x z = Ok r /\ sh r = sh x /\
  (forall idx, Forall2 lt idx (sh x) -> get r idx = f (get x idx) (get z idx)) /\
  dat r = map (fun idx => f (get x idx) (get z idx)) (all_idx (sh x)).
Proof.
  intros e f x z H. unfold bop. rewrite <- H, bcast_same. cbn [bind]. eexists. split; [reflexivity|]. split; [reflexivity|].
  split.
  - intros idx Hi. rewrite get_build by auto. rewrite bidx_same by auto. reflexivity.
  - cbn [dat build]. apply map_ext_in. intros idx Hi.
    assert (Forall2 lt idx (sh x)).
    { clear - Hi. revert idx Hi. induction (sh x) as [|n s IH]; intros idx Hi.
      - destruct Hi as [<-|[]]. constructor.
      - cbn [all_idx] in Hi. apply in_concat in Hi. destruct Hi as (b&Hb&Hi). apply in_map_iff in Hb. destruct Hb as (j&<-&Hj).
        apply in_map_iff in Hi. destruct Hi as (q&<-&Hq). apply in_seq in Hj. constructor; [lia|auto]. }
    rewrite bidx_same by auto. reflexivity.
Qed.

Section Fwd.
Variables (K V : nat) (par : list (list R * R)) (y w : list R) (G E X : mat R) (N C : nat).
Hypothesis HK : (0 < K)%nat.
Hypothesis HN : (0 < N)%nat.
Hypothesis HG : length G = N.
Hypothesis HE : length E = N.
Hypothesis HX : length X = N.
Hypothesis RG : rect K G.
Hypothesis RE : rect K E.
Hypothesis RX : rect C X.
Hypothesis HC : (K * V <= C)%nat.
Hypothesis HP : forall l, (l < K)%nat -> length (fst (nth l par ([], 0))) = V.

Definition xit : item := {| it_y := batch_vec y; it_Gamma := batch_mat G; it_eta := batch_mat E; it_w := batch_vec w; it_x := batch_mat X |}.
Definition xm : softmax_model := {| m_vars := V; m_dim := K; m_lin := par |}.
Definition lam (i : nat) : nat -> R := soft K (score K V par (nth i X [])).
Definition prd (i : nat) : R := ratio K (nth i G []) (nth i E []) (lam i).

Lemma nonempty : forall M : mat R, length M = N -> M <> [].
Proof. intros M H ->. cbn in H. lia. Qed.

Lemma lin_ok : forall l, (l < K)%nat -> exists x,
  bind (index_last (batch_mat X) (map (fun v => (l + K * v)%nat) (seq 0 V)))
    (fun xi => M_Torch.linear (fst (nth l par ([], 0))) (snd (nth l par ([], 0))) xi) = Ok x /\ sh x = [1%nat; N; 1%nat] /\
  forall i, (i < N)%nat -> get x [0%nat; i; 0%nat] = score K V par (nth i X []) l.
Proof.
  intros l Hl. unfold index_last. cbn [sh batch_mat last].
  rewrite (rect_ncols C X RX (nonempty X HX)).
  assert (F : forallb (fun j => Nat.ltb j C) (map (fun v => (l + K * v)%nat) (seq 0 V)) = true).
  { apply forallb_forall. intros j Hj. apply in_map_iff in Hj. destruct Hj as (v&<-&Hv). apply in_seq in Hv.
    apply Nat.ltb_lt. nia. }
  rewrite F. cbn [bind]. unfold M_Torch.linear. cbn [sh build removelast app last]. rewrite map_length, seq_length, HX, HP, Nat.eqb_refl by auto.
  eexists. split; [reflexivity|]. split; [reflexivity|]. intros i Hi.
  rewrite get_build by idx. cbn [removelast app]. rewrite nsum_map_seq. unfold score. apply (f_equal2 Rplus); [|reflexivity].
  apply sumto_ext. intros v Hv. rewrite get_build by idx. cbn [removelast app last].
  rewrite nth_map_seq by auto. cbn [Nat.add]. rewrite get_mat.
  - apply (f_equal2 Rmult); [f_equal; lia|reflexivity].
  - lia.
  - rewrite (rect_ncols C X RX (nonempty X HX)). nia.
  - rewrite (rect_ncols C X RX (nonempty X HX)). exact RX.
Qed.

Lemma mat_resize : forall M, length M = N -> rect K M -> exists x, resize [1%nat; N; K; 1%nat] (batch_mat M) = Ok x /\
  sh x = [1%nat; N; K; 1%nat] /\ forall i k, (i < N)%nat -> (k < K)%nat -> get x [0%nat; i; k; 0%nat] = nth k (nth i M []) 0.
Proof.
  intros M HL HR. unfold resize. cbn [sh batch_mat]. rewrite HL, (rect_ncols K M HR (nonempty M HL)).
  replace (Nat.eqb _ _) with true by (symmetry; apply Nat.eqb_eq; cbn [numel fold_right]; lia).
  eexists. split; [reflexivity|]. split; [reflexivity|]. intros i k Hi Hk.
  rewrite <- get_mat; [|lia|rewrite (rect_ncols K M HR (nonempty M HL)); auto|rewrite (rect_ncols K M HR (nonempty M HL)); auto].
  unfold get. cbn [sh dat batch_mat ravel numel fold_right]. rewrite (rect_ncols K M HR (nonempty M HL)).
  f_equal.
Qed.

Lemma forward_ok : exists yh la, forward exp xm xit = Ok (yh, batch_vec w, la) /\
  sh yh = [1%nat; N; 1%nat] /\ dat yh = map prd (seq 0 N) /\ sh la = [1%nat; N; K; 1%nat] /\
  forall i k, (i < N)%nat -> (k < K)%nat -> get la [0%nat; i; k; 0%nat] = lam i k.
Proof.
  unfold forward. cbn [it_x it_Gamma it_eta it_w xit m_dim m_vars m_lin xm].
  match goal with |- context [mapM ?g (seq 0 K)] => set (F := g) end.
  destruct (mapM_total F (seq 0 K)) as (xl&Exl&Lxl).
  { intros l Hl. apply in_seq in Hl. destruct (lin_ok l ltac:(lia)) as (x&Ex&_). exists x. exact Ex. }
  rewrite seq_length in Lxl. rewrite Exl. cbn [bind].
  set (dt := mkTensor [] (@nil R)).
  assert (HX2 : forall l, (l < K)%nat -> sh (nth l xl dt) = [1%nat; N; 1%nat] /\
    forall i, (i < N)%nat -> get (nth l xl dt) [0%nat; i; 0%nat] = score K V par (nth i X []) l).
  { intros l Hl. pose proof (mapM_nth _ _ _ Exl l 0%nat dt) as M. rewrite seq_length, seq_nth in M by lia. specialize (M Hl).
    destruct (lin_ok l Hl) as (x&Ex&S1&S2). assert (EQ : Ok x = Ok (nth l xl dt)) by (rewrite <- M; symmetry; exact Ex).
    assert (x = nth l xl dt) by congruence. subst x. auto. }
  unfold stack. destruct xl as [|x0 xt] eqn:EL; [cbn in Lxl; lia|]. rewrite <- EL in *.
  assert (S0 : sh x0 = [1%nat; N; 1%nat]) by (destruct (HX2 0%nat HK) as (A&_); rewrite EL in A; exact A).
  assert (FB : forallb (fun y => if list_eq_dec Nat.eq_dec (sh y) (sh x0) then true else false) xl = true).
  { apply forallb_forall. intros x Hx. apply (In_nth _ _ dt) in Hx. destruct Hx as (l&Hl&<-).
    destruct (HX2 l ltac:(lia)) as (A&_). rewrite A, S0. destruct (list_eq_dec _ _ _); congruence. }
  rewrite FB. cbn [bind]. rewrite S0, Lxl. cbn [insert_at firstn skipn app].
  match goal with |- context [build [1%nat; N; K; 1%nat] ?g] => set (g1 := g) end.
  assert (GL : forall i k, (i < N)%nat -> (k < K)%nat -> get (build [1%nat; N; K; 1%nat] g1) [0%nat; i; k; 0%nat] = score K V par (nth i X []) k).
  { intros i k Hi Hk. rewrite get_build by idx. subst g1. cbn [nth remove_at firstn skipn app].
    rewrite (nth_indep xl x0 dt) by lia. apply HX2; auto. }
  set (la := softmax exp 2 (build [1%nat; N; K; 1%nat] g1)).
  assert (SL : sh la = [1%nat; N; K; 1%nat]) by reflexivity.
  assert (LA : forall i k, (i < N)%nat -> (k < K)%nat -> get la [0%nat; i; k; 0%nat] = lam i k).
  { intros i k Hi Hk. unfold la, softmax. rewrite get_build by (cbn [sh build]; idx).
    cbn [sh build nth remove_at insert_at firstn skipn app]. rewrite nsum_map_seq. rewrite GL by auto. unfold lam, soft. apply (f_equal2 Rdiv); [reflexivity|].
    apply sumto_ext. intros l Hl. rewrite GL by auto. reflexivity. }
  rewrite SL. destruct (mat_resize G HG RG) as (xG&->&SG&GG). cbn [bind].
  destruct (bop_same RuntimeError nmul xG la (eq_trans SG (eq_sym SL))) as (gf&->&Sgf&Ggf&_). cbn [bind].
  destruct (mat_resize E HE RE) as (xE&->&SE&GE). cbn [bind].
  destruct (bop_same RuntimeError nmul xE la (eq_trans SE (eq_sym SL))) as (ef&->&Sef&Gef&_). cbn [bind].
  assert (SD : forall x M, sh x = [1%nat; N; K; 1%nat] -> (forall i k, (i < N)%nat -> (k < K)%nat -> get x [0%nat; i; k; 0%nat] = nth k (nth i M []) 0 * lam i k) ->
     sh (sum_dim 2 x) = [1%nat; N; 1%nat] /\ forall i, (i < N)%nat -> get (sum_dim 2 x) [0%nat; i; 0%nat] = sumto K (fun k => nth k (nth i M []) 0 * lam i k)).
  { intros x M Sx Gx. unfold sum_dim. rewrite Sx. cbn [remove_at firstn skipn app nth]. split; [reflexivity|]. intros i Hi.
    rewrite get_build by idx. cbn [insert_at firstn skipn app]. rewrite nsum_map_seq. apply sumto_ext. intros k Hk. apply Gx; auto. }
  destruct (SD gf G) as (SG2&GG2); [congruence| |].
  { intros i k Hi Hk. rewrite Ggf by (rewrite SG; idx). rewrite GG, LA by auto. reflexivity. }
  destruct (SD ef E) as (SE2&GE2); [congruence| |].
  { intros i k Hi Hk. rewrite Gef by (rewrite SE; idx). rewrite GE, LA by auto. reflexivity. }
  destruct (bop_same RuntimeError ndiv (sum_dim 2 gf) (sum_dim 2 ef) (eq_trans SG2 (eq_sym SE2))) as (yh&->&Syh&Gyh&Dyh). cbn [bind].
  exists yh, la. split; [reflexivity|]. split; [congruence|]. split; [|split; auto].
  rewrite Dyh, SG2, all_idx_1, all_idx_col, !map_map. apply map_ext_in. intros i Hi. apply in_seq in Hi.
  rewrite GG2, GE2 by lia. reflexivity.
Qed.
End Fwd.
