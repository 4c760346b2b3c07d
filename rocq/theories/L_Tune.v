(** L_Tune: leaf targets and weights; leaf-level against observation-level loss. *)
From Verif Require Import Base TreeSpec Spec M_Tree M_Gamma M_Levels M_Prox M_Grad M_Sgd M_Smooth SpecSmooth SpecTune.
From Verif Require Import L_Base L_Tree L_TreeModel L_Dist L_Gamma L_Gamma2 L_PropsTree L_Sgd L_Grad L_Sgd2 L_Levels L_Smooth L_Smooth2 L_Smooth3 L_Smooth4 L_Route.
From Coq Require Import Reals Lra Lia.
Local Open Scope R_scope.

(** *** routing *)
(** a finite choice: the leaf numbers can be collected into one function *)
Lemma finite_choice : forall (P : nat -> nat -> Prop) n, (forall o, (o < n)%nat -> exists i, P o i) ->
  exists f, forall o, (o < n)%nat -> P o (f o).
Proof.
  induction n as [|n IH]; intros H; [exists (fun _ => 0%nat); intros; lia|].
  destruct IH as (f&Hf); [intros; apply H; lia|]. destruct (H n ltac:(lia)) as (i&Hi).
  exists (fun o => if Nat.eqb o n then i else f o). intros o Ho. destruct (Nat.eqb_spec o n); [subst; auto|apply Hf; lia].
Qed.
Lemma routed_ex : forall (t : tree R) X, wf_tree t -> exists lf, routed t X lf.
Proof.
  intros t X WF. destruct (finite_choice (fun o i => leaf_of t (nth o X []) i /\ forall j, leaf_of t (nth o X []) j -> j = i) (length X)) as (f&Hf).
  - intros o Ho. destruct (one_leaf t WF (nth o X [])) as (i&Hi&R&U). exists i. split; [split; auto|]. intros j [Hj Rj]. auto.
  - exists f. exact Hf.
Qed.

Lemma path_row_length : forall (t : tree R) x, length (path_row t x) = size t.
Proof. intros. unfold path_row. rewrite map_length, seq_length. auto. Qed.
Lemma path_row_nth : forall (t : tree R) x v, wf_tree t -> (v < size t)%nat ->
  (reaches t x v -> nth v (path_row t x) 0 = 1) /\ (~ reaches t x v -> nth v (path_row t x) 0 = 0).
Proof.
  intros t x v WF Hv. unfold path_row. rewrite nth_map_in with (d := 0%nat) by (rewrite seq_length; auto).
  rewrite seq_nth by auto. cbn [Nat.add]. pose proof (path_reaches t WF x v) as PR. rn.
  destruct (existsb _ _) eqn:E.
  - apply existsb_exists in E. destruct E as (u&Hu&Eu). apply Nat.eqb_eq in Eu. subst u. split; auto. intros N. tauto.
  - split; auto. intros HR. apply PR in HR. rewrite (proj2 (existsb_exists _ _)) in E; [discriminate|].
    exists v. rewrite Nat.eqb_refl. auto.
Qed.
Lemma obs_row_nth : forall (t : tree R) X lf o i, wf_tree t -> routed t X lf -> (o < length X)%nat -> (i < n_leaves t)%nat ->
  nth i (leaf_select t (path_row t (nth o X []))) 0 = if Nat.eqb (lf o) i then 1 else 0.
Proof.
  intros t X lf o i WF RT Ho Hi. rewrite leaf_select_nth by (auto; apply path_row_length).
  destruct (RT o Ho) as [[_ R1] U].
  destruct (path_row_nth t (nth o X []) (leaf_id t i) WF (leaf_id_lt t i Hi)) as [A B].
  destruct (Nat.eqb_spec (lf o) i) as [<-|NE]; [apply A; auto|]. apply B. intros HR. apply NE. symmetry. apply U. split; auto.
Qed.

Definition in_leaf (lf : nat -> nat) (i o : nat) : bool := Nat.eqb (lf o) i.

(** *** C27 *)
Lemma targets_spec : forall nc (t : tree R) X Y yl w, wf_tree t -> leaf_targets nc t X Y = Ok (yl, w) ->
  X <> [] /\ length Y = length X /\ (forall r, In r Y -> length r = nc) /\
  forall lf, routed t X lf ->
  length w = n_leaves t /\ length yl = n_leaves t /\
  forall i, (i < n_leaves t)%nat ->
    nth i w 0 = sum_sel (length X) (in_leaf lf i) (fun _ => 1) /\
    length (nth i yl []) = nc /\
    forall c, (c < nc)%nat -> nth c (nth i yl []) 0 =
      sum_sel (length X) (in_leaf lf i) (fun o => resp Y o c) / (if Req_EM_T (nth i w 0) 0 then 1 else nth i w 0).
Proof.
  intros nc t X Y yl w WF H. unfold leaf_targets, obs_V_leaf in H. destruct X as [|x0 X0]; [discriminate|].
  set (X := x0 :: X0) in *. cbn [bind] in H. destruct (Nat.eqb_spec (length Y) (length X)) as [LY|]; [|discriminate].
  cbn [negb] in H. destruct (forallb _ Y) eqn:FB; [|discriminate]. cbn [negb] in H.
  split; [discriminate|]. split; auto. split; [intros r Hr; rewrite forallb_forall in FB; apply Nat.eqb_eq; auto|].
  intros lf RT.
  set (V := map (fun x => leaf_select t (path_row t x)) X) in *.
  set (cols := transpose n0 (num_leaf t) V) in *.
  assert (EY : yl = map2 (fun cl d => map (fun c => ndiv (dot cl (col c Y)) d) (seq 0 nc)) cols (fill1 (map nsum cols))) by congruence.
  assert (EW : w = map nsum cols) by congruence. clear H.
  pose proof (num_leaf_eq t) as NL.
  assert (LC : length cols = n_leaves t) by (unfold cols, transpose; rewrite map_length, seq_length; auto).
  assert (LV : length V = length X) by apply map_length.
  assert (CN : forall i, (i < n_leaves t)%nat -> length (nth i cols []) = length X /\
    forall o, (o < length X)%nat -> nth o (nth i cols []) 0 = if in_leaf lf i o then 1 else 0).
  { intros i Hi. unfold cols, transpose. rewrite nth_map_in with (d := 0%nat) by (rewrite seq_length, NL; auto).
    rewrite seq_nth by (rewrite NL; auto). cbn [Nat.add]. split; [rewrite map_length; auto|].
    intros o Ho. rewrite nth_map_in with (d := []) by (rewrite LV; auto). unfold V. rewrite nth_map_in with (d := []) by auto.
    apply obs_row_nth; auto. }
  split; [rewrite EW, map_length; auto|].
  split; [rewrite EY, map2_length, fill1_length, map_length; lia|].
  intros i Hi. destruct (CN i Hi) as [L1 V1].
  assert (WV : nth i w 0 = sum_sel (length X) (in_leaf lf i) (fun _ => 1)).
  { rewrite EW. rewrite nth_map_in with (d := []) by lia. rewrite nsum_sumto, L1. unfold sum_sel. apply sumto_ext. auto. }
  split; auto. rewrite EY. rewrite nth_map2 with (da := []) (db := 0) by (rewrite ?fill1_length, ?map_length; lia).
  split; [rewrite map_length, seq_length; auto|]. intros c Hc.
  rewrite nth_map_in with (d := 0%nat) by (rewrite seq_length; auto). rewrite seq_nth by auto. cbn [Nat.add].
  rewrite fill1_nth by (rewrite map_length; lia). rewrite <- EW. rn. f_equal.
  rewrite dot_sumto by (rewrite col_length; lia). rewrite L1. unfold sum_sel. apply sumto_ext. intros o Ho.
  rewrite V1 by auto. rewrite col_nth. unfold resp. destruct (in_leaf lf i o); lra.
Qed.

Lemma sum_over_leaves : forall L n (lf : nat -> nat) f, (forall o, (o < n)%nat -> (lf o < L)%nat) ->
  sumto L (fun i => sum_sel n (in_leaf lf i) f) = sumto n f.
Proof.
  intros L n lf f H. unfold sum_sel. rewrite sumto_swap. apply sumto_ext. intros o Ho.
  rewrite (sumto_single _ _ (lf o)); auto.
  - unfold in_leaf. rewrite Nat.eqb_refl. auto.
  - intros i _ NE. unfold in_leaf. destruct (Nat.eqb_spec (lf o) i); [congruence|auto].
Qed.
Lemma sum_sel_count_zero : forall n sel f, sum_sel n sel (fun _ => 1) = 0 -> sum_sel n sel f = 0.
Proof.
  intros n sel f H. destruct (sum_sel_pos_zero n sel (fun _ => 1) f) as [_ B]; [intros; lra|]. auto.
Qed.

Lemma p_C27 : forall nc (t : tree R) X Y yl w, wf_tree t -> leaf_targets nc t X Y = Ok (yl, w) ->
  exists lf, routed t X lf /\ length w = n_leaves t /\ length yl = n_leaves t /\ nsum w = INR (length X) /\
  forall i, (i < n_leaves t)%nat ->
    nth i w 0 = INR (length (filter (in_leaf lf i) (seq 0 (length X)))) /\
    forall c, (c < nc)%nat ->
      nth i w 0 * nth c (nth i yl []) 0 = sum_sel (length X) (in_leaf lf i) (fun o => resp Y o c) /\
      (nth i w 0 = 0 -> nth c (nth i yl []) 0 = 0).
Proof.
  intros nc t X Y yl w WF H. destruct (routed_ex t X WF) as (lf&RT). exists lf. split; auto.
  destruct (targets_spec nc t X Y yl w WF H) as (_&_&_&S0). destruct (S0 lf RT) as (LW&LY&S1). clear S0.
  split; auto. split; auto.
  assert (B : forall o, (o < length X)%nat -> (lf o < n_leaves t)%nat) by (intros o Ho; destruct (RT o Ho) as [[? _] _]; auto).
  split.
  - rewrite nsum_sumto, LW. rewrite (sumto_ext _ _ (fun i => sum_sel (length X) (in_leaf lf i) (fun _ => 1))).
    + rewrite sum_over_leaves by auto. rewrite sumto_const. lra.
    + intros i Hi. apply S1; auto.
  - intros i Hi. destruct (S1 i Hi) as (W1&_&Y1). split.
    + rewrite W1, sum_sel_nsum. generalize (filter (in_leaf lf i) (seq 0 (length X))). intros l.
      induction l as [|a l IH]; [reflexivity|]. cbn [map length]. rewrite nsum_cons, IH, S_INR. lra.
    + intros c Hc. rewrite Y1 by auto. destruct (Req_EM_T (nth i w 0) 0) as [Z|NZ].
      * rewrite Z in W1. rewrite (sum_sel_count_zero _ _ (fun o => resp Y o c)) by auto. rewrite Z. split; intros; lra.
      * split; [field; auto|tauto].
Qed.

(** *** C26 *)
Lemma sumto_app : forall a b f, sumto (a + b) f = sumto a f + sumto b (fun i => f (a + i)%nat).
Proof.
  induction b as [|b IH]; intros f; [rewrite Nat.add_0_r; cbn; lra|]. rewrite Nat.add_succ_r. cbn [sumto]. rewrite IH. lra.
Qed.
Lemma sumto_blocks : forall a n f, sumto (a * n) f = sumto a (fun c => sumto n (fun r => f (c * n + r)%nat)).
Proof.
  induction a as [|a IH]; intros n f; [reflexivity|]. cbn [sumto]. rewrite <- IH. replace (S a * n)%nat with (a * n + n)%nat by lia.
  apply sumto_app.
Qed.
Lemma sumto_shift : forall n f, sumto (S n) f = f 0%nat + sumto n (fun i => f (S i)).
Proof. intros n f. change (S n) with (1 + n)%nat. rewrite (sumto_app 1 n f). cbn [sumto Nat.add]. lra. Qed.
Lemma sumto_offset : forall (ts : list (tree R)) f, sumto (offset ts (length ts)) f =
  sumto (length ts) (fun q => sumto (n_leaves (nth q ts no_tree)) (fun i => f (offset ts q + i)%nat)).
Proof.
  intros ts. induction ts as [|t ts IH]; intros f; [reflexivity|].
  change (offset (t :: ts) (length (t :: ts))) with (n_leaves t + offset ts (length ts))%nat.
  rewrite sumto_app. cbn [length]. rewrite sumto_shift. cbn [nth]. f_equal.
  rewrite IH. apply sumto_ext. intros q Hq. apply sumto_ext. intros i Hi. f_equal.
  change (offset (t :: ts) (S q)) with (n_leaves t + offset ts q)%nat. lia.
Qed.

Lemma targets_blocks_gen : forall kd (o : smooth_opts R) rd ts s acc Y W, Forall (@wf_tree R) ts ->
  length (fst acc) = length (snd acc) ->
  foldM (add_targets kd o rd) (combine (seq s (length ts)) ts) acc = Ok (Y, W) ->
  length Y = (length (fst acc) + offset ts (length ts))%nat /\ length W = length Y /\
  (forall r, (r < length (fst acc))%nat -> nth r Y [] = nth r (fst acc) [] /\ nth r W 0 = nth r (snd acc) 0) /\
  forall q t, nth_error ts q = Some t -> exists X y yl w,
    tuning_data kd o rd (s + q) = Ok (X, y) /\ leaf_targets (n_gamma kd) t X y = Ok (yl, w) /\
    forall i, (i < n_leaves t)%nat -> nth (length (fst acc) + (offset ts q + i)) Y [] = nth i yl [] /\
      nth (length (fst acc) + (offset ts q + i)) W 0 = nth i w 0.
Proof.
  intros kd o rd ts. induction ts as [|t ts IH]; intros s acc Y W WF LA H.
  - cbn [length seq combine foldM] in H. assert (acc = (Y, W)) by congruence. subst acc. cbn [fst snd] in *.
    split; [cbn; lia|]. split; auto. split; auto. intros q t N. destruct q; discriminate.
  - cbn [length seq combine foldM] in H. apply bind_ok in H. destruct H as (acc1&H1&H2).
    unfold add_targets in H1. cbn [fst snd] in H1. apply bind_ok in H1. destruct H1 as ([X y]&HX&H1).
    apply bind_ok in H1. destruct H1 as ([yl w]&HY&H1).
    assert (E1 : acc1 = (fst acc ++ yl, snd acc ++ w)) by congruence. clear H1. subst acc1.
    inversion WF as [|? ? WT WTS]; subst. destruct (p_C27 _ t X y yl w WT HY) as (lf&_&LW&LY&_).
    destruct (IH (S s) (fst acc ++ yl, snd acc ++ w) Y W WTS ltac:(cbn [fst snd]; rewrite !app_length; lia) H2) as (A1&A2&A3&A4).
    clear IH. cbn [fst snd] in *. rewrite app_length, LY in *.
    change (offset (t :: ts) (length (t :: ts))) with (n_leaves t + offset ts (length ts))%nat.
    split; [lia|]. split; auto. split.
    + intros r Hr. destruct (A3 r ltac:(lia)) as [B1 B2]. rewrite B1, B2. rewrite !app_nth1 by lia. auto.
    + intros [|q] t' N; cbn [nth_error] in N.
      * assert (t' = t) by congruence. subst t'. exists X, y, yl, w. rewrite Nat.add_0_r. split; auto. split; auto.
        intros i Hi. change (offset (t :: ts) 0) with 0%nat. cbn [Nat.add].
        destruct (A3 (length (fst acc) + i)%nat ltac:(lia)) as [B1 B2]. rewrite B1, B2.
        rewrite !app_nth2 by lia. rewrite <- LA. replace (length (fst acc) + i - length (fst acc))%nat with i by lia. auto.
      * destruct (A4 q t' N) as (X'&y'&yl'&w'&C1&C2&C3). exists X', y', yl', w'.
        split; [rewrite Nat.add_succ_r; exact C1|]. split; auto. intros i Hi.
        change (offset (t :: ts) (S q)) with (n_leaves t + offset ts q)%nat.
        replace (length (fst acc) + (n_leaves t + offset ts q + i))%nat with (length (fst acc) + n_leaves t + (offset ts q + i))%nat by lia. auto.
Qed.
Lemma targets_blocks : forall kd (o : smooth_opts R) rd ts Y W, Forall (@wf_tree R) ts -> all_targets kd o rd ts = Ok (Y, W) ->
  length Y = offset ts (length ts) /\ length W = length Y /\
  forall q t, nth_error ts q = Some t -> exists X y yl w,
    tuning_data kd o rd q = Ok (X, y) /\ leaf_targets (n_gamma kd) t X y = Ok (yl, w) /\
    forall i, (i < n_leaves t)%nat -> nth (offset ts q + i) Y [] = nth i yl [] /\ nth (offset ts q + i) W 0 = nth i w 0.
Proof.
  intros kd o rd ts Y W WF H. destruct (targets_blocks_gen kd o rd ts 0 ([], []) Y W WF eq_refl H) as (A&B&_&C). auto.
Qed.

(** the parallel-axis identity *)
Lemma parallel_axis : forall n sel (f : nat -> R) w m mu,
  w = sum_sel n sel (fun _ => 1) -> w * mu = sum_sel n sel f ->
  sum_sel n sel (fun o => (f o - m) * (f o - m)) = (mu - m) * (mu - m) * w + sum_sel n sel (fun o => (f o - mu) * (f o - mu)).
Proof.
  intros n sel f w m mu HW HM.
  assert (X : sum_sel n sel (fun o => (f o - m) * (f o - m)) - sum_sel n sel (fun o => (f o - mu) * (f o - mu))
     = 2 * (mu - m) * sum_sel n sel f + (m * m - mu * mu) * sum_sel n sel (fun _ => 1)).
  { clear. unfold sum_sel. induction n as [|n IH]; cbn [sumto]; [lra|]. destruct (sel n); lra. }
  rewrite <- HW, <- HM in X. lra.
Qed.

(** one tree *)
Lemma tree_loss : forall nc (t : tree R) X Y yl w lf, wf_tree t -> leaf_targets nc t X Y = Ok (yl, w) -> routed t X lf ->
  forall pred, sumto nc (fun c => sumto (n_leaves t) (fun i =>
      (nth c (nth i yl []) 0 - pred i c) * (nth c (nth i yl []) 0 - pred i c) * nth i w 0))
    + sse nc X Y lf (fun i c => nth c (nth i yl []) 0) = sse nc X Y lf pred.
Proof.
  intros nc t X Y yl w lf WF H RT pred. destruct (targets_spec nc t X Y yl w WF H) as (_&_&_&S0).
  destruct (S0 lf RT) as (LW&LY&S1). clear S0.
  assert (B : forall o, (o < length X)%nat -> (lf o < n_leaves t)%nat) by (intros o Ho; destruct (RT o Ho) as [[? _] _]; auto).
  assert (EX : forall p : nat -> nat -> R, sse nc X Y lf p =
     sumto nc (fun c => sumto (n_leaves t) (fun i => sum_sel (length X) (in_leaf lf i) (fun o => (resp Y o c - p i c) * (resp Y o c - p i c))))).
  { intros p. unfold sse. rewrite sumto_swap. apply sumto_ext. intros c Hc.
    rewrite <- (sum_over_leaves (n_leaves t) (length X) lf) by auto. apply sumto_ext. intros i Hi. unfold sum_sel.
    apply sumto_ext. intros o Ho. unfold in_leaf. destruct (Nat.eqb_spec (lf o) i); [subst; auto|auto]. }
  rewrite !EX, <- sumto_plus. apply sumto_ext. intros c Hc. rewrite <- sumto_plus. apply sumto_ext. intros i Hi.
  destruct (S1 i Hi) as (W1&_&Y1). symmetry. apply parallel_axis; auto. rewrite Y1 by auto.
  destruct (Req_EM_T (nth i w 0) 0) as [Z|NZ]; [|field; auto]. rewrite Z in *.
  rewrite sum_sel_count_zero by auto. lra.
Qed.

Lemma choice2 : forall (P : nat -> (mat R * mat R) -> (nat -> nat) -> R -> Prop) n,
  (forall q, (q < n)%nat -> exists d lf w, P q d lf w) -> exists d lf w, forall q, (q < n)%nat -> P q (d q) (lf q) (w q).
Proof.
  induction n as [|n IH]; intros H; [exists (fun _ => ([], [])), (fun _ _ => 0%nat), (fun _ => 0); intros; lia|].
  destruct IH as (d&lf&w&Hf); [intros; apply H; lia|]. destruct (H n ltac:(lia)) as (d1&lf1&w1&H1).
  exists (fun q => if Nat.eqb q n then d1 else d q), (fun q => if Nat.eqb q n then lf1 else lf q), (fun q => if Nat.eqb q n then w1 else w q).
  intros q Hq. destruct (Nat.eqb_spec q n); [subst; auto|apply Hf; lia].
Qed.

Lemma calc_cost_inv : forall (y w : list R) G E l c, length G = length E -> calc_cost y G E w l = Ok c ->
  forall i, (i < length E)%nat -> dot (nth i E []) l = 0 -> dot (nth i G []) l = 0.
Proof.
  intros y w G E l c LE H. unfold calc_cost, fills in H. destruct (zero_ok (mv G l) (mv E l)) eqn:Z; [|discriminate].
  intros i Hi. rewrite <- (mv_nth G l i), <- (mv_nth E l i). apply (proj1 (zero_ok_spec (mv G l) (mv E l) ltac:(rewrite !mv_length; auto)) Z).
  rewrite mv_length. lia.
Qed.

Lemma flat_cost : forall kd ts K sel G E Ti (o : smooth_opts R) Y W lamb c, mats kd ts K sel G E Ti ->
  length Y = length E -> length W = length E -> (forall r, In r Y -> length r = n_gamma kd) -> length lamb = K ->
  calc_cost (p_y (flatten kd o G E Ti Y W)) (p_Gamma (flatten kd o G E Ti Y W)) (p_eta (flatten kd o G E Ti Y W))
            (p_w (flatten kd o G E Ti Y W)) lamb = Ok c ->
  c = sumto (n_gamma kd) (fun cc => sumto (length ts) (fun q => sumto (n_leaves (nth q ts no_tree)) (fun i =>
        let m := kmean (nth q ts no_tree) kd (kap_sel sel lamb q i) cc in
        let y := nth cc (nth (offset ts q + i) Y []) 0 in (y - m) * (y - m) * nth (offset ts q + i) W 0))).
Proof.
  intros kd ts K sel G E Ti o Y W lamb c M LY LW RY LK H. unfold flatten in H. cbn [p_y p_Gamma p_eta p_w] in H.
  pose proof M as (LG&LE&_&LC&V).
  pose proof (concat_G_len kd ts K sel G E Ti M) as LCG.
  assert (LT : length (concat (transpose 0 (n_gamma kd) Y)) = (n_gamma kd * length E)%nat).
  { rewrite (length_concat_block _ (length E)); [unfold transpose; rewrite map_length, seq_length; auto|].
    intros x Hx. unfold transpose in Hx. apply in_map_iff in Hx. destruct Hx as (j&<-&_). rewrite map_length. auto. }
  assert (ZC := calc_cost_inv _ _ _ _ _ _ ltac:(rewrite LCG, length_concat_repeat; auto) H).
  rewrite length_concat_repeat in ZC.
  rewrite (calc_cost_val _ _ _ _ (n_gamma kd * length E)) in H; auto.
  2: { rewrite length_concat_repeat, LW. auto. }
  2: { rewrite length_concat_repeat. auto. }
  match type of H with Ok ?a = Ok ?b => assert (EC : b = a) by congruence end. clear H. rewrite EC. clear EC.
  rewrite <- sumto_nsum, sumto_blocks. apply sumto_ext. intros cc Hc.
  rewrite LE at 1. rewrite sumto_offset. apply sumto_ext. intros q Hq. apply sumto_ext. intros i Hi.
  assert (N : nth_error ts q = Some (nth q ts no_tree)) by (apply nth_error_nth'; auto).
  destruct (V q _ N i Hi) as (Hr&_).
  assert (EY : nth (cc * length E + (offset ts q + i)) (concat (transpose n0 (n_gamma kd) Y)) 0 = nth cc (nth (offset ts q + i) Y []) 0).
  { rewrite nth_concat_block; auto.
    - unfold transpose. rewrite nth_map_in with (d := 0%nat) by (rewrite seq_length; auto). rewrite seq_nth by auto. cbn [Nat.add].
      rewrite nth_map_in with (d := []) by lia. reflexivity.
    - intros x Hx. unfold transpose in Hx. apply in_map_iff in Hx. destruct Hx as (j&<-&_). rewrite map_length. auto.
    - unfold transpose. rewrite map_length, seq_length. auto. }
  assert (EW : nth (cc * length E + (offset ts q + i)) (concat (repeat W (n_gamma kd))) 0 = nth (offset ts q + i) W 0).
  { rewrite <- LW. apply nth_concat_repeat; auto. lia. }
  rewrite EY, EW. cbn zeta.
  assert (EM : Gv (concat G) lamb (cc * length E + (offset ts q + i)) / Ev (concat (repeat E (n_gamma kd))) lamb (cc * length E + (offset ts q + i))
     = kmean (nth q ts no_tree) kd (kap_sel sel lamb q i) cc).
  { specialize (ZC (cc * length E + (offset ts q + i))%nat (flat_lt kd E cc _ Hc Hr)).
    unfold Gv, Ev. rewrite (concat_G_nth kd ts K sel G E Ti M) in * by auto. rewrite nth_concat_repeat in * by auto.
    rewrite (mats_eta kd ts K sel G E Ti M q _ i lamb N Hi LK), (mats_gamma kd ts K sel G E Ti M q _ i lamb cc N Hi LK Hc) in *.
    unfold kmean. destruct (Req_EM_T _ 0) as [Z|NZ]; auto. rewrite ZC by auto. lra. }
  rewrite EM. reflexivity.
Qed.

Lemma loss_split : forall kd ts (o : smooth_opts R) rd K sel G E Ti Y W, Forall (@wf_tree R) ts ->
  mats kd ts K sel G E Ti -> all_targets kd o rd ts = Ok (Y, W) ->
  let P := flatten kd o G E Ti Y W in
  exists data lf wss, tuning_of kd o rd ts data lf /\
  forall lamb c, length lamb = K -> calc_cost (p_y P) (p_Gamma P) (p_eta P) (p_w P) lamb = Ok c ->
    c + wss = sumto (length ts) (fun q => sse (n_gamma kd) (fst (data q)) (snd (data q)) (lf q)
                 (fun i cc => kmean (nth q ts no_tree) kd (kap_sel sel lamb q i) cc)).
Proof.
  intros kd ts o rd K sel G E Ti Y W WF M HT P. destruct (targets_blocks kd o rd ts Y W WF HT) as (LY&LW&TB).
  pose proof M as (_&LE&_).
  destruct (choice2 (fun q d lf w => tuning_data kd o rd q = Ok d /\ routed (nth q ts no_tree) (fst d) lf /\
     forall pred, sumto (n_gamma kd) (fun c => sumto (n_leaves (nth q ts no_tree)) (fun i =>
      (nth c (nth (offset ts q + i) Y []) 0 - pred i c) * (nth c (nth (offset ts q + i) Y []) 0 - pred i c) * nth (offset ts q + i) W 0))
      + w = sse (n_gamma kd) (fst d) (snd d) lf pred) (length ts)) as (data&lf&w&HC).
  { intros q Hq. assert (N : nth_error ts q = Some (nth q ts no_tree)) by (apply nth_error_nth'; auto).
    assert (WT : wf_tree (nth q ts no_tree)) by (rewrite Forall_forall in WF; apply WF; eapply nth_error_In; eauto).
    destruct (TB q _ N) as (X&y&yl&w&TD&LT&B). destruct (routed_ex _ X WT) as (lf&RT). exists (X, y), lf, (sse (n_gamma kd) X y lf (fun i c => nth c (nth i yl []) 0)).
    cbn [fst snd]. split; auto. split; auto. intros pred. rewrite <- (tree_loss _ _ X y yl w lf WT LT RT pred). f_equal.
    apply sumto_ext. intros c Hc. apply sumto_ext. intros i Hi. destruct (B i Hi) as [B1 B2]. rewrite B1, B2. reflexivity. }
  exists data, lf, (sumto (length ts) w). split.
  - intros q t N. assert (Hq : (q < length ts)%nat) by (apply nth_error_Some; congruence).
    destruct (HC q Hq) as (A&B&_). rewrite (nth_error_nth ts q no_tree N) in B. auto.
  - intros lamb c LK H.
    assert (RY : forall r, In r Y -> length r = n_gamma kd).
    { intros r Hr. destruct (In_nth _ _ [] Hr) as (k&Hk&<-). destruct (offset_find ts k ltac:(lia)) as (q&t&i&N&Hi&->).
      assert (WT : wf_tree t) by (rewrite Forall_forall in WF; apply WF; eapply nth_error_In; eauto).
      destruct (TB q t N) as (X&y&yl&w0&TD&LT&B). rewrite (proj1 (B i Hi)).
      destruct (targets_spec _ t X y yl w0 WT LT) as (_&_&_&S0). destruct (routed_ex t X WT) as (lf0&RT).
      apply (S0 lf0 RT); auto. }
    rewrite (flat_cost kd ts K sel G E Ti o Y W lamb c M ltac:(lia) ltac:(lia) RY LK H).
    rewrite sumto_swap, <- sumto_plus. apply sumto_ext. intros q Hq. destruct (HC q Hq) as (_&_&D). apply D.
Qed.

(** data and leaf numbers are determined *)
Lemma sse_ext : forall nc X Y lf lf' p p', (forall o, (o < length X)%nat -> lf o = lf' o /\ forall c, (c < nc)%nat -> p (lf o) c = p' (lf o) c) ->
  sse nc X Y lf p = sse nc X Y lf' p'.
Proof.
  intros. unfold sse. apply sumto_ext. intros o Ho. destruct (H o Ho) as [E F]. apply sumto_ext. intros c Hc. rewrite <- E, F; auto.
Qed.
Lemma tuning_unique : forall kd (o : smooth_opts R) rd ts d1 l1 d2 l2, tuning_of kd o rd ts d1 l1 -> tuning_of kd o rd ts d2 l2 ->
  forall q t, nth_error ts q = Some t -> d1 q = d2 q /\ forall x, (x < length (fst (d1 q)))%nat -> l1 q x = l2 q x.
Proof.
  intros kd o rd ts d1 l1 d2 l2 H1 H2 q t N. destruct (H1 q t N) as [A1 R1]. destruct (H2 q t N) as [A2 R2].
  assert (E : d1 q = d2 q) by congruence. split; auto. intros x Hx. destruct (R1 x Hx) as [L1 _].
  rewrite E in Hx. destruct (R2 x Hx) as [_ U2]. apply U2. rewrite <- E. auto.
Qed.

Lemma p_C26 : forall kd ts (o : smooth_opts R) rd G E Ti Y W, Forall (@wf_tree R) ts -> ts <> [] ->
  forest_matrices kd o ts = Ok (G, E, Ti) -> all_targets kd o rd ts = Ok (Y, W) ->
  let P := flatten kd o G E Ti Y W in
  (exists data lf, tuning_of kd o rd ts data lf) /\
  forall data lf, tuning_of kd o rd ts data lf ->
  exists wss, forall lamb c, length lamb = ncols E ->
    calc_cost (p_y P) (p_Gamma P) (p_eta P) (p_w P) lamb = Ok c ->
    exists pred,
     (forall q t i, nth_error ts q = Some t -> (i < n_leaves t)%nat ->
        exists kap, smooth_kernel o ts t lamb i kap /\ forall cc, (cc < n_gamma kd)%nat -> pred q i cc = kmean t kd kap cc) /\
     c + wss = sumto (length ts) (fun q => sse (n_gamma kd) (fst (data q)) (snd (data q)) (lf q) (pred q)).
Proof.
  intros kd ts o rd G E Ti Y W WF NE FM HT P.
  destruct (forest_matrices_mats kd o ts G E Ti WF NE FM) as (K&sel&KP&M&KS).
  destruct (ncols_mats _ _ _ _ _ _ _ WF NE M) as (NC&_&_).
  destruct (loss_split kd ts o rd K sel G E Ti Y W WF M HT) as (d0&l0&wss&T0&HC).
  split; [eauto|]. intros data lf T1. exists wss. intros lamb c LK HH. rewrite NC in LK.
  exists (fun q i cc => kmean (nth q ts no_tree) kd (kap_sel sel lamb q i) cc). split.
  - intros q t i N Hi. exists (kap_sel sel lamb q i). split; [apply (KS q t i lamb); auto|].
    rewrite (nth_error_nth ts q no_tree N). auto.
  - rewrite (HC lamb c LK HH). apply sumto_ext. intros q Hq.
    assert (N : nth_error ts q = Some (nth q ts no_tree)) by (apply nth_error_nth'; auto).
    destruct (tuning_unique kd o rd ts d0 l0 data lf T0 T1 q _ N) as [Ed El]. rewrite <- Ed.
    apply sse_ext. intros x Hx. split; auto.
Qed.

Lemma smooth_loss : forall lg kd ts (o : smooth_opts R) rd out, smooth lg (Forest kd ts) o rd = Ok out ->
  Forall (@wf_tree R) ts -> ts <> [] -> o_sanity o = false -> (kd = Reg \/ o_class_loss o = L2) ->
  exists data lf wss cb c0 K, tuning_of kd o rd ts data lf /\
    hd_error (s_costs out) = Some c0 /\ In cb (s_costs out) /\ (forall c, In c (s_costs out) -> cb <= c) /\ (0 < K)%nat /\
    cb + wss = forest_sse (n_gamma kd) data lf (s_forest out) /\
    exists pred, (forall q t i, nth_error ts q = Some t -> (i < n_leaves t)%nat ->
        exists kap, smooth_kernel o ts t (initial_lamb kd o K) i kap /\ forall cc, (cc < n_gamma kd)%nat -> pred q i cc = kmean t kd kap cc) /\
     c0 + wss = sumto (length ts) (fun q => sse (n_gamma kd) (fst (data q)) (snd (data q)) (lf q) (pred q)).
Proof.
  intros lg kd ts o rd out H WF NE SA LS.
  destruct (smooth_desc lg kd ts o rd out H WF NE) as (_&(G&E&Ti&Y0&W0&K0&FM&_)&_).
  destruct (forest_matrices_mats kd o ts G E Ti WF NE FM) as (K&sel&KP&M&KS).
  destruct (smooth_inv lg kd ts o rd out K sel G E Ti H WF NE FM M) as (_&(Y&W&HT&OP)&_&LK&_&LF&_&D1&_).
  destruct (loss_split kd ts o rd K sel G E Ti Y W WF M HT) as (data&lf&wss&T0&HC). cbv zeta in HC.
  assert (OP' : stocastic_grad_descent (flatten kd o G E Ti Y W) (initial_lamb kd o K) (o_t_fix o) (negb (o_no_constraint o)) (o_adam o) (r_draws rd)
     = Ok (s_lamb out, s_lamb_last out, s_costs out)).
  { unfold optimise in OP. rewrite SA in OP. destruct kd; auto. destruct LS as [?|LS]; [discriminate|]. rewrite LS in OP. auto. }
  destruct (sgd_best _ _ _ _ _ _ _ _ _ OP') as (cb&c0&B1&B2&_&B3&B4&B5).
  exists data, lf, wss, cb, c0, K. split; auto. split; auto. split; auto. split; auto. split; auto. split.
  - rewrite (HC _ _ LK B1). unfold forest_sse. rewrite LF. apply sumto_ext. intros q Hq.
    assert (N : nth_error ts q = Some (nth q ts no_tree)) by (apply nth_error_nth'; auto).
    destruct (D1 q _ N) as (t'&N'&S'&V'). destruct (T0 q _ N) as [_ RT].
    apply sse_ext. intros x Hx. split; auto. intros c Hc. destruct (RT x Hx) as [[Hl _] _].
    rewrite (nth_error_nth _ q no_tree N'). destruct (V' _ Hl) as [_ V2]. rewrite <- V2 by auto.
    unfold leaf_v. rewrite (proj1 (same_leaf_id _ t' (lf q x) S')). auto.
  - exists (fun q i cc => kmean (nth q ts no_tree) kd (kap_sel sel (initial_lamb kd o K) q i) cc). split.
    + intros q t i N Hi. exists (kap_sel sel (initial_lamb kd o K) q i). split; [apply (KS q t i _); auto; apply initial_lamb_length|].
      rewrite (nth_error_nth ts q no_tree N). auto.
    + apply HC; auto. apply initial_lamb_length.
Qed.

Lemma forest_sse_unique : forall kd (o : smooth_opts R) rd ts d1 l1 d2 l2 ts', length ts' = length ts ->
  tuning_of kd o rd ts d1 l1 -> tuning_of kd o rd ts d2 l2 ->
  forest_sse (n_gamma kd) d1 l1 ts' = forest_sse (n_gamma kd) d2 l2 ts'.
Proof.
  intros kd o rd ts d1 l1 d2 l2 ts' LT T1 T2. unfold forest_sse. apply sumto_ext. intros q Hq. rewrite LT in Hq.
  assert (N : nth_error ts q = Some (nth q ts no_tree)) by (apply nth_error_nth'; auto).
  destruct (tuning_unique kd o rd ts d1 l1 d2 l2 T1 T2 q _ N) as [Ed El]. rewrite <- Ed. apply sse_ext. intros x Hx. split; auto.
Qed.

Lemma p_C26_returned : forall lg kd ts (o : smooth_opts R) rd out, smooth lg (Forest kd ts) o rd = Ok out ->
  Forall (@wf_tree R) ts -> ts <> [] -> o_sanity o = false -> (kd = Reg \/ o_class_loss o = L2) ->
  exists wss cb, In cb (s_costs out) /\ (forall c, In c (s_costs out) -> cb <= c) /\
   forall data lf, tuning_of kd o rd ts data lf -> cb + wss = forest_sse (n_gamma kd) data lf (s_forest out).
Proof.
  intros lg kd ts o rd out H WF NE SA LS. destruct (p_C16 lg kd ts o rd out H WF NE) as (LF&_).
  destruct (smooth_loss lg kd ts o rd out H WF NE SA LS) as (data&lf&wss&cb&c0&K&T0&_&B1&B2&_&B3&_).
  exists wss, cb. split; auto. split; auto. intros d l T1. rewrite B3. eapply forest_sse_unique; eauto.
Qed.

Lemma p_C66 : forall lg ts (o : smooth_opts R) rd out, smooth lg (Forest Reg ts) o rd = Ok out ->
  Forall (@wf_tree R) ts -> Forall pos_leaves ts -> ts <> [] -> o_sanity o = false -> o_lamb_draws o = None -> separated o ts ->
  (exists data lf, tuning_of Reg o rd ts data lf) /\
  forall data lf, tuning_of Reg o rd ts data lf -> forest_sse 1 data lf (s_forest out) <= forest_sse 1 data lf ts.
Proof.
  intros lg ts o rd out H WF PL NE SA SD SEP. destruct (p_C16 lg Reg ts o rd out H WF NE) as (LF&_).
  destruct (smooth_loss lg Reg ts o rd out H WF NE SA (or_introl eq_refl)) as (data&lf&wss&cb&c0&K&T0&H0&_&B2&KP&B3&pred&HP&B4).
  split; [eauto|]. intros d l T1.
  change 1%nat with (n_gamma Reg). rewrite (forest_sse_unique Reg o rd ts d l data lf _ LF T1 T0).
  rewrite (forest_sse_unique Reg o rd ts d l data lf ts eq_refl T1 T0). rewrite <- B3.
  assert (E0 : c0 + wss = forest_sse (n_gamma Reg) data lf ts).
  { rewrite B4. unfold forest_sse. apply sumto_ext. intros q Hq.
    assert (N : nth_error ts q = Some (nth q ts no_tree)) by (apply nth_error_nth'; auto).
    destruct (T0 q _ N) as [_ RT]. apply sse_ext. intros x Hx. split; auto. intros c Hc. destruct (RT x Hx) as [[Hl _] _].
    destruct (HP q _ _ N Hl) as (kap&HK&EP). rewrite EP by auto. rewrite (unit_start o K SD) in HK.
    assert (It : In (nth q ts no_tree) ts) by (eapply nth_error_In; eauto).
    assert (LP : 0 < leaf_w (nth q ts no_tree) (lf q x)) by (rewrite Forall_forall in PL; apply (PL _ It); auto).
    rewrite (kmean_unit _ Reg kap (lf q x) c Hl ltac:(lra) (unit_kernel o ts _ K _ kap WF It SEP KP Hl HK)).
    cbn [n_gamma] in Hc. assert (c = 0%nat) by lia. subst c. unfold leaf_ny, leaf_v, leaf_w, node_ny in *. field. lra. }
  rewrite <- E0. assert (In c0 (s_costs out)) by (destruct (s_costs out); [discriminate|inversion H0; left; auto]).
  specialize (B2 c0 H1). lra.
Qed.
