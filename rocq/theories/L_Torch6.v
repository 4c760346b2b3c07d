(** L_Torch6: pytorch_numpy_prep (C76). *)
From Verif Require Import Base TreeSpec Spec SpecSmooth SpecDepth SpecTorch M_Tree M_Gamma M_Smooth M_More M_Torch M_Pytorch L_Base L_Tree L_TreeModel L_TreeModel2 L_Dist L_Gamma L_Gamma2 L_Grad L_Sgd L_Sgd2 L_Smooth L_Smooth2 L_Smooth4 L_Tune L_Depth L_More L_Torch L_Torch2 L_Torch3 L_Torch4.
From Coq Require Import Reals Lra Lia.
Local Open Scope R_scope.

Lemma prep_blocks_gen : forall kd (o : prep_opts) rd (ts : list (tree R)) s acc Y W, Forall (@wf_tree R) ts ->
  length (fst acc) = length (snd acc) ->
  foldM (fun acc it =>
           do '(X, y) <- prep_data kd o rd (fst it);
           do '(yl, w) <- leaf_targets (n_gamma kd) (snd it) X y;
           Ok (fst acc ++ yl, snd acc ++ w)) (combine (seq s (length ts)) ts) acc = Ok (Y, W) ->
  length Y = (length (fst acc) + offset ts (length ts))%nat /\ length W = length Y /\
  (forall r, (r < length (fst acc))%nat -> nth r Y [] = nth r (fst acc) [] /\ nth r W 0 = nth r (snd acc) 0) /\
  forall q t, nth_error ts q = Some t -> exists X y yl w,
    prep_data kd o rd (s + q) = Ok (X, y) /\ leaf_targets (n_gamma kd) t X y = Ok (yl, w) /\
    forall i, (i < n_leaves t)%nat -> nth (length (fst acc) + (offset ts q + i)) Y [] = nth i yl [] /\
      nth (length (fst acc) + (offset ts q + i)) W 0 = nth i w 0.
Proof.
  intros kd o rd ts. induction ts as [|t ts IH]; intros s acc Y W WF LA H.
  - cbn [length seq combine foldM] in H. assert (acc = (Y, W)) by congruence. subst acc. cbn [fst snd] in *.
    split; [cbn; lia|]. split; auto. split; auto. intros q t N. destruct q; discriminate.
  - cbn [length seq combine foldM] in H. apply bind_ok in H. destruct H as (acc1&H1&H2).
    cbn [fst snd] in H1. apply bind_ok in H1. destruct H1 as ([X y]&HX&H1).
    apply bind_ok in H1. destruct H1 as ([yl w]&HY&H1).
    assert (E1 : acc1 = (fst acc ++ yl, snd acc ++ w)) by congruence. clear H1. subst acc1.
    inversion WF as [|? ? WT WTS]; subst. destruct (p_C27 _ t X y yl w WT HY) as (lf&_&LW&LY&_).
    destruct (IH (S s) (fst acc ++ yl, snd acc ++ w) Y W WTS ltac:(cbn [fst snd]; rewrite !app_length; lia) H2) as (A1&A2&A3&A4).
    clear IH. cbn [fst snd] in *. rewrite app_length, LY in *.
    change (offset (t :: ts) (length (t :: ts))) with (n_leaves t + offset ts (length ts))%nat.
    split; [lia|]. split; auto. split.
    + intros r Hr. destruct (A3 r ltac:(lia)) as [B1 B2]. rewrite B1, B2. rewrite !app_nth1 by lia. auto.
    + intros [|q] t' N; cbn [nth_error] in N.
      * assert (t' = t) by congruence. subst t'. exists X, y, yl, w. rewrite Nat.add_0_r. split; auto. split; auto.
        intros i Hi. change (offset (t :: ts) 0) with 0%nat. cbn [Nat.add].
        destruct (A3 (length (fst acc) + i)%nat ltac:(lia)) as [B1 B2]. rewrite B1, B2.
        rewrite !app_nth2 by lia. rewrite <- LA. replace (length (fst acc) + i - length (fst acc))%nat with i by lia. auto.
      * destruct (A4 q t' N) as (X'&y'&yl'&w'&C1&C2&C3). exists X', y', yl', w'.
        split; [rewrite Nat.add_succ_r; exact C1|]. split; auto. intros i Hi.
        change (offset (t :: ts) (S q)) with (n_leaves t + offset ts q)%nat.
        replace (length (fst acc) + (n_leaves t + offset ts q + i))%nat with (length (fst acc) + n_leaves t + (offset ts q + i))%nat by lia. auto.
Qed.
Lemma prep_blocks : forall kd (o : prep_opts) rd (ts : list (tree R)) Y W, Forall (@wf_tree R) ts -> prep_targets kd o rd ts = Ok (Y, W) ->
  length Y = offset ts (length ts) /\ length W = length Y /\
  forall q t, nth_error ts q = Some t -> exists X y yl w,
    prep_data kd o rd q = Ok (X, y) /\ leaf_targets (n_gamma kd) t X y = Ok (yl, w) /\
    forall i, (i < n_leaves t)%nat -> nth (offset ts q + i) Y [] = nth i yl [] /\ nth (offset ts q + i) W 0 = nth i w 0.
Proof.
  intros kd o rd ts Y W WF H. destruct (prep_blocks_gen kd o rd ts 0 ([], []) Y W WF eq_refl H) as (A&B&_&C). auto.
Qed.

(** ** tiling *)
Lemma tile_length : forall A n (l : list A), length (tile n l) = (n * length l)%nat.
Proof. intros. apply length_concat_repeat. Qed.
Lemma tile_nth : forall A n (l : list A) B c r d, length l = B -> (c < n)%nat -> (r < B)%nat -> nth (c * B + r) (tile n l) d = nth r l d.
Proof. intros A n l B c r d <- Hc Hr. apply nth_concat_repeat; auto. Qed.
Lemma tile_in : forall A n (l : list A) x, In x (tile n l) -> In x l.
Proof. intros A n l x H. unfold tile in H. apply in_concat in H. destruct H as (m&Hm&Hx). apply repeat_spec in Hm. subst. auto. Qed.

Lemma max_depth_calc : forall ts M, Forall (@wf_tree R) ts -> ts <> [] -> is_max_depth ts M -> snd (calc_depth_for_forest ts) = M.
Proof.
  intros ts M W NE MX. destruct MX as [M1 (t&v&I&D)]. pose proof (calc_depth_upper ts W t v M I D).
  destruct (calc_depth_attained ts W NE) as (t2&v2&I2&D2). pose proof (M1 _ _ _ I2 D2). lia.
Qed.

(** ** what prep returns *)

Definition tsel (ts : list (tree R)) (s : dstyle) (pa : bool) (q i k j : nat) : bool :=
  match nth_error ts q with Some t => csel t s pa i k j | None => false end.

(** row r = (class c, tree q, leaf i) *)
Definition prep_rows (kd : kind) (ts : list (tree R)) (o : prep_opts) (rd : torch_rows) (M : nat) (G : list (mat R)) (E : mat R) (Ti : list nat) (p : prep_out) : Prop :=
  let nc := n_gamma kd in let B := offset ts (length ts) in
  pr_dim p = S M /\ pr_nc p = nc /\
  length (pr_y p) = (nc * B)%nat /\ length (pr_Gamma p) = (nc * B)%nat /\ length (pr_eta p) = (nc * B)%nat /\
  length (pr_w p) = (nc * B)%nat /\ length (pr_t p) = (nc * B)%nat /\
  rect (S M) (pr_Gamma p) /\ rect (S M) (pr_eta p) /\ pr_t p = tile nc Ti /\
  exists xn xd xi xdf xif, pr_one p = [(Leaf_n, xn); (Leaf_d, xd); (Leaf_i, xi)] /\ pr_two p = [(Full_d, xdf); (Full_i, xif)] /\
  shapes_ok (nc * B) (S M) (pr_one p) (pr_two p) /\
  forall q t d, nth_error ts q = Some t -> tree_depth t d ->
  exists X Y yl w, prep_data kd o rd q = Ok (X, Y) /\ leaf_targets nc t X Y = Ok (yl, w) /\
  forall c i, (c < nc)%nat -> (i < n_leaves t)%nat -> let r := (c * B + (offset ts q + i))%nat in
    (r < nc * B)%nat /\ nth r (pr_t p) 0%nat = q /\
    nth r (pr_eta p) [] = nth (offset ts q + i) E [] /\ nth r (pr_Gamma p) [] = nth (offset ts q + i) (nth c G []) [] /\
    nth r (pr_y p) 0 = nth c (nth i yl []) 0 /\ nth r (pr_w p) 0 = nth i w 0 /\
    nth r xn 0 = leaf_w t i /\ (exists dp, depth_of t (leaf_id t i) dp /\ nth r xd 0 = INR dp) /\
    nth r xi 0 = nth (leaf_id t i) (t_imp t) 0 /\
    forall k a, (k <= M)%nat -> upk t k (leaf_id t i) a ->
      (exists dp, depth_of t a dp /\ nth k (nth r xdf []) 0 = INR dp) /\
      ((k <= d)%nat -> nth k (nth r xif []) 0 = nth a (t_imp t) 0) /\
      ((d < k)%nat -> nth k (nth r xif []) 0 = nth (leaf_id t 0) (t_imp t) 0).

Lemma nth_map_map : forall (l : list (list nat)) r k, (r < length l)%nat -> (k < length (nth r l []))%nat ->
  nth k (nth r (map (map (@nof R _)) l) []) 0 = INR (nth k (nth r l []) 0%nat).
Proof.
  intros l r k Hr Hk. rewrite nth_map_in with (d := []) by auto. rewrite nth_map_in with (d := 0%nat) by auto. reflexivity.
Qed.

Lemma rows_all : forall (ts : list (tree R)) (P : nat -> Prop),
  (forall q t i, nth_error ts q = Some t -> (i < n_leaves t)%nat -> P (offset ts q + i)%nat) -> forall r, (r < offset ts (length ts))%nat -> P r.
Proof. intros ts P H r Hr. destruct (offset_find ts r Hr) as (q&t&i&N&Hi&->). eauto. Qed.

Lemma prep_ok : forall kd ts (o : prep_opts) rd p M, Forall (@wf_tree R) ts -> ts <> [] -> po_style o <> MinStyle -> is_max_depth ts M ->
  pytorch_numpy_prep (Forest kd ts) o rd = Ok p ->
  exists G E Ti, create_Gamma_eta_forest kd (po_parents_all o) (po_style o) ts = Ok (G, E, Ti) /\
    mats kd ts (S M) (tsel ts (po_style o) (po_parents_all o)) G E Ti /\ prep_rows kd ts o rd M G E Ti p.
Proof.
  intros kd ts o rd p M W NE NS MX H. unfold pytorch_numpy_prep in H.
  destruct (_ && _)%bool; [discriminate|].
  destruct (p_C52_full ts kd (po_parents_all o) (po_style o) M W NE NS MX) as (out&Ti&F&FG&(L1&L2&L3&L4&L5)&V).
  rewrite F in H. cbn [bind] in H. destruct (prep_targets kd o rd ts) as [[Y Wt]|] eqn:PT; [|discriminate]. cbn [bind] in H.
  destruct (prep_blocks kd o rd ts Y Wt W PT) as (LY&LW&BL).
  destruct (depth_mats kd (po_parents_all o) (po_style o) ts W) as (G&E&Ti'&FG'&MT).
  assert (GE : (mo_Gamma out, mo_eta out, Ti) = (G, E, Ti')) by congruence.
  assert (EG : mo_Gamma out = G) by congruence. assert (EE : mo_eta out = E) by congruence. assert (ET : Ti = Ti') by congruence. clear GE FG'.
  rewrite (max_depth_calc ts M W NE MX) in MT. replace (M + 1)%nat with (S M) in MT by lia.
  exists G, E, Ti. split; [congruence|]. rewrite <- ET in MT. split; [exact MT|].
  rewrite EG, EE in H.
  set (nc := n_gamma kd) in *. set (B := offset ts (length ts)) in *.
  pose proof MT as (LG&LE&LTi&LC&MV).
  assert (NP : (0 < B)%nat).
  { destruct ts as [|t0 ts']; [congruence|]. unfold B. pose proof (offset_le (t0 :: ts') 0 t0 eq_refl).
    pose proof (n_leaves_pos t0 ltac:(rewrite Forall_forall in W; apply W; left; reflexivity)). lia. }
  assert (RE : rect (S M) E).
  { intros r Hr. apply (In_nth _ _ []) in Hr. destruct Hr as (i&Hi&<-). rewrite LE in Hi. revert i Hi. apply rows_all.
    intros q t i N Hi. apply (MV q t N i Hi). }
  assert (RG : forall c, (c < nc)%nat -> rect (S M) (nth c G [])).
  { intros c Hc r Hr. apply (In_nth _ _ []) in Hr. destruct Hr as (i&Hi&<-). rewrite LC, LE in Hi by auto. revert i Hi. apply rows_all.
    intros q t i N Hi. destruct (MV q t N i Hi) as (_&_&_&_&V2). apply (V2 c Hc). }
  assert (TR : forall Z, In Z (transpose 0 nc Y) -> length Z = B).
  { intros Z HZ. apply (In_nth _ _ []) in HZ. destruct HZ as (c&Hc&<-). rewrite transpose_length in Hc. rewrite transpose_row_length by auto. exact LY. }
  assert (ep : p = {| pr_y := concat (transpose n0 nc Y); pr_Gamma := concat G;
            pr_eta := tile nc E; pr_w := tile nc Wt; pr_t := tile nc Ti;
            pr_one := [(Leaf_n, tile nc (mo_n out)); (Leaf_d, tile nc (map nof (mo_depth out))); (Leaf_i, tile nc (mo_imp out))];
            pr_two := [(Full_d, tile nc (map (map nof) (mo_depth_full out))); (Full_i, tile nc (mo_imp_full out))];
            pr_dim := ncols E; pr_nc := nc |}) by congruence. clear H.
  unfold prep_rows. subst p. cbn [pr_dim pr_nc pr_y pr_Gamma pr_eta pr_w pr_t pr_one pr_two]. cbn zeta. fold nc. fold B.
  split; [apply rect_ncols; auto; intros ->; cbn in LE; lia|]. split; [reflexivity|].
  split; [rewrite (length_concat_block _ B) by auto; rewrite transpose_length; reflexivity|].
  split; [rewrite (concat_G_len kd ts (S M) _ G E Ti MT); fold nc; rewrite LE; reflexivity|].
  split; [rewrite tile_length, LE; reflexivity|].
  split; [rewrite tile_length, LW, LY; reflexivity|].
  split; [rewrite tile_length, LTi, LE; reflexivity|].
  split; [intros r Hr; apply in_concat in Hr; destruct Hr as (m&Hm&Hr); apply (In_nth _ _ []) in Hm; destruct Hm as (c&Hc&<-); apply (RG c); auto; lia|].
  split; [intros r Hr; apply RE; eapply tile_in; eauto|]. split; [reflexivity|].
  do 5 eexists. split; [reflexivity|]. split; [reflexivity|]. split.
  { split.
    - intros e [<-|[<-|[<-|[]]]]; cbn [snd]; rewrite tile_length, ?map_length; congruence.
    - intros e [<-|[<-|[]]]; cbn [snd]; rewrite tile_length, ?map_length; (split; [congruence|]); intros r Hr; apply tile_in in Hr.
      + apply in_map_iff in Hr. destruct Hr as (x&<-&Hx). rewrite map_length. apply (In_nth _ _ []) in Hx. destruct Hx as (i&Hi&<-). rewrite L4 in Hi.
        revert i Hi. apply rows_all. intros q t i N Hi. assert (WF : wf_tree t) by (rewrite Forall_forall in W; apply W; eapply nth_error_In; eauto).
        destruct (V q t _ N (proj2 (tree_depth_iff t WF _) eq_refl) i Hi) as (_&_&_&A&_). exact A.
      + apply (In_nth _ _ []) in Hr. destruct Hr as (i&Hi&<-). rewrite L5 in Hi.
        revert i Hi. apply rows_all. intros q t i N Hi. assert (WF : wf_tree t) by (rewrite Forall_forall in W; apply W; eapply nth_error_In; eauto).
        destruct (V q t _ N (proj2 (tree_depth_iff t WF _) eq_refl) i Hi) as (_&_&_&_&A&_). exact A. }
  intros q t d N TD. destruct (BL q t N) as (X&y&yl&w&PD&LT&BV). exists X, y, yl, w. split; auto. split; auto.
  intros c i Hc Hi. destruct (BV i Hi) as [BV1 BV2]. destruct (MV q t N i Hi) as (R0&R1&_). rewrite LE in R0.
  destruct (V q t d N TD i Hi) as (V1&V2&V3&V4&V5&V6). cbn zeta in V1, V2, V3, V4, V5, V6.
  split; [nia|].
  split; [rewrite (tile_nth _ nc Ti B) by (first [exact (eq_trans LTi LE)|auto]); exact R1|].
  split; [rewrite (tile_nth _ nc E B) by auto; reflexivity|].
  split; [replace (c * B)%nat with (c * length E)%nat by (rewrite LE; reflexivity); apply (concat_G_nth kd ts (S M) _ G E Ti MT); auto; lia|].
  split.
  { rewrite (nth_concat_block _ B) by (auto; rewrite transpose_length; auto). rewrite transpose_entry by (auto; lia). rewrite BV1. reflexivity. }
  split; [rewrite (tile_nth _ nc Wt B) by (first [exact (eq_trans LW LY)|auto]); exact BV2|].
  split; [rewrite (tile_nth _ nc (mo_n out) B) by auto; exact V1|].
  split.
  { exists (nth (offset ts q + i) (mo_depth out) 0%nat). split; auto. rewrite (tile_nth _ nc _ B) by (auto; rewrite map_length; auto).
    rewrite nth_map_in with (d := 0%nat) by (rewrite L2; exact R0). reflexivity. }
  split; [rewrite (tile_nth _ nc (mo_imp out) B) by auto; exact V3|].
  intros k a Hk U. destruct (V6 k a Hk U) as (U1&U2&U3).
  split; [|split].
  - exists (nth k (nth (offset ts q + i) (mo_depth_full out) []) 0%nat). split; auto. rewrite (tile_nth _ nc _ B) by (auto; rewrite map_length; auto).
    apply nth_map_map; [rewrite L4; exact R0|rewrite V4; lia].
  - intros Hd. rewrite (tile_nth _ nc _ B) by auto. auto.
  - intros Hd. rewrite (tile_nth _ nc _ B) by auto. apply U3; auto.
Qed.

(** ** the rows of one tree *)
Lemma filter_none : forall A (f : A -> bool) l, (forall x, In x l -> f x = false) -> filter f l = [].
Proof. induction l as [|a l IH]; intros H; auto. cbn. rewrite (H a (or_introl eq_refl)). apply IH. intros; apply H; right; auto. Qed.
Lemma filter_all : forall A (f : A -> bool) l, (forall x, In x l -> f x = true) -> filter f l = l.
Proof. induction l as [|a l IH]; intros H; auto. cbn. rewrite (H a (or_introl eq_refl)). f_equal. apply IH. intros; apply H; right; auto. Qed.

Lemma rows_tree : forall (ts : list (tree R)) Ti q t, length Ti = offset ts (length ts) ->
  (forall q t i, nth_error ts q = Some t -> (i < n_leaves t)%nat -> nth (offset ts q + i) Ti 0%nat = q) ->
  nth_error ts q = Some t -> rows_of q Ti = seq (offset ts q) (n_leaves t).
Proof.
  intros ts Ti q t L H N. unfold rows_of. pose proof (offset_le ts q t N) as OL.
  replace (length Ti) with (offset ts q + (n_leaves t + (offset ts (length ts) - offset ts q - n_leaves t)))%nat by lia.
  rewrite !seq_app, !filter_app. cbn [Nat.add].
  rewrite (filter_none _ _ (seq 0 (offset ts q))), (filter_all _ _ (seq (offset ts q) (n_leaves t))), (filter_none _ _ (seq (offset ts q + n_leaves t) _)).
  - cbn [app]. apply app_nil_r.
  - intros r Hr. apply in_seq in Hr. destruct (offset_find ts r ltac:(lia)) as (q'&t'&i&N'&Hi&->). rewrite (H _ _ _ N' Hi). apply Nat.eqb_neq.
    intros ->. assert (t' = t) by congruence. subst. lia.
  - intros r Hr. apply in_seq in Hr. replace r with (offset ts q + (r - offset ts q))%nat by lia. rewrite (H q t) by (auto; lia). apply Nat.eqb_refl.
  - intros r Hr. apply in_seq in Hr. destruct (offset_find ts r ltac:(lia)) as (q'&t'&i&N'&Hi&->). rewrite (H _ _ _ N' Hi). apply Nat.eqb_neq.
    intros ->. lia.
Qed.

Lemma rows_of_app : forall q a b, rows_of q (a ++ b) = rows_of q a ++ map (Nat.add (length a)) (rows_of q b).
Proof.
  intros q a b. unfold rows_of. rewrite app_length, seq_app, filter_app. f_equal.
  - apply filter_ext_in. intros r Hr. apply in_seq in Hr. rewrite app_nth1 by lia. reflexivity.
  - cbn [Nat.add]. generalize (length b) as n. intros n.
    assert (P : forall n s, filter (fun r => Nat.eqb (nth r (a ++ b) 0%nat) q) (seq (length a + s) n) =
      map (Nat.add (length a)) (filter (fun r => Nat.eqb (nth r b 0%nat) q) (seq s n))).
    { clear n. induction n as [|n IH]; intros s; auto. cbn [seq filter].
      rewrite app_nth2, Nat.add_comm, Nat.add_sub by lia. rewrite (Nat.add_comm s), <- Nat.add_succ_r, IH. destruct (Nat.eqb _ _); reflexivity. }
    specialize (P n 0%nat). rewrite Nat.add_0_r in P. exact P.
Qed.

Lemma rows_tile : forall q nc (Ti : list nat) L o, rows_of q Ti = seq o L ->
  length (rows_of q (tile nc Ti)) = (nc * L)%nat /\
  forall c i, (c < nc)%nat -> (i < L)%nat -> nth (c * L + i) (rows_of q (tile nc Ti)) 0%nat = (c * length Ti + (o + i))%nat.
Proof.
  intros q nc Ti L o H. induction nc as [|nc (IL&IN)].
  - split; [reflexivity|intros; lia].
  - change (tile (S nc) Ti) with (Ti ++ tile nc Ti). rewrite rows_of_app, H. split.
    + rewrite app_length, map_length, seq_length, IL. cbn [Nat.mul]. lia.
    + intros c i Hc Hi. destruct c as [|c].
      * cbn [Nat.mul Nat.add]. rewrite app_nth1 by (rewrite seq_length; auto). apply seq_nth; auto.
      * cbn [Nat.mul]. rewrite app_nth2 by (rewrite seq_length; lia). rewrite seq_length.
        replace (L + c * L + i - L)%nat with (c * L + i)%nat by lia. rewrite nth_map_in with (d := 0%nat) by (rewrite IL; nia).
        rewrite IN by (auto; lia). lia.
Qed.

Lemma picked_nth : forall A (l : list A) idx r d j, picked l idx r -> (j < length idx)%nat -> nth j r d = nth (nth j idx 0%nat) l d.
Proof.
  intros A l idx r d j H. revert j. induction H as [|i x idx r Hx H IH]; intros j Hj; [cbn in Hj; lia|].
  destruct j as [|j]; cbn [nth]; [symmetry; apply nth_error_nth; auto|apply IH; cbn in Hj; lia].
Qed.
