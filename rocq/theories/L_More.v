(** L_More: lemmas about the expanded leaf features. *)
From Verif Require Import Base TreeSpec Spec M_Tree M_Gamma M_More SpecDepth SpecSmooth.
From Verif Require Import L_Base L_Tree L_TreeModel L_TreeModel2 L_Dist L_Gamma L_Sgd L_Smooth4 L_Depth L_Depth2 L_Box.
From Coq Require Import Reals Lra Lia.
Local Open Scope R_scope.

Section One.
Variable t : tree R.
Hypothesis WF : wf_tree t.
Notation n := (size t).
Notation L := (n_leaves t).

Lemma leaf_depth_length : length (leaf_depth t) = L.
Proof. unfold leaf_depth. rewrite map_length. apply (v_leaf_length t WF). Qed.
Lemma leaf_depth_nth : forall i, (i < L)%nat -> depth_of t (leaf_id t i) (nth i (leaf_depth t) 0%nat).
Proof.
  intros i Hi. unfold leaf_depth. rewrite nth_map_in with (d := []) by (rewrite (v_leaf_length t WF); auto).
  rewrite (v_leaf_rows t WF). rewrite nth_map_in with (d := 0%nat) by auto. fold (leaf_id t i).
  pose proof (leaf_id_lt t i Hi) as LI. destruct (depth_ex t WF _ LI) as [d D].
  rewrite (dotn_lca t WF _ _ (leaf_id t i) d); auto; [|apply lca_self; auto]. replace (S d - 1)%nat with d by lia. auto.
Qed.

Lemma depth_row_ok : forall K d, (d < K)%nat -> exists r, depth_row K d = Ok r /\ length r = K /\ forall k, (k < K)%nat -> nth k r 0%nat = (d - k)%nat.
Proof.
  intros K d H. unfold depth_row. destruct (Nat.leb_spec (d + 1) K) as [_|X]; [|lia].
  eexists. split; [reflexivity|]. split; [rewrite app_length, rev_length, seq_length, repeat_length; lia|].
  intros k Hk. destruct (le_lt_dec k d) as [L1|L1].
  - rewrite app_nth1 by (rewrite rev_length, seq_length; lia). rewrite rev_nth by (rewrite seq_length; lia).
    rewrite seq_length, seq_nth by lia. lia.
  - rewrite app_nth2 by (rewrite rev_length, seq_length; lia). rewrite rev_length, seq_length. rewrite nth_repeat_lt by lia. lia.
Qed.
Lemma depth_row_err : forall K d, (K <= d)%nat -> depth_row K d = Err ValueError.
Proof. intros K d H. unfold depth_row. destruct (Nat.leb_spec (d + 1) K) as [X|_]; [lia|auto]. Qed.

Lemma imp_rows_length : length (impurity_rows t) = L.
Proof. unfold impurity_rows. apply leaf_select_len; auto. rewrite map_length. apply (parent_mat_correct t WF). Qed.
Lemma imp_rows_nth : forall i, (i < L)%nat -> length (nth i (impurity_rows t) []) = (max_depth_of t + 1)%nat /\
  forall k a, (k <= max_depth_of t)%nat -> upk t k (leaf_id t i) a -> nth k (nth i (impurity_rows t) []) 0 = nth a (t_imp t) 0.
Proof.
  intros i Hi. destruct (parent_mat_correct t WF) as [LP H]. pose proof (leaf_id_lt t i Hi) as LI. destruct (H _ LI) as [L1 H1].
  unfold impurity_rows. rewrite leaf_select_nth by (auto; rewrite map_length; auto).
  rewrite nth_map_in with (d := []) by (rewrite LP; auto). rewrite map_length. split; auto.
  intros k a Hk U. rewrite nth_map_in with (d := 0%nat) by (rewrite L1; lia). rewrite (up_unique t WF _ _ _ _ U (H1 k Hk)). reflexivity.
Qed.

Lemma leaf_below : forall v, (v < n)%nat -> exists u, anc t v u /\ is_leafb t u = true.
Proof.
  intros v. remember (n - v)%nat as m eqn:E. revert v E. induction m as [m IH] using lt_wf_ind. intros v E Hv.
  destruct (is_leafb t v) eqn:LF; [exists v; split; auto; apply anc_refl; auto|].
  destruct (nonleaf_children t WF v Hv LF) as (l&r&HL&HR&Ll&_). destruct (IH (n - l)%nat ltac:(lia) l eq_refl ltac:(lia)) as (u&A&B).
  exists u. split; auto. eapply anc_trans; [|exact A]. eapply anc_step; [apply anc_refl; auto|left; auto].
Qed.
Lemma leaf_index : forall v, (v < n)%nat -> is_leafb t v = true -> exists i, (i < L)%nat /\ leaf_id t i = v.
Proof.
  intros v Hv LF. assert (I : In v (leaf_ids t)) by (apply leaf_ids_spec; auto).
  destruct (In_nth _ _ 0%nat I) as (i&Hi&E). exists i. auto.
Qed.
Lemma deepest_leaf : exists i, (i < L)%nat /\ depth_of t (leaf_id t i) (max_depth_of t).
Proof.
  destruct (proj2 (tree_depth_iff t WF _) eq_refl) as [_ (t'&v&[<-|[]]&D)].
  assert (Hv : (v < n)%nat) by (eapply depth_lt; eauto).
  destruct (leaf_index v Hv) as (i&Hi&E); [|exists i; rewrite E; auto].
  destruct (is_leafb t v) eqn:LF; auto. destruct (nonleaf_children t WF v Hv LF) as (l&r&HL&_).
  assert (D2 : depth_of t l (S (max_depth_of t))) by (eapply TreeSpec.depth_step; eauto; left; auto).
  pose proof (depth_le_max t WF _ _ D2). lia.
Qed.
Lemma dist_le : forall s i j d, (i < L)%nat -> (j < L)%nat -> leaf_dist t s (leaf_id t i) (leaf_id t j) d -> (d <= max_depth_of t)%nat.
Proof.
  intros s i j d Hi Hj D. destruct (leaf_dist_conv t s i j WF Hi Hj) as (d'&E&D'). rewrite (leaf_dist_unique t WF _ _ _ _ _ D D').
  destruct (depth_ex t WF _ (leaf_id_lt t i Hi)) as [d1 D1]. destruct (depth_ex t WF _ (leaf_id_lt t j Hj)) as [d2 D2].
  pose proof (ddist_le_depth t s i j d1 d2 WF Hi Hj D1 D2). pose proof (depth_le_max t WF _ _ D1). pose proof (depth_le_max t WF _ _ D2). lia.
Qed.
Lemma max_dist_is_depth : forall s, s <> MinStyle -> is_max_dist t s (max_depth_of t).
Proof.
  intros s NS. split; [intros i j d Hi Hj D; apply (dist_le s i j d Hi Hj D)|].
  destruct deepest_leaf as (i&Hi&D). exists i.
  destruct (Nat.eq_dec n 1) as [S1|S1].
  - exists i. split; auto. split; auto. rewrite (depth_single t WF S1). apply leaf_dist_refl; auto. apply leaf_id_lt; auto.
  - pose proof (wf_pos t WF) as P.
    assert (LF : is_leafb t 0 = false).
    { destruct (is_leafb t 0) eqn:LF; auto. assert (A : anc t 0 1) by (apply (anc_root t WF); lia).
      pose proof (leaf_anc_eq t WF _ _ A LF). lia. }
    destruct (nonleaf_children t WF 0 P LF) as (l&r&HL&HR&Ll&Lr&NLR).
    assert (AI : anc t l (leaf_id t i) \/ anc t r (leaf_id t i)).
    { assert (A : anc t 0 (leaf_id t i)) by (apply (anc_root t WF), leaf_id_lt; auto).
      assert (NE : leaf_id t i <> 0%nat) by (intros E; pose proof (leaf_id_leaf t i Hi); congruence).
      clear -A NE WF HL HR. revert A NE. generalize (leaf_id t i). intros u A. remember 0%nat as z eqn:Ez.
      induction A as [v Hv|a b c A IHA C]; intros NE; [congruence|].
      destruct (Nat.eq_dec b a) as [EB|NB].
      - subst b. destruct (child_two t a c l r HL HR C) as [->| ->]; [left|right]; apply anc_refl; apply (child_lt t WF) in C; lia.
      - destruct (IHA Ez HL HR NB) as [X|X]; [left|right]; eapply anc_step; eauto. }
    (* a leaf in the other subtree *)
    assert (OTH : exists j, (j < L)%nat /\ is_lca t 0 (leaf_id t i) (leaf_id t j)).
    { destruct AI as [A|A].
      - destruct (leaf_below r ltac:(lia)) as (u&Au&Lu). assert (Hu : (u < n)%nat) by (apply (anc_lt t WF) in Au; lia).
        destruct (leaf_index u Hu Lu) as (j&Hj&Ej). exists j. split; auto. rewrite Ej.
        split; [apply (anc_root t WF), leaf_id_lt; auto|]. split; [apply (anc_root t WF); auto|].
        intros b B1 B2. destruct (Nat.eq_dec b 0) as [->|NB]; [apply anc_refl; auto|]. exfalso.
        assert (CL : child t 0 l) by (left; auto). assert (CR : child t 0 r) by (right; auto).
        assert (XL : anc t l b \/ anc t b l) by (destruct (anc_comparable t WF _ _ _ A B1); auto).
        assert (XR : anc t r b \/ anc t b r) by (destruct (anc_comparable t WF _ _ _ Au B2); auto).
        assert (YL : anc t l b) by (destruct XL as [X|X]; auto; apply (anc_child t WF _ _ CL) in X; destruct X as [->|X]; [apply anc_refl; lia|apply (anc_zero t WF) in X; lia]).
        assert (YR : anc t r b) by (destruct XR as [X|X]; auto; apply (anc_child t WF _ _ CR) in X; destruct X as [->|X]; [apply anc_refl; lia|apply (anc_zero t WF) in X; lia]).
        eapply (sib_disjoint t WF 0 l r b); eauto.
      - destruct (leaf_below l ltac:(lia)) as (u&Au&Lu). assert (Hu : (u < n)%nat) by (apply (anc_lt t WF) in Au; lia).
        destruct (leaf_index u Hu Lu) as (j&Hj&Ej). exists j. split; auto. rewrite Ej.
        split; [apply (anc_root t WF), leaf_id_lt; auto|]. split; [apply (anc_root t WF); auto|].
        intros b B1 B2. destruct (Nat.eq_dec b 0) as [->|NB]; [apply anc_refl; auto|]. exfalso.
        assert (CL : child t 0 l) by (left; auto). assert (CR : child t 0 r) by (right; auto).
        assert (XR : anc t r b \/ anc t b r) by (destruct (anc_comparable t WF _ _ _ A B1); auto).
        assert (XL : anc t l b \/ anc t b l) by (destruct (anc_comparable t WF _ _ _ Au B2); auto).
        assert (YL : anc t l b) by (destruct XL as [X|X]; auto; apply (anc_child t WF _ _ CL) in X; destruct X as [->|X]; [apply anc_refl; lia|apply (anc_zero t WF) in X; lia]).
        assert (YR : anc t r b) by (destruct XR as [X|X]; auto; apply (anc_child t WF _ _ CR) in X; destruct X as [->|X]; [apply anc_refl; lia|apply (anc_zero t WF) in X; lia]).
        eapply (sib_disjoint t WF 0 l r b); eauto. }
    destruct OTH as (j&Hj&LC). exists j. split; auto. split; auto.
    destruct (depth_ex t WF _ (leaf_id_lt t j Hj)) as [dj Dj].
    exists (max_depth_of t), dj. split; [exists 0%nat, (max_depth_of t), 0%nat; split; auto; split; auto; split; [constructor|lia]|].
    split; [exists 0%nat, dj, 0%nat; split; [apply lca_sym; auto|]; split; auto; split; [constructor|lia]|].
    pose proof (depth_le_max t WF _ _ Dj). destruct s; [auto|lia|congruence].
Qed.

Lemma mapM_err : forall {A B} (f : A -> result B) l x e, (forall y e', f y = Err e' -> e' = e) -> In x l -> f x = Err e -> mapM f l = Err e.
Proof.
  intros A B f l x e U. induction l as [|y l IH]; intros I E; [destruct I|]. cbn [mapM].
  destruct (f y) as [z|e'] eqn:Y; [|cbn [bind]; rewrite (U y e' Y); auto]. destruct I as [->|I]; [congruence|].
  cbn [bind]. rewrite (IH I E). auto.
Qed.

Definition more_ok (kd : kind) (d : nat) (out : more_out R) : Prop :=
  length (mo_n out) = L /\ length (mo_depth out) = L /\ length (mo_imp out) = L /\
  length (mo_depth_full out) = L /\ length (mo_imp_full out) = L /\
  forall i, (i < L)%nat ->
    nth i (mo_n out) 0 = leaf_w t i /\ depth_of t (leaf_id t i) (nth i (mo_depth out) 0%nat) /\
    nth i (mo_imp out) 0 = nth (leaf_id t i) (t_imp t) 0 /\
    length (nth i (mo_depth_full out) []) = S d /\ length (nth i (mo_imp_full out) []) = S d /\
    forall k a, (k <= d)%nat -> upk t k (leaf_id t i) a ->
      depth_of t a (nth k (nth i (mo_depth_full out) []) 0%nat) /\
      nth k (nth i (mo_imp_full out) []) 0 = nth a (t_imp t) 0.

Lemma more_per_ok : forall kd pa s, is_max_dist t s (max_depth_of t) -> exists out,
  create_Gamma_eta_tree_more_per kd pa s t = Ok out /\ create_Gamma_eta_tree kd pa s t = Ok (mo_Gamma out, mo_eta out) /\
  ncols (mo_eta out) = S (max_depth_of t) /\ length (mo_eta out) = L /\ more_ok kd (max_depth_of t) out.
Proof.
  intros kd pa s MD. destruct (create_tree_ok t WF s kd pa) as (m&G&E&CE&MM&LG&LE&NC&_).
  assert (EM : m = max_depth_of t).
  { destruct MD as [M1 (i&j&Hi&Hj&D)]. destruct MM as [N1 (i'&j'&Hi'&Hj'&D')].
    pose proof (M1 _ _ _ Hi' Hj' D'). pose proof (N1 _ _ _ Hi Hj D). lia. }
  subst m. unfold create_Gamma_eta_tree_more_per. rewrite CE. cbn [bind]. rewrite NC.
  assert (DL : forall d, In d (leaf_depth t) -> (d < S (max_depth_of t))%nat).
  { intros d I. destruct (In_nth _ _ 0%nat I) as (i&Hi&Ei). rewrite leaf_depth_length in Hi. pose proof (leaf_depth_nth i Hi) as D.
    rewrite Ei in D. pose proof (depth_le_max t WF _ _ D). lia. }
  destruct (mapM_total (depth_row (S (max_depth_of t))) (leaf_depth t)) as (df&DF&LDF).
  { intros d I. destruct (depth_row_ok _ d (DL d I)) as (r&Er&_). eauto. }
  rewrite DF. cbn [bind]. eexists. split; [reflexivity|]. cbn [mo_Gamma mo_eta]. split; auto. split; auto. split; auto.
  unfold more_ok. cbn [mo_n mo_depth mo_imp mo_depth_full mo_imp_full]. rewrite leaf_depth_length in LDF.
  split; [apply n_leaf_len; auto|]. split; [apply leaf_depth_length|].
  split; [apply leaf_select_len; auto; apply (wf_len_imp t WF)|]. split; auto. split; [apply imp_rows_length|].
  intros i Hi. destruct (imp_rows_nth i Hi) as [IL IV]. pose proof (leaf_depth_nth i Hi) as LD.
  assert (ROW : depth_row (S (max_depth_of t)) (nth i (leaf_depth t) 0%nat) = Ok (nth i df [])).
  { destruct (mapM_nth_error _ _ _ DF i (nth i (leaf_depth t) 0%nat)) as (y&Y1&Y2).
    - rewrite (nth_error_nth' _ 0%nat); auto. rewrite leaf_depth_length. auto.
    - rewrite (nth_error_nth _ _ [] Y1). auto. }
  destruct (depth_row_ok (S (max_depth_of t)) (nth i (leaf_depth t) 0%nat)) as (r&Er&Lr&Vr).
  { apply DL. apply nth_In. rewrite leaf_depth_length. auto. }
  assert (r = nth i df []) by congruence. subst r.
  split; [apply n_leaf_nth; auto|]. split; auto.
  split; [unfold leaf_impurity; rewrite leaf_select_nth; auto; apply (wf_len_imp t WF)|].
  split; auto. split; [rewrite IL; lia|]. intros k a Hk U. split; [|apply IV; auto].
  rewrite Vr by lia. apply (up_depth t WF k _ a U _ LD).
Qed.
Lemma more_per_err : forall kd pa s, ~ is_max_dist t s (max_depth_of t) -> create_Gamma_eta_tree_more_per kd pa s t = Err ValueError.
Proof.
  intros kd pa s NM. destruct (create_tree_ok t WF s kd pa) as (m&G&E&CE&MM&LG&LE&NC&_).
  assert (LT : (m < max_depth_of t)%nat).
  { assert (m <> max_depth_of t) by (intros ->; auto). destruct MM as [_ (i&j&Hi&Hj&D)]. pose proof (dist_le _ _ _ _ Hi Hj D). lia. }
  unfold create_Gamma_eta_tree_more_per. rewrite CE. cbn [bind]. rewrite NC.
  destruct deepest_leaf as (i&Hi&D). pose proof (leaf_depth_nth i Hi) as D2. pose proof (depth_unique t WF _ _ _ D D2) as EQ.
  rewrite (mapM_err (depth_row (S m)) (leaf_depth t) (max_depth_of t) ValueError); auto.
  - intros y e'. unfold depth_row. destruct (Nat.leb _ _); congruence.
  - rewrite EQ. apply nth_In. rewrite leaf_depth_length. auto.
  - apply depth_row_err. lia.
Qed.
End One.

Lemma p_C51 : forall (t : tree R) (kd : kind) (pa : bool) (s : dstyle) d, wf_tree t -> tree_depth t d ->
  (is_max_dist t s d -> exists out,
     create_Gamma_eta_tree_more_per kd pa s t = Ok out /\
     create_Gamma_eta_tree kd pa s t = Ok (mo_Gamma out, mo_eta out) /\
     length (mo_n out) = n_leaves t /\ length (mo_depth out) = n_leaves t /\ length (mo_imp out) = n_leaves t /\
     length (mo_depth_full out) = n_leaves t /\ length (mo_imp_full out) = n_leaves t /\
     forall i, (i < n_leaves t)%nat ->
       nth i (mo_n out) 0 = leaf_w t i /\ depth_of t (leaf_id t i) (nth i (mo_depth out) 0%nat) /\
       nth i (mo_imp out) 0 = nth (leaf_id t i) (t_imp t) 0 /\
       length (nth i (mo_depth_full out) []) = S d /\ length (nth i (mo_imp_full out) []) = S d /\
       forall k a, (k <= d)%nat -> upk t k (leaf_id t i) a ->
         depth_of t a (nth k (nth i (mo_depth_full out) []) 0%nat) /\
         nth k (nth i (mo_imp_full out) []) 0 = nth a (t_imp t) 0) /\
  (~ is_max_dist t s d -> create_Gamma_eta_tree_more_per kd pa s t = Err ValueError).
Proof.
  intros t kd pa s d WF TD. apply (tree_depth_iff t WF) in TD. subst d. split.
  - intros MD. destruct (more_per_ok t WF kd pa s MD) as (out&A&B&_&_&C). exists out. auto.
  - apply more_per_err; auto.
Qed.
Lemma p_C51_reach : forall (t : tree R) s d, wf_tree t -> tree_depth t d -> s <> MinStyle -> is_max_dist t s d.
Proof. intros t s d WF TD. apply (tree_depth_iff t WF) in TD. subst d. apply max_dist_is_depth; auto. Qed.
Lemma p_C51_more : forall (t : tree R) kd pa s, wf_tree t -> exists G E ns ds is_,
  create_Gamma_eta_tree_more kd pa s t = Ok (G, E, ns, ds, is_) /\ create_Gamma_eta_tree kd pa s t = Ok (G, E) /\
  length ns = n_leaves t /\ length ds = n_leaves t /\ length is_ = n_leaves t /\
  forall i, (i < n_leaves t)%nat -> nth i ns 0 = leaf_w t i /\ depth_of t (leaf_id t i) (nth i ds 0%nat) /\
    nth i is_ 0 = nth (leaf_id t i) (t_imp t) 0.
Proof.
  intros t kd pa s WF. destruct (create_tree_ok t WF s kd pa) as (m&G&E&CE&_).
  exists G, E, (n_leaf_original t), (leaf_depth t), (leaf_impurity t). unfold create_Gamma_eta_tree_more. rewrite CE.
  split; auto. split; auto. split; [apply n_leaf_len; auto|]. split; [apply leaf_depth_length; auto|].
  split; [apply leaf_select_len; auto; apply (wf_len_imp t WF)|]. intros i Hi. split; [apply n_leaf_nth; auto|].
  split; [apply leaf_depth_nth; auto|]. unfold leaf_impurity. rewrite leaf_select_nth; auto. apply (wf_len_imp t WF).
Qed.

(** *** forests *)
Definition proj3 (a : more_out R * list nat) : list (mat R) * mat R * list nat := (mo_Gamma (fst a), mo_eta (fst a), snd a).
Definition pad_imp (K : nat) (m : more_out R) : mat R :=
  map (fun r => r ++ repeat (nth 0 (nth 0 (mo_imp_full m) []) 0) (K - ncols (mo_eta m))) (mo_imp_full m).
Definition pad_depth (K : nat) (m : more_out R) : list (list nat) :=
  map (fun r => r ++ repeat 0%nat (K - ncols (mo_eta m))) (mo_depth_full m).

Lemma fold_more : forall kd pa s K ts ms, mapM (create_Gamma_eta_tree_more_per kd pa s) ts = Ok ms ->
  (forall m, In m ms -> (ncols (mo_eta m) <= K)%nat /\ ncols (pad_imp K m) = K) -> forall b a ti,
  exists out ti', foldM (add_more kd pa s K) (combine (seq b (length ts)) ts) (a, ti) = Ok (out, ti') /\
    mo_n out = mo_n a ++ concat (map (@mo_n R) ms) /\ mo_depth out = mo_depth a ++ concat (map (@mo_depth R) ms) /\
    mo_imp out = mo_imp a ++ concat (map (@mo_imp R) ms) /\
    mo_depth_full out = mo_depth_full a ++ concat (map (pad_depth K) ms) /\
    mo_imp_full out = mo_imp_full a ++ concat (map (pad_imp K) ms) /\
    foldM (add_tree pa K (create_Gamma_eta_tree kd pa s)) (combine (seq b (length ts)) ts) (proj3 (a, ti)) = Ok (proj3 (out, ti')).
Proof.
  intros kd pa s K. induction ts as [|t ts IH]; intros ms H HM b a ti; cbn [mapM] in H.
  - inversion H; subst. cbn [length seq combine foldM map concat]. exists a, ti. rewrite !app_nil_r. repeat (split; auto).
  - apply bind_ok in H. destruct H as (m&E&H). apply bind_ok in H. destruct H as (ms'&E2&H). inversion H; subst. clear H.
    destruct (HM m (or_introl eq_refl)) as [M1 M2]. cbn [length seq combine foldM].
    unfold add_more at 1. cbn [snd fst]. rewrite E. cbn [bind].
    destruct (Nat.ltb_spec K (ncols (mo_eta m))) as [X|_]; [lia|]. change (@n0 R _) with 0. fold (pad_imp K m). rewrite M2, Nat.eqb_refl. cbn [negb bind].
    match goal with |- context [foldM (add_more kd pa s K) _ (?a1, ?t1)] =>
      destruct (IH ms' E2 (fun x Hx => HM x (or_intror Hx)) (S b) a1 t1) as (out&ti'&F&A1&A2&A3&A4&A5&A6) end.
    cbn [mo_n mo_depth mo_imp mo_depth_full mo_imp_full] in A1, A2, A3, A4, A5.
    exists out, ti'. cbn [bind]. split; [exact F|]. cbn [map concat]. rewrite A1, A2, A3, A4, A5, <- !app_assoc.
    repeat (split; [reflexivity|]).
    assert (CE : create_Gamma_eta_tree kd pa s t = Ok (mo_Gamma m, mo_eta m)).
    { unfold create_Gamma_eta_tree_more_per in E. apply bind_ok in E. destruct E as ([g e]&CE&E).
      apply bind_ok in E. destruct E as (df&_&E). inversion E; subst. cbn [mo_Gamma mo_eta]. auto. }
    unfold proj3 at 1. cbn [fst snd]. unfold add_tree at 1. cbn [fst snd]. rewrite CE. cbn [bind].
    destruct (Nat.ltb_spec K (ncols (mo_eta m))) as [X|_]; [lia|]. cbn [bind]. exact A6.
Qed.

Lemma nth_blocks : forall {A} (f : more_out R -> list A) ts ms q t m i d,
  length ms = length ts -> nth_error ts q = Some t -> nth_error ms q = Some m ->
  map (@length A) (map f ms) = map (@n_leaves R) ts -> (i < n_leaves t)%nat -> nth (offset ts q + i) (concat (map f ms)) d = nth i (f m) d.
Proof.
  intros A f ts ms q t m i d LM Et Em LL Hi.
  assert (Hq : (q < length ms)%nat) by (apply nth_error_Some; congruence).
  replace (offset ts q) with (sumn (map (@length A) (firstn q (map f ms)))) by (unfold offset; rewrite <- !firstn_map, LL; auto).
  assert (N : nth q (map f ms) [] = f m) by (rewrite nth_map_in with (d := m) by auto; rewrite (nth_error_nth _ _ _ Em); auto).
  rewrite nth_concat; [rewrite N; auto|rewrite map_length; auto|]. rewrite N.
  assert (Z : nth q (map (@length A) (map f ms)) 0%nat = nth q (map (@n_leaves R) ts) 0%nat) by (rewrite LL; auto).
  rewrite nth_map_in with (d := []) in Z by (rewrite map_length; auto). rewrite nth_map_in with (d := t) in Z by lia.
  rewrite (nth_error_nth _ _ _ Et) in Z. rewrite N in Z. lia.
Qed.

Lemma p_C52_full : forall ts (kd : kind) (pa : bool) (s : dstyle) M, Forall (@wf_tree R) ts -> ts <> [] -> s <> MinStyle -> is_max_depth ts M ->
  exists out ti, create_Gamma_eta_forest_more kd pa s ts = Ok (out, ti) /\
  create_Gamma_eta_forest kd pa s ts = Ok (mo_Gamma out, mo_eta out, ti) /\
  (length (mo_n out) = offset ts (length ts) /\ length (mo_depth out) = offset ts (length ts) /\
   length (mo_imp out) = offset ts (length ts) /\ length (mo_depth_full out) = offset ts (length ts) /\
   length (mo_imp_full out) = offset ts (length ts)) /\
  forall q t d, nth_error ts q = Some t -> tree_depth t d -> forall i, (i < n_leaves t)%nat ->
    let r := (offset ts q + i)%nat in
    nth r (mo_n out) 0 = leaf_w t i /\ depth_of t (leaf_id t i) (nth r (mo_depth out) 0%nat) /\
    nth r (mo_imp out) 0 = nth (leaf_id t i) (t_imp t) 0 /\
    length (nth r (mo_depth_full out) []) = S M /\ length (nth r (mo_imp_full out) []) = S M /\
    forall k a, (k <= M)%nat -> upk t k (leaf_id t i) a ->
      depth_of t a (nth k (nth r (mo_depth_full out) []) 0%nat) /\
      ((k <= d)%nat -> nth k (nth r (mo_imp_full out) []) 0 = nth a (t_imp t) 0) /\
      ((d < k)%nat -> a = 0%nat /\ nth k (nth r (mo_imp_full out) []) 0 = nth (leaf_id t 0) (t_imp t) 0).
Proof.
  intros ts kd pa s M W NE NS MX.
  assert (EM : snd (calc_depth_for_forest ts) = M).
  { destruct MX as [M1 (t&v&I&D)]. pose proof (calc_depth_upper ts W t v M I D).
    destruct (calc_depth_attained ts W NE) as (t2&v2&I2&D2). pose proof (M1 _ _ _ I2 D2). lia. }
  assert (FW : forall t, In t ts -> wf_tree t) by (rewrite Forall_forall in W; auto).
  assert (MD : forall t, In t ts -> (max_depth_of t <= M)%nat).
  { intros t I. destruct (proj2 (tree_depth_iff t (FW t I) _) eq_refl) as [_ (t'&v&[<-|[]]&D)].
    destruct MX as [M1 _]. apply (M1 t v); auto. }
  destruct (mapM_total (create_Gamma_eta_tree_more_per kd pa s) ts) as (ms&EMs&LM).
  { intros t I. destruct (more_per_ok t (FW t I) kd pa s (max_dist_is_depth t (FW t I) s NS)) as (o&E&_). eauto. }
  assert (MO : forall q t m, nth_error ts q = Some t -> nth_error ms q = Some m ->
    ncols (mo_eta m) = S (max_depth_of t) /\ more_ok t kd (max_depth_of t) m).
  { intros q t m Et Em. pose proof (nth_error_In _ _ Et) as I. destruct (mapM_nth_error _ _ _ EMs q t Et) as (m'&E1&E2).
    assert (m' = m) by congruence. subst m'.
    destruct (more_per_ok t (FW t I) kd pa s (max_dist_is_depth t (FW t I) s NS)) as (o&E&_&X1&_&X2). assert (o = m) by congruence. subst. auto. }
  destruct (fold_more kd pa s (M + 1) ts ms EMs) with (b := 0%nat)
    (a := {| mo_Gamma := repeat [] (n_gamma kd); mo_eta := []; mo_n := []; mo_depth := []; mo_imp := []; mo_depth_full := []; mo_imp_full := [] |} : more_out R)
    (ti := @nil nat) as (out&ti&F&A1&A2&A3&A4&A5&A6).
  { intros m I. destruct (In_nth_error _ _ I) as (q&Em). assert (Hq : (q < length ms)%nat) by (apply nth_error_Some; congruence).
    destruct (nth_error ts q) as [t|] eqn:Et; [|apply nth_error_None in Et; lia]. destruct (MO q t m Et Em) as [X1 X2].
    pose proof (MD t (nth_error_In _ _ Et)). rewrite X1. split; [lia|].
    destruct X2 as (_&_&_&_&LI&X2). pose proof (n_leaves_pos t (FW t (nth_error_In _ _ Et))) as NP.
    destruct (X2 0%nat NP) as (_&_&_&_&LL&_). unfold ncols, pad_imp. destruct (mo_imp_full m) as [|r0 rs]; [cbn in LI; lia|].
    cbn [map hd]. rewrite app_length, repeat_length. cbn [nth] in LL. rewrite LL. change (length (hd [] (mo_eta m))) with (ncols (mo_eta m)). rewrite X1. lia. }
  exists out, ti. split; [unfold create_Gamma_eta_forest_more; rewrite EM; exact F|].
  split; [unfold create_Gamma_eta_forest, stack_forest; rewrite EM; exact A6|].
  assert (LB : forall A (f : more_out R -> list A), (forall q t m, nth_error ts q = Some t -> nth_error ms q = Some m -> length (f m) = n_leaves t) ->
    map (@length A) (map f ms) = map (@n_leaves R) ts).
  { intros A f Hf. rewrite map_map. apply (nth_eq_ext _ _ 0%nat); rewrite !map_length; auto. intros p Hp.
    destruct (nth_error ts p) as [tp|] eqn:Etp; [|apply nth_error_None in Etp; lia].
    destruct (nth_error ms p) as [mp|] eqn:Emp; [|apply nth_error_None in Emp; lia].
    rewrite nth_map_in with (d := mp) by lia. rewrite nth_map_in with (d := tp) by lia.
    rewrite (nth_error_nth _ _ _ Etp), (nth_error_nth _ _ _ Emp). eapply Hf; eauto. }
  split.
  { assert (LC : forall A (f : more_out R -> list A), (forall q t m, nth_error ts q = Some t -> nth_error ms q = Some m -> length (f m) = n_leaves t) ->
      length (concat (map f ms)) = offset ts (length ts)).
    { intros A f Hf. rewrite length_concat, (LB A f Hf). unfold offset. rewrite firstn_all. reflexivity. }
    rewrite A1, A2, A3, A4, A5. cbn [mo_n mo_depth mo_imp mo_depth_full mo_imp_full app].
    split; [apply LC; intros q' t' m' P Q; apply (proj2 (MO q' t' m' P Q))|].
    split; [apply LC; intros q' t' m' P Q; apply (proj2 (MO q' t' m' P Q))|].
    split; [apply LC; intros q' t' m' P Q; apply (proj2 (MO q' t' m' P Q))|].
    split; apply LC; intros q' t' m' P Q; unfold pad_depth, pad_imp; rewrite map_length; apply (proj2 (MO q' t' m' P Q)). }
  intros q t d Et TD i Hi. pose proof (FW t (nth_error_In _ _ Et)) as WF. apply (tree_depth_iff t WF) in TD. subst d.
  destruct (mapM_nth_error _ _ _ EMs q t Et) as (m&Em&E1). destruct (MO q t m Et Em) as [X1 (Y1&Y2&Y3&Y4&Y5&Y6)].
  pose proof (MD t (nth_error_In _ _ Et)) as MT.
  cbn zeta. rewrite A1, A2, A3, A4, A5. cbn [mo_n mo_depth mo_imp mo_depth_full mo_imp_full app].
  rewrite (nth_blocks (@mo_n R) ts ms q t m i 0 LM Et Em) by (auto; apply LB; intros q' t' m' P Q; apply (proj2 (MO q' t' m' P Q))).
  rewrite (nth_blocks (@mo_depth R) ts ms q t m i 0%nat LM Et Em) by (auto; apply LB; intros q' t' m' P Q; apply (proj2 (MO q' t' m' P Q))).
  rewrite (nth_blocks (@mo_imp R) ts ms q t m i 0 LM Et Em) by (auto; apply LB; intros q' t' m' P Q; apply (proj2 (MO q' t' m' P Q))).
  rewrite (nth_blocks (pad_depth (M + 1)) ts ms q t m i [] LM Et Em) by (auto; apply LB; intros q' t' m' P Q; unfold pad_depth; rewrite map_length; apply (proj2 (MO q' t' m' P Q))).
  rewrite (nth_blocks (pad_imp (M + 1)) ts ms q t m i [] LM Et Em) by (auto; apply LB; intros q' t' m' P Q; unfold pad_imp; rewrite map_length; apply (proj2 (MO q' t' m' P Q))).
  destruct (Y6 i Hi) as (Z1&Z2&Z3&Z4&Z5&Z6). split; auto. split; auto. split; auto.
  unfold pad_depth, pad_imp. rewrite nth_map_in with (d := []) by lia. rewrite nth_map_in with (d := []) by lia. rewrite X1.
  rewrite !app_length, !repeat_length, Z4, Z5. split; [lia|]. split; [lia|]. intros k a Hk U.
  destruct (le_lt_dec k (max_depth_of t)) as [L1|L1].
  - rewrite !app_nth1 by lia. destruct (Z6 k a L1 U). split; auto. split; auto. intros X; lia.
  - rewrite !app_nth2 by lia. rewrite !nth_repeat_lt by lia.
    assert (D0 : depth_of t a 0).
    { pose proof (depth_le_max t WF _ _ Z2) as DM. pose proof (up_depth t WF k _ a U _ Z2) as D0.
      replace (nth i (mo_depth m) 0%nat - k)%nat with 0%nat in D0 by lia. auto. }
    split; auto. split; [intros X; lia|]. intros _. split; [apply (depth_zero t); auto|].
    pose proof (n_leaves_pos t WF) as NP. destruct (Y6 0%nat NP) as (_&_&_&_&_&V0).
    apply (V0 0%nat (leaf_id t 0)); [lia|]. constructor. apply leaf_id_lt; auto.
Qed.

Lemma p_C52 : forall ts (kd : kind) (pa : bool) (s : dstyle) M, Forall (@wf_tree R) ts -> ts <> [] -> s <> MinStyle -> is_max_depth ts M ->
  exists out ti, create_Gamma_eta_forest_more kd pa s ts = Ok (out, ti) /\
  create_Gamma_eta_forest kd pa s ts = Ok (mo_Gamma out, mo_eta out, ti) /\
  forall q t d, nth_error ts q = Some t -> tree_depth t d -> forall i, (i < n_leaves t)%nat ->
    let r := (offset ts q + i)%nat in
    nth r (mo_n out) 0 = leaf_w t i /\ depth_of t (leaf_id t i) (nth r (mo_depth out) 0%nat) /\
    nth r (mo_imp out) 0 = nth (leaf_id t i) (t_imp t) 0 /\
    length (nth r (mo_depth_full out) []) = S M /\ length (nth r (mo_imp_full out) []) = S M /\
    forall k a, (k <= M)%nat -> upk t k (leaf_id t i) a ->
      depth_of t a (nth k (nth r (mo_depth_full out) []) 0%nat) /\
      ((k <= d)%nat -> nth k (nth r (mo_imp_full out) []) 0 = nth a (t_imp t) 0) /\
      ((d < k)%nat -> a = 0%nat /\ nth k (nth r (mo_imp_full out) []) 0 = nth (leaf_id t 0) (t_imp t) 0).
Proof.
  intros ts kd pa s M W NE NS MX. destruct (p_C52_full ts kd pa s M W NE NS MX) as (out&ti&A&B&_&C). exists out, ti. auto.
Qed.

Lemma p_C52_iff : forall ts (kd : kind) (pa : bool) (s : dstyle) M out ti q t d i k, Forall (@wf_tree R) ts -> s <> MinStyle -> is_max_depth ts M ->
  create_Gamma_eta_forest_more kd pa s ts = Ok (out, ti) -> nth_error ts q = Some t -> tree_depth t d -> (i < n_leaves t)%nat ->
  (d < k <= M)%nat ->
  (nth k (nth (offset ts q + i) (mo_imp_full out) []) 0 = nth 0 (t_imp t) 0 <-> nth (leaf_id t 0) (t_imp t) 0 = nth 0 (t_imp t) 0).
Proof.
  intros ts kd pa s M out ti q t d i k W NS MX F Et TD Hi Hk.
  destruct (p_C52 ts kd pa s M W) as (out'&ti'&F'&_&H); auto.
  { intros ->. destruct q; discriminate. }
  assert (out' = out) by congruence. subst out'. destruct (H q t d Et TD i Hi) as (_&_&_&_&_&H2). cbn zeta in H2.
  assert (WF : wf_tree t) by (rewrite Forall_forall in W; apply W; eapply nth_error_In; eauto).
  destruct (up_ex t WF k (leaf_id t i) (leaf_id_lt t i Hi)) as [a U]. destruct (H2 k a ltac:(lia) U) as (_&_&H3).
  destruct (H3 ltac:(lia)) as [_ ->]. reflexivity.
Qed.
Lemma ex35_depth : is_max_depth [@ex3_reg R _; ex5_reg] 2.
Proof.
  assert (W : Forall (@wf_tree R) [ex3_reg; ex5_reg]) by (repeat constructor).
  split.
  - intros t v d I D. apply (calc_depth_upper _ W t v d I D).
  - apply (calc_depth_attained _ W). discriminate.
Qed.
Lemma p_C52_refuted : exists (ts : list (tree R)) out ti t k, Forall (@wf_tree R) ts /\ nth_error ts 0 = Some t /\
  create_Gamma_eta_forest_more Reg false Standard ts = Ok (out, ti) /\
  is_max_depth ts k /\ upk t k (leaf_id t 0) 0 /\ nth k (nth 0 (mo_imp_full out) []) 0 <> nth 0 (t_imp t) 0.
Proof.
  assert (W : Forall (@wf_tree R) [ex3_reg; ex5_reg]) by (repeat constructor).
  destruct (p_C52 [@ex3_reg R _; ex5_reg] Reg false Standard 2 W) as (out&ti&F&_&H); [discriminate|discriminate|apply ex35_depth|].
  exists [ex3_reg; ex5_reg], out, ti, ex3_reg, 2%nat. split; auto. split; [reflexivity|]. split; auto. split; [apply ex35_depth|].
  assert (W3 : wf_tree (@ex3_reg R _)) by reflexivity.
  assert (U : upk (@ex3_reg R _) 2 (leaf_id (@ex3_reg R _) 0) 0).
  { assert (P0 : (0 < n_leaves (@ex3_reg R _))%nat) by (vm_compute; lia).
    destruct (up_ex _ W3 2 (leaf_id (@ex3_reg R _) 0) (leaf_id_lt _ 0 P0)) as [a U].
    assert (D : depth_of (@ex3_reg R _) (leaf_id (@ex3_reg R _) 0) 1) by (apply (TreeSpec.depth_step _ 0); [constructor|left; reflexivity]).
    pose proof (up_depth _ W3 _ _ _ U _ D) as D0. apply depth_zero in D0. subst. auto. }
  split; auto. destruct (H 0%nat ex3_reg 1%nat eq_refl) with (i := 0%nat) as (_&_&_&_&_&H2); [apply (tree_depth_iff _ W3); reflexivity|vm_compute; lia|].
  cbn zeta in H2. destruct (H2 2%nat 0%nat ltac:(lia) U) as (_&_&H3). destruct (H3 ltac:(lia)) as [_ H4].
  change (offset [@ex3_reg R _; ex5_reg] 0 + 0)%nat with 0%nat in H4. rewrite H4. cbn. change (Pos.to_nat 3) with 3%nat. cbn [INR]. lra.
Qed.
Lemma p_C51_min : exists t : tree R, wf_tree t /\ create_Gamma_eta_tree_more_per Reg false MinStyle t = Err ValueError.
Proof.
  exists (comb7 (repeat [0] 7) (repeat 1 7) (repeat 0 7)). split; reflexivity.
Qed.
