(** L_Levels: discretised impurity distances. *)
From Verif Require Import Base TreeSpec Spec M_Tree M_Gamma M_Levels
  L_Base L_Tree L_TreeModel L_TreeModel2 L_Dist L_Gamma L_Gamma2 L_PropsTree L_Sgd.
From Coq Require Import Reals Lra Sorted.
Local Open Scope R_scope.

(** *** sorting without repetition *)
Lemma insert_set_in : forall (x : R) l y, In y (insert_set x l) <-> y = x \/ In y l.
Proof.
  induction l as [|z l IH]; intros y; cbn [insert_set]; [cbn; intuition|]. rn.
  destruct (Rltb_spec z x); [cbn [In]; rewrite IH; intuition|].
  destruct (Rltb_spec x z); [cbn; intuition|]. assert (x = z) by lra. subst. cbn; intuition.
Qed.
Lemma sorted_set_in : forall (l : list R) y, In y (sorted_set l) <-> In y l.
Proof.
  induction l as [|x l IH]; intros y; [reflexivity|]. unfold sorted_set. cbn [fold_right].
  fold (sorted_set l). rewrite insert_set_in, IH. cbn; intuition.
Qed.
Lemma insert_set_sorted : forall (x : R) l, StronglySorted Rlt l -> StronglySorted Rlt (insert_set x l).
Proof.
  induction l as [|z l IH]; intros H; cbn [insert_set]; [repeat constructor|].
  inversion H as [|? ? H1 H2]; subst. rn. destruct (Rltb_spec z x).
  - constructor; auto. rewrite Forall_forall in *. intros y Hy. apply insert_set_in in Hy. destruct Hy; subst; auto.
  - destruct (Rltb_spec x z); auto. constructor; auto. constructor; auto.
    rewrite Forall_forall in *. intros y Hy. specialize (H2 y Hy). lra.
Qed.
Lemma sorted_set_sorted : forall l : list R, StronglySorted Rlt (sorted_set l).
Proof. induction l; [constructor|]. apply insert_set_sorted; auto. Qed.

(** *** breaks *)
Definition br_ok (b : list (ext R)) : Prop := exists mid, b = NInf :: mid ++ [PInf].

Lemma upd_last_split : forall {A} (l : list A) x, l <> [] -> exists a, upd l (length l - 1) x = a ++ [x] /\ length a = (length l - 1)%nat.
Proof.
  induction l as [|y l IH]; intros x NE; [congruence|]. destruct l as [|z l].
  - exists []. auto.
  - destruct (IH x) as (a&E&L); [discriminate|]. exists (y :: a). cbn [length] in *.
    replace (S (length l) - 1)%nat with (length l) in * by lia.
    replace (S (S (length l)) - 1)%nat with (S (length l)) by lia.
    change (upd (y :: z :: l) (S (length l)) x) with (y :: upd (z :: l) (length l) x). rewrite E. split; auto; lia.
Qed.
Lemma open_breaks_shape : forall br : list R, (1 < length (open_breaks br))%nat -> br_ok (open_breaks br).
Proof.
  intros br H. unfold open_breaks in *. set (b := map Fin (sorted_set (br ++ [n0]))) in *.
  rewrite !upd_length in H.
  destruct (upd_last_split b PInf) as (a&E&L); [intro X; rewrite X in H; cbn in H; lia|].
  rewrite E. destruct a as [|a0 a]; [cbn in L; lia|]. exists a. reflexivity.
Qed.
Lemma final_breaks_shape : forall br u b, final_breaks br u = Ok b ->
  br_ok b /\ (1 < length (open_breaks br))%nat /\
  (length b = length (open_breaks br) \/ length b = S (length (open_breaks br))).
Proof.
  intros br u b H. unfold final_breaks in H.
  set (wz := which_zero (open_breaks br)) in *.
  destruct (nth_error (open_breaks br) (S wz)) as [nxt|] eqn:N; [|discriminate].
  assert (LT : (S wz < length (open_breaks br))%nat) by (apply nth_error_Some; congruence).
  destruct (open_breaks_shape br ltac:(lia)) as (mid&EM).
  split; [|split; [lia|]].
  - destruct (ext_ltb (Fin u) nxt); inversion H; subst b; [|exists mid; auto].
    rewrite EM in *. cbn [firstn skipn]. cbn [length] in LT. rewrite app_length in LT. cbn [length] in LT.
    exists (firstn wz mid ++ [Fin u] ++ skipn wz mid). rewrite firstn_app, skipn_app.
    replace (wz - length mid)%nat with 0%nat by lia. cbn [firstn skipn]. rewrite app_nil_r.
    cbn [app]. f_equal. rewrite <- !app_assoc. reflexivity.
  - destruct (ext_ltb (Fin u) nxt); [right|left; congruence].
    assert (EB : b = firstn (S wz) (open_breaks br) ++ [Fin u] ++ skipn (S wz) (open_breaks br)) by congruence.
    rewrite EB, !app_length, firstn_length, skipn_length. cbn [length]. lia.
Qed.

Definition below (b : list (ext R)) (x : R) : nat := length (filter (fun b => ext_ltb b (Fin x)) b).
Lemma below_mono : forall b x y, x <= y -> (below b x <= below b y)%nat.
Proof.
  unfold below. induction b as [|a b IH]; intros x y H; auto. specialize (IH x y H). cbn [filter].
  destruct a as [|z|]; cbn [ext_ltb length]; [cbn; lia| |cbn; lia]. rn.
  destruct (Rltb_spec z x), (Rltb_spec z y); cbn [length]; try lia. lra.
Qed.
Lemma below_len : forall b x, (below b x <= length b)%nat.
Proof. unfold below. induction b; intros; auto. cbn [filter]. specialize (IHb x). destruct (ext_ltb _ _); cbn [length]; lia. Qed.
Lemma cut_range : forall b x, br_ok b -> (0 <= cut_label b x <= Z.of_nat (length b) - 2)%Z.
Proof.
  intros b x (mid&->). unfold cut_label. change (length (filter _ (NInf :: mid ++ [PInf]))) with (below (NInf :: mid ++ [PInf]) x).
  assert (E : below (NInf :: mid ++ [PInf]) x = S (below mid x)).
  { unfold below. cbn [filter ext_ltb length]. rewrite filter_app, app_length. cbn. lia. }
  rewrite E. cbn [length]. rewrite app_length. cbn [length]. pose proof (below_len mid x). lia.
Qed.
Lemma cut_mono : forall b x y, x <= y -> (cut_label b x <= cut_label b y)%Z.
Proof. intros b x y H. unfold cut_label. pose proof (below_mono b x y H). unfold below in *. lia. Qed.

(** the level of 0 *)
Lemma upper_zero_pos : forall (vals : list R) u, upper_zero vals = Ok u -> 0 < u /\ forall x, In x vals -> 0 < x -> u < x.
Proof.
  intros vals u H. unfold upper_zero in H. apply bind_ok in H. destruct H as (m&Hm&H).
  assert (SP : In m (filter (fun x => nltb n0 x) vals) /\ forall x, In x (filter (fun x => nltb n0 x) vals) -> m <= x).
  { destruct (filter (fun x => nltb n0 x) vals) as [|a l]; [discriminate|]. cbn [nminimum] in Hm. inversion Hm; subst m. clear.
    revert a. induction l as [|b l IH]; intros a; cbn [fold_left].
    - split; [left; auto|]. intros x [->|[]]; lra.
    - destruct (IH (nmin a b)) as [I1 I2]. assert (MN : nmin a b <= a /\ nmin a b <= b /\ (nmin a b = a \/ nmin a b = b)).
      { unfold nmin. rn. destruct (Rltb_spec b a); repeat split; auto; lra. }
      destruct MN as (M1&M2&M3). split.
      + destruct I1 as [E|E]; [|right; right; auto]. rewrite <- E. destruct M3 as [->| ->]; [left|right; left]; auto.
      + intros x [->|[->|Hx]].
        * specialize (I2 (nmin x b) (or_introl eq_refl)). lra.
        * specialize (I2 (nmin a x) (or_introl eq_refl)). lra.
        * apply I2. right; auto. }
  destruct SP as [S1 S2]. apply filter_In in S1. destruct S1 as [_ S1]. revert S1. rn. intros S1.
  destruct (Rltb_spec 0 m) as [MP|]; [|discriminate]. inversion H; subst u. unfold nmin. rn.
  assert (MN : 0 < (if Rltb (1 + 1) m then 1 + 1 else m) <= m) by (destruct (Rltb_spec (1+1) m); lra).
  split; [lra|]. intros x Hx Px. assert (m <= x); [|lra].
  apply S2. apply filter_In. split; auto. rn. apply Rltb_true; auto.
Qed.

Lemma sorted_set_zero : forall br : list R, (forall x, In x br -> 0 <= x) ->
  exists l, sorted_set (br ++ [n0]) = 0 :: l /\ forall x, In x l -> 0 < x.
Proof.
  intros br H. pose proof (sorted_set_sorted (br ++ [n0])) as SS.
  assert (I0 : In 0 (sorted_set (br ++ [n0]))) by (apply sorted_set_in; apply in_or_app; right; left; auto).
  assert (NN : forall x, In x (sorted_set (br ++ [n0])) -> 0 <= x).
  { intros x Hx. apply (sorted_set_in (br ++ [n0])) in Hx. apply in_app_or in Hx. destruct Hx as [Hx|[<-|[]]]; auto. rn. lra. }
  destruct (sorted_set (br ++ [n0])) as [|a l]; [destruct I0|]. inversion SS as [|? ? _ F]; subst.
  rewrite Forall_forall in F. destruct I0 as [->|I0].
  - exists l. auto.
  - specialize (F 0 I0). specialize (NN a (or_introl eq_refl)). lra.
Qed.
Definition pos_ext (e : ext R) : Prop := match e with Fin x => 0 < x | PInf => True | NInf => False end.
Lemma open_breaks_pos : forall br : list R, (forall x, In x br -> 0 <= x) ->
  exists l, open_breaks br = NInf :: l /\ forall e, In e l -> pos_ext e.
Proof.
  intros br H. destruct (sorted_set_zero br H) as (l&E&P). unfold open_breaks. rewrite E. cbn [map length].
  destruct l as [|a l]; [exists []; split; auto; intros e []|].
  replace (S (length (map Fin (a :: l))) - 1)%nat with (S (length l)) by (cbn [map length]; rewrite map_length; lia).
  cbn [upd]. eexists. split; [reflexivity|]. intros e He.
  assert (X : In e (map Fin (a :: l)) \/ e = PInf).
  { clear -He. revert He. generalize (map (@Fin R) (a :: l)). intros m. revert m. generalize (length l).
    induction n; intros m He; destruct m; cbn [upd] in He; auto.
    - destruct He as [<-|He]; auto. left; right; auto.
    - destruct He as [<-|He]; [left; left; auto|]. destruct (IHn _ He); auto. left; right; auto. }
  destruct X as [X| ->]; [|exact Logic.I]. apply in_map_iff in X. destruct X as (y&<-&Hy). apply P. auto.
Qed.
Lemma pos_below : forall l x, (forall e, In e l -> pos_ext e) -> x <= 0 -> below l x = 0%nat.
Proof.
  unfold below. induction l as [|e l IH]; intros x P Hx; auto. cbn [filter].
  pose proof (P e (or_introl eq_refl)) as Pe. destruct e as [|z|]; cbn [ext_ltb pos_ext] in *; [contradiction| |apply IH; auto; intros; apply P; right; auto].
  rn. rewrite Rltb_false by lra. apply IH; auto. intros; apply P; right; auto.
Qed.
Lemma final_zero : forall (br : list R) u b vals, (forall x, In x br -> 0 <= x) -> upper_zero vals = Ok u ->
  final_breaks br u = Ok b -> forall x, In x vals -> (cut_label b x = 0%Z <-> x <= 0).
Proof.
  intros br u b vals HB HU HF x Hx. destruct (upper_zero_pos _ _ HU) as [UP UL].
  destruct (open_breaks_pos br HB) as (l&EL&PL).
  unfold final_breaks in HF. rewrite EL in HF.
  assert (WZ : which_zero (NInf :: l) = 0%nat).
  { unfold which_zero. cbn [find_zero is_zero].
    assert (Z : forall l k, (forall e, In e l -> pos_ext e) -> find_zero l k = None).
    { clear. induction l as [|e l IH]; intros k P; auto. cbn [find_zero].
      pose proof (P e (or_introl eq_refl)) as Pe. assert (is_zero e = false) as ->.
      { destruct e; auto. cbn in *. rn. apply Reqb_false. lra. }
      apply IH. intros; apply P; right; auto. }
    rewrite Z by auto. auto. }
  rewrite WZ in HF. cbn [nth_error firstn skipn app] in HF.
  destruct l as [|nxt l]; [discriminate|].
  assert (EB : forall l, cut_label (NInf :: l) x = Z.of_nat (below l x)).
  { intros m. unfold cut_label, below. cbn [filter ext_ltb length]. lia. }
  split.
  - intros E. destruct (Rle_lt_dec x 0) as [|XP]; auto. exfalso. specialize (UL x Hx XP).
    destruct (ext_ltb (Fin u) nxt) eqn:EN; inversion HF; subst b; rewrite EB in E.
    + unfold below in E. cbn [filter ext_ltb] in E. revert E. rn. rewrite Rltb_true by auto. cbn [length]. lia.
    + unfold below in E. cbn [filter] in E.
      destruct nxt as [|z|]; cbn [ext_ltb] in *; try discriminate.
      revert E EN. rn. destruct (Rltb_spec u z); [discriminate|]. rewrite Rltb_true by lra. cbn [length]. lia.
  - intros X0. assert (P2 : below (Fin u :: nxt :: l) x = 0%nat).
    { apply pos_below; auto. intros e [<-|He]; auto. }
    destruct (ext_ltb (Fin u) nxt); inversion HF; subst b; rewrite EB.
    + rewrite P2. auto.
    + rewrite pos_below; auto.
Qed.

(** *** quantiles *)
Lemma sort_asc_in : forall (l : list R) y, In y (sort_asc l) -> In y l.
Proof.
  assert (X : forall (x : R) l y, In y (insert_asc x l) -> y = x \/ In y l).
  { induction l as [|z l IH]; intros y H; cbn [insert_asc] in H; [cbn in *; intuition|].
    destruct (nltb z x); cbn [In] in *; [|intuition]. destruct H as [|H]; auto. apply IH in H. intuition. }
  induction l as [|a l IH]; intros y H; auto. unfold sort_asc in H. cbn [fold_right] in H. fold (sort_asc l) in H.
  apply X in H. destruct H as [->|H]; [left|right]; auto.
Qed.
Lemma quantiles_nonneg : forall n (a q : list R), (forall x, In x a -> 0 <= x) -> quantiles n a = Ok q ->
  forall x, In x q -> 0 <= x.
Proof.
  intros n a q H E x Hx. unfold quantiles in E. destruct n as [|n]; [discriminate|].
  assert (SN : forall k, 0 <= nth k (sort_asc a) n0).
  { intros k. destruct (nth_in_or_default k (sort_asc a) n0) as [I|E0]; [apply H, sort_asc_in; auto|rewrite E0; rn; lra]. }
  assert (EQ := f_equal (fun r => match r with Ok l => l | Err _ => [] end) E). cbv beta iota zeta in EQ. subst q.
  apply in_map_iff in Hx. destruct Hx as (i&<-&_).
  set (num := (i * (length (sort_asc a) - 1))%nat). change (nof (Nat.modulo num (S n)))%num with (INR (Nat.modulo num (S n))).
  set (l1 := nth (num / S n) (sort_asc a) n0). set (l2 := nth (Nat.min (S (num / S n)) (length (sort_asc a) - 1)) (sort_asc a) n0).
  change (0 <= l1 + INR (Nat.modulo num (S n)) / INR (S n) * (l2 - l1)).
  assert (F : 0 <= INR (Nat.modulo num (S n)) / INR (S n) <= 1).
  { assert (0 < INR (S n)) by (apply lt_0_INR; lia). assert (INR (Nat.modulo num (S n)) <= INR (S n)).
    { apply le_INR. pose proof (Nat.mod_upper_bound num (S n)). lia. }
    pose proof (pos_INR (Nat.modulo num (S n))). split.
    - apply Rmult_le_pos; auto. left. apply Rinv_0_lt_compat; auto.
    - apply Rmult_le_reg_r with (INR (S n)); auto. unfold Rdiv. rewrite Rmult_assoc, Rinv_l by lra. lra. }
  pose proof (SN (num / S n)%nat) as P1. pose proof (SN (Nat.min (S (num / S n)) (length (sort_asc a) - 1))) as P2.
  fold l1 in P1. fold l2 in P2. set (f := INR (Nat.modulo num (S n)) / INR (S n)) in *.
  replace (l1 + f * (l2 - l1)) with ((1 - f) * l1 + f * l2) by ring.
  apply Rplus_le_le_0_compat; apply Rmult_le_pos; lra.
Qed.

(** *** the level matrix of a tree *)
Lemma impurity_levels_inv : forall s lv (t : tree R) D e, wf_tree t -> impurity_levels s lv t = Ok (D, e) ->
  exists Dm m br u b, impurity_dist_leaves s t = Ok (Dm, m) /\
    (match lv with LInt n => quantiles n (concat Dm) | LArr l => Ok l end) = Ok br /\
    upper_zero (concat Dm) = Ok u /\ final_breaks br u = Ok b /\ br_ok b /\ e = length b /\
    length D = n_leaves t /\ (forall i, (i < n_leaves t)%nat -> length (nth i D []) = n_leaves t) /\
    (forall i j, (i < n_leaves t)%nat -> (j < n_leaves t)%nat -> In (nth j (nth i Dm []) 0) (concat Dm) /\
       nth j (nth i D []) 0%Z = cut_label b (nth j (nth i Dm []) 0)).
Proof.
  intros s lv t D e WF H. destruct (p_C06 t s WF) as (Dm&m&ED&LD&LR&_).
  unfold impurity_levels in H. assert (ES : style_num s (standard_impurity t) = Dm).
  { unfold impurity_dist_leaves in ED. apply bind_ok in ED. destruct ED as (m'&_&E). inversion E; auto. }
  rewrite ES in H. unfold discretise in H. apply bind_ok in H. destruct H as (br&HB&H).
  apply bind_ok in H. destruct H as (u&HU&H). apply bind_ok in H. destruct H as (b&HF&H). inversion H; subst D e; clear H.
  exists Dm, m, br, u, b. repeat (split; [solve [auto]|]). split; [apply (final_breaks_shape br u b HF)|].
  split; auto. split; [rewrite map_length; auto|]. split.
  - intros i Hi. rewrite nth_map_in with (d := []) by lia. rewrite map_length. auto.
  - intros i j Hi Hj. split; [apply in_mat_concat; [lia|rewrite LR; auto]|].
    rewrite nth_map_in with (d := []) by lia. rewrite nth_map_in with (d := 0) by (rewrite LR; auto). auto.
Qed.

Lemma levels_spec : forall s lv (t : tree R) D e, wf_tree t -> impurity_levels s lv t = Ok (D, e) ->
  exists Dm m, impurity_dist_leaves s t = Ok (Dm, m) /\
  length D = n_leaves t /\ (forall i, (i < n_leaves t)%nat -> length (nth i D []) = n_leaves t) /\
  (forall i j, (i < n_leaves t)%nat -> (j < n_leaves t)%nat -> (0 <= nth j (nth i D []) 0 <= Z.of_nat e - 2)%Z) /\
  (forall i j i' j', (i < n_leaves t)%nat -> (j < n_leaves t)%nat -> (i' < n_leaves t)%nat -> (j' < n_leaves t)%nat ->
     nth j (nth i Dm []) 0 <= nth j' (nth i' Dm []) 0 -> (nth j (nth i D []) 0 <= nth j' (nth i' D []) 0)%Z) /\
  ((match lv with LArr l => forall x, In x l -> 0 <= x
    | LInt _ => forall i j, (i < n_leaves t)%nat -> (j < n_leaves t)%nat -> 0 <= nth j (nth i Dm []) 0 end) ->
   forall i j, (i < n_leaves t)%nat -> (j < n_leaves t)%nat ->
     (nth j (nth i D []) 0%Z = 0%Z <-> nth j (nth i Dm []) 0 <= 0)).
Proof.
  intros s lv t D e WF H.
  destruct (impurity_levels_inv s lv t D e WF H) as (Dm&m&br&u&b&ED&HB&HU&HF&BO&->&LD&LR&V).
  exists Dm, m. split; auto. split; auto. split; auto. split.
  { intros i j Hi Hj. destruct (V i j Hi Hj) as [_ ->]. apply cut_range; auto. }
  split.
  { intros i j i' j' Hi Hj Hi' Hj' L. destruct (V i j Hi Hj) as [_ ->]. destruct (V i' j' Hi' Hj') as [_ ->]. apply cut_mono; auto. }
  intros NN i j Hi Hj. destruct (V i j Hi Hj) as [I ->]. apply (final_zero br u b (concat Dm)); auto.
  destruct lv as [n|l]; [|inversion HB; subst; auto].
  destruct (p_C06 t s WF) as (Dm'&m'&ED'&LDm&LRm&_). assert (Dm' = Dm) by congruence. subst Dm'.
  apply (quantiles_nonneg n (concat Dm)); auto.
  intros x Hx. destruct (in_concat_mat _ 0 _ Hx) as (i0&j0&Hi0&Hj0&->). rewrite LRm in Hj0 by lia. apply NN; lia.
Qed.

(** impurity does not grow from parent to child: distances are not negative *)
Definition imp_decreasing (t : tree R) : Prop :=
  forall p c, child t p c -> nth c (t_imp t) 0 <= nth p (t_imp t) 0.
Lemma imp_anc : forall (t : tree R) a v, imp_decreasing t -> anc t a v -> nth v (t_imp t) 0 <= nth a (t_imp t) 0.
Proof. intros t a v H A. induction A; [lra|]. specialize (H _ _ H0). lra. Qed.
Lemma imp_dist_nonneg : forall s (t : tree R) Dm m, wf_tree t -> imp_decreasing t -> impurity_dist_leaves s t = Ok (Dm, m) ->
  forall i j, (i < n_leaves t)%nat -> (j < n_leaves t)%nat -> 0 <= nth j (nth i Dm []) 0.
Proof.
  intros s t Dm m WF ID E i j Hi Hj. destruct (p_C06 t s WF) as (Dm'&m'&ED'&_&_&V&_).
  assert (Dm' = Dm) by congruence. subst Dm'.
  destruct (lca_ex t WF (leaf_id t i) (leaf_id t j)) as (a&A); try (apply leaf_id_lt; auto).
  rewrite (V i j a Hi Hj A). destruct A as (A1&A2&_).
  pose proof (imp_anc t _ _ ID A1). pose proof (imp_anc t _ _ ID A2).
  destruct s; [lra|unfold Rmax|unfold Rmin]; destruct (Rle_dec _ _); lra.
Qed.

(** *** Gamma and eta of a given level matrix *)
Section Given.
Variables (t : tree R) (kd : kind) (D : list (list Z)) (e : Z).
Hypothesis WF : wf_tree t.
Hypothesis LD : length D = n_leaves t.
Hypothesis LR : forall i, (i < n_leaves t)%nat -> length (nth i D []) = n_leaves t.
Hypothesis RG : forall i j, (i < n_leaves t)%nat -> (j < n_leaves t)%nat -> (0 <= nth j (nth i D []) 0 <= e)%Z.

Definition lsel (i k j : nat) : bool := Z.eqb (nth j (nth i D []) 0%Z) (Z.of_nat k).

Lemma given_ok : exists G E m, Gamma_eta_of_dist kd false t D (Some e) = Ok (G, E) /\ (Z.of_nat m <= e)%Z /\
  length G = n_gamma kd /\ length E = n_leaves t /\ ncols E = S m /\
  (forall i j, (i < n_leaves t)%nat -> (j < n_leaves t)%nat -> (nth j (nth i D []) 0 <= Z.of_nat m)%Z) /\
  (forall i, (i < n_leaves t)%nat -> length (nth i E []) = S m) /\
  (forall c, (c < n_gamma kd)%nat -> length (nth c G []) = n_leaves t /\
     forall i, (i < n_leaves t)%nat -> length (nth i (nth c G []) []) = S m) /\
  (forall i k, (i < n_leaves t)%nat -> (k <= m)%nat ->
     nth k (nth i E []) 0 = sum_sel (n_leaves t) (lsel i k) (leaf_w t)) /\
  (forall c i k, (c < n_gamma kd)%nat -> (i < n_leaves t)%nat -> (k <= m)%nat ->
     nth k (nth i (nth c G []) []) 0 = sum_sel (n_leaves t) (lsel i k) (leaf_ny t kd c)).
Proof.
  pose proof (n_leaves_pos t WF) as LP.
  assert (NE : concat D <> []).
  { intro E. assert (X : In (nth 0 (nth 0 D []) 0%Z) (concat D)) by (apply in_mat_concat; [lia|rewrite LR; auto]).
    rewrite E in X. destruct X. }
  destruct (zmaximum_ok _ NE) as [dm Hm]. destruct (zminimum_ok _ NE) as [mn Hmn].
  pose proof (zmaximum_spec _ _ Hm) as [M1 M2]. pose proof (zminimum_spec _ _ Hmn) as [_ N2].
  assert (DB : (0 <= dm <= e)%Z).
  { destruct (in_concat_mat _ 0%Z _ M1) as (i&j&Hi&Hj&->). rewrite LR in Hj by lia. apply RG; lia. }
  unfold Gamma_eta_of_dist. rewrite Hm, Hmn. cbn [bind].
  set (KK := Z.to_nat (dm + 1)). assert (KE : KK = S (Z.to_nat dm)) by (unfold KK; lia).
  assert (SL : forall x : list R, length (slice_mat false mn e KK D x) = n_leaves t).
  { intros. unfold slice_mat. rewrite map_length. auto. }
  assert (SR : forall (x : list R) i, (i < n_leaves t)%nat -> length (nth i (slice_mat false mn e KK D x) []) = KK).
  { intros. unfold slice_mat. rewrite nth_map_in with (d := []) by lia. rewrite map_length, seq_length. auto. }
  assert (SV : forall (x : list R) i k f, length x = n_leaves t -> (forall j, (j < n_leaves t)%nat -> nth j x 0 = f j) ->
     (i < n_leaves t)%nat -> (k <= Z.to_nat dm)%nat ->
     nth k (nth i (slice_mat false mn e KK D x) []) 0 = sum_sel (n_leaves t) (lsel i k) f).
  { intros x i k f Lx Vx Hi Hk. unfold slice_mat. rewrite nth_map_in with (d := []) by lia. rewrite nth_map_seq by lia.
    rewrite (map2_as_seq _ _ _ 0%Z 0) by (rewrite LR; auto). rewrite LR by auto.
    rewrite sum_sel_nsum, nsum_filter. apply nsum_ext. intros j Hj. apply in_seq in Hj.
    unfold slice_ind, lsel. cbn [Nat.add]. rewrite Vx by lia.
    destruct (Z.eqb_spec (nth j (nth i D []) 0%Z) (Z.of_nat k)) as [Q|Q].
    - assert (mn <= Z.of_nat k)%Z by (rewrite <- Q; apply N2; apply in_mat_concat; [lia|rewrite LR; lia]).
      destruct (Z.leb_spec mn (Z.of_nat k)); [|lia]. destruct (Z.leb_spec (Z.of_nat k) e); [|lia]. cbn [andb]. rn. lra.
    - rewrite andb_false_r. rn. lra. }
  eexists. eexists. exists (Z.to_nat dm). split; [reflexivity|]. split; [lia|].
  split; [rewrite map_length; apply ny_len; auto|]. split; [auto|]. split.
  { unfold ncols. pose proof (SR (n_leaf_original t) 0%nat LP) as X. rewrite <- KE.
    destruct (slice_mat false mn e KK D (n_leaf_original t)); exact X. }
  split; [intros i j Hi Hj; specialize (M2 _ (in_mat_concat D 0%Z i j ltac:(lia) ltac:(rewrite LR; auto))); lia|].
  split; [intros; rewrite SR; auto|]. split.
  { intros c Hc. rewrite nth_map_in with (d := []) by (rewrite ny_len; auto). split; [auto|]. intros. rewrite SR; auto. }
  split.
  - intros i k Hi Hk. apply SV; auto; [apply n_leaf_len; auto|intros; apply n_leaf_nth; auto].
  - intros c i k Hc Hi Hk. rewrite nth_map_in with (d := []) by (rewrite ny_len; auto).
    apply SV; auto; [apply ny_row_len; auto|intros; apply ny_nth; auto].
Qed.
End Given.

(** the levels smooth uses for a tree of the forest *)
Definition lvl (s : dstyle) (arr : list R) (t : tree R) (i j : nat) : Z :=
  match impurity_levels s (LArr arr) t with Ok (D, _) => nth j (nth i D []) 0%Z | Err _ => (-1)%Z end.

Lemma imp_padded : forall kd s arr t D e K, wf_tree t -> impurity_levels s (LArr arr) t = Ok (D, e) -> (e <= S K)%nat ->
  padded kd false K (create_Gamma_eta_tree_imp kd s arr) (fun t i k j => Z.eqb (lvl s arr t i j) (Z.of_nat k)) t.
Proof.
  intros kd s arr t D e K WF HI HK.
  destruct (levels_spec s _ t D e WF HI) as (Dm&m0&_&LD&LR&RG&_&_).
  pose proof (n_leaves_pos t WF) as LP.
  assert (E2 : (2 <= e)%nat) by (specialize (RG 0%nat 0%nat LP LP); lia).
  destruct (given_ok t kd D (Z.of_nat e) WF LD LR) as (G&E&m&C&_&LG&LE&NC&MX&RE&RGG&VE&VG).
  { intros i j Hi Hj. specialize (RG i j Hi Hj). lia. }
  assert (ML : (S m <= K)%nat).
  { (* m is attained *)
    assert (X : (Z.of_nat m <= Z.of_nat e - 2)%Z); [|lia].
    unfold Gamma_eta_of_dist in C. apply bind_ok in C. destruct C as (dm&Hm&C). apply bind_ok in C. destruct C as (dn&_&C).
    inversion C; subst G E. destruct (zmaximum_spec _ _ Hm) as [M1 _].
    destruct (in_concat_mat _ 0%Z _ M1) as (i&j&Hi&Hj&ED). rewrite LR in Hj by lia. rewrite LD in Hi.
    specialize (RG i j Hi Hj). rewrite <- ED in RG.
    specialize (RE 0%nat LP). unfold slice_mat in RE. rewrite nth_map_in with (d := []) in RE by lia.
    rewrite map_length, seq_length in RE. lia. }
  exists G, E. split; [unfold create_Gamma_eta_tree_imp; rewrite HI; exact C|].
  split; [apply Nat.ltb_ge; lia|]. split; auto.
  assert (LV : forall i k j, Z.eqb (lvl s arr t i j) (Z.of_nat k) = lsel D i k j).
  { intros. unfold lvl, lsel. rewrite HI. auto. }
  assert (Sum : forall i k f, (i < n_leaves t)%nat ->
    (if Nat.leb k m then sum_sel (n_leaves t) (lsel D i k) f else 0)
    = sum_sel (n_leaves t) (fun j => Z.eqb (lvl s arr t i j) (Z.of_nat k)) f).
  { intros i k f Hi. destruct (Nat.leb_spec k m).
    - apply sum_sel_ext; auto.
    - rewrite sum_sel_nsum, nsum_filter. symmetry. apply nsum_zero. intros j Hj. apply in_seq in Hj.
      rewrite LV. unfold lsel. specialize (MX i j Hi ltac:(lia)).
      destruct (Z.eqb_spec (nth j (nth i D []) 0%Z) (Z.of_nat k)); auto. lia. }
  unfold tree_rows_ok.
  split; [rewrite map_length; auto|]. split; [rewrite map_length; auto|].
  split.
  { intros. rewrite nth_map_in with (d := []) by lia. apply pad_row_length. rewrite RE by auto. lia. }
  split.
  { intros c Hc. rewrite nth_map_in with (d := []) by lia. rewrite map_length.
    destruct (RGG c Hc) as [R1 R2]. split; auto. intros i Hi.
    rewrite nth_map_in with (d := []) by lia. apply pad_row_length. rewrite R2 by auto. lia. }
  split.
  - intros i k Hi Hk. rewrite nth_map_in with (d := []) by lia.
    rewrite (pad_row_nth false K _ k m) by auto. rewrite <- (Sum i k) by auto.
    destruct (Nat.leb_spec k m); auto.
  - intros c i k Hc Hi Hk. rewrite nth_map_in with (d := []) by lia.
    destruct (RGG c Hc) as [R1 R2].
    rewrite nth_map_in with (d := []) by lia.
    rewrite (pad_row_nth false K _ k m) by auto. rewrite <- (Sum i k) by auto.
    destruct (Nat.leb_spec k m); auto.
Qed.

Lemma in_combine_seq : forall {A} (l : list A) a q x, nth_error l q = Some x -> In ((a + q)%nat, x) (combine (seq a (length l)) l).
Proof.
  induction l; intros a' q x H; [destruct q; discriminate|]. cbn [length seq combine]. destruct q.
  - inversion H; subst. left. f_equal. lia.
  - right. replace (a' + S q)%nat with (S a' + q)%nat by lia. apply IHl. auto.
Qed.
Lemma stack_inv : forall kd pa K per ts G E Ti, stack_forest kd pa K per ts = Ok (G, E, Ti) ->
  forall t : tree R, In t ts -> exists x, per t = Ok x.
Proof.
  intros kd pa K per ts G E Ti H t Ht.
  assert (X : forall l acc r, foldM (add_tree pa K per) l acc = Ok r -> forall q t, In (q, t) l -> exists x, per t = Ok x).
  { induction l as [|[q0 t0] l IH]; intros acc r HF q t' HI; [destruct HI|]. cbn [foldM] in HF.
    apply bind_ok in HF. destruct HF as (acc1&H1&H2). destruct HI as [HI|HI]; [|eauto].
    inversion HI; subst. unfold add_tree in H1. destruct acc as [[G0 E0] T0]. cbn [snd] in H1.
    apply bind_ok in H1. destruct H1 as (x&Hx&_). eauto. }
  destruct (In_nth_error _ _ Ht) as (q&Nq). unfold stack_forest in H. apply (X _ _ _ H q t).
  apply (in_combine_seq ts 0 q t Nq).
Qed.

Lemma imp_forest_inv : forall kd s lv ts G E Ti, Forall (@wf_tree R) ts ->
  create_Gamma_eta_forest_imp kd s lv ts = Ok (G, E, Ti) ->
  exists arr t0 D0 e, hd_error ts = Some t0 /\
    (match lv with LInt n => quantiles_distance_trees s (firstn 5 ts) n | LArr l => Ok l end) = Ok arr /\
    impurity_levels s (LArr arr) t0 = Ok (D0, e) /\
    (forall t, In t ts -> exists D e', impurity_levels s (LArr arr) t = Ok (D, e') /\ (e' <= S e)%nat) /\
    length G = n_gamma kd /\ length E = offset ts (length ts) /\ length Ti = length E /\
    (forall c, (c < n_gamma kd)%nat -> length (nth c G []) = length E) /\
    forall q t, nth_error ts q = Some t -> forall i, (i < n_leaves t)%nat ->
    (offset ts q + i < length E)%nat /\
    nth (offset ts q + i) Ti 0%nat = q /\
    length (nth (offset ts q + i) E []) = e /\
    (forall k, (k < e)%nat ->
      nth k (nth (offset ts q + i) E []) 0 = sum_sel (n_leaves t) (fun j => Z.eqb (lvl s arr t i j) (Z.of_nat k)) (leaf_w t)) /\
    (forall c, (c < n_gamma kd)%nat -> length (nth (offset ts q + i) (nth c G []) []) = e /\
     forall k, (k < e)%nat -> nth k (nth (offset ts q + i) (nth c G []) []) 0
                         = sum_sel (n_leaves t) (fun j => Z.eqb (lvl s arr t i j) (Z.of_nat k)) (leaf_ny t kd c)).
Proof.
  intros kd s lv ts G E Ti W H. unfold create_Gamma_eta_forest_imp in H.
  apply bind_ok in H. destruct H as (arr&HA&H). destruct ts as [|t0 ts0]; [discriminate|]. set (ts := t0 :: ts0) in *.
  apply bind_ok in H. destruct H as ([D0 e]&H0&H).
  assert (EL : forall t D e, In t ts -> impurity_levels s (LArr arr) t = Ok (D, e) ->
     e = length (open_breaks arr) \/ e = S (length (open_breaks arr))).
  { intros t D e' Ht HI. rewrite Forall_forall in W.
    destruct (impurity_levels_inv s _ t D e' (W t Ht) HI) as (Dm&m&br&u&b&_&HB&_&HF&_&->&_).
    inversion HB; subst br. apply (final_breaks_shape _ _ _ HF). }
  assert (AL : forall t, In t ts -> exists D e', impurity_levels s (LArr arr) t = Ok (D, e') /\ (e' <= S e)%nat).
  { intros t Ht. destruct (stack_inv _ _ _ _ _ _ _ _ H t Ht) as (x&Hx). unfold create_Gamma_eta_tree_imp in Hx.
    apply bind_ok in Hx. destruct Hx as ([D e']&HI&_). exists D, e'. split; auto.
    pose proof (EL t D e' Ht HI). pose proof (EL t0 D0 e (or_introl eq_refl) H0). lia. }
  exists arr, t0, D0, e. split; auto. split; auto. split; auto. split; auto.
  destruct (stack_forest_ok kd false e (create_Gamma_eta_tree_imp kd s arr) (fun t i k j => Z.eqb (lvl s arr t i j) (Z.of_nat k)) ts)
    as ([[G' E'] Ti']&A&B).
  { apply Forall_forall. intros t Ht. destruct (AL t Ht) as (D&e'&HI&HE). rewrite Forall_forall in W.
    apply (imp_padded kd s arr t D e' e); auto. }
  assert (G' = G /\ E' = E /\ Ti' = Ti) as (->&->&->) by (rewrite A in H; inversion H; auto).
  apply (forest_inv_rows kd _ _ ts G E Ti B).
Qed.

(** the widths never disagree: the matrices exist as soon as every tree can be discretised *)
Lemma imp_forest_ok : forall kd s arr ts, ts <> [] -> Forall (@wf_tree R) ts ->
  (forall t, In t ts -> exists D e, impurity_levels s (LArr arr) t = Ok (D, e)) ->
  exists r, create_Gamma_eta_forest_imp kd s (LArr arr) ts = Ok r.
Proof.
  intros kd s arr ts NE W AL. unfold create_Gamma_eta_forest_imp. cbn [bind].
  destruct ts as [|t0 ts0]; [congruence|]. set (ts := t0 :: ts0) in *.
  destruct (AL t0 (or_introl eq_refl)) as (D0&e&H0). rewrite H0. cbn [bind].
  destruct (stack_forest_ok kd false e (create_Gamma_eta_tree_imp kd s arr) (fun t i k j => Z.eqb (lvl s arr t i j) (Z.of_nat k)) ts)
    as (r&A&_); [|eauto].
  apply Forall_forall. intros t Ht. destruct (AL t Ht) as (D&e'&HI). rewrite Forall_forall in W.
  apply (imp_padded kd s arr t D e' e); auto.
  destruct (impurity_levels_inv s _ t D e' (W t Ht) HI) as (Dm&m&br&u&b&_&HB&_&HF&_&->&_).
  destruct (impurity_levels_inv s _ t0 D0 e (W t0 (or_introl eq_refl)) H0) as (Dm0&m0&br0&u0&b0&_&HB0&_&HF0&_&->&_).
  inversion HB; subst br. inversion HB0; subst br0.
  destruct (final_breaks_shape _ _ _ HF) as (_&_&X). destruct (final_breaks_shape _ _ _ HF0) as (_&_&X0). lia.
Qed.
