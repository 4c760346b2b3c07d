(** L_Level3: the kernel of smooth_level.py counts the common nodes of decision paths. *)
From Verif Require Import Base TreeSpec Spec M_Tree M_Gamma M_Levels M_Smooth M_Level SpecTune SpecLevel.
From Verif Require Import L_Base L_Tree L_TreeModel L_TreeModel2 L_Gamma L_Gamma2 L_Route L_Level L_Level2.
From Coq Require Import Reals Lra Lia.
Local Open Scope R_scope.

Lemma sumn_zero : forall (f : nat -> nat) l, (forall d, In d l -> f d = 0%nat) -> sumn (map f l) = 0%nat.
Proof. intros f. unfold sumn. induction l as [|d l IH]; intros H; auto. cbn. rewrite (H d) by (left; auto). apply IH. intros; apply H; right; auto. Qed.

(** *** reached nodes *)
Section Reach.
Variable t : tree R.
Hypothesis WF : wf_tree t.
Variable x : list R.

Lemma reach_parent : forall p c, child t p c -> reaches t x c -> reaches t x p.
Proof.
  intros p c C H. inversion H as [E|p' c' Hp L G E|p' c' Hp L G E]; subst.
  - exfalso. pose proof (child_lt t WF p 0 C). lia.
  - assert (p' = p) as <- by (eapply parent_unique; eauto; left; auto). auto.
  - assert (p' = p) as <- by (eapply parent_unique; eauto; right; auto). auto.
Qed.
Lemma reach_anc : forall a v, anc t a v -> reaches t x v -> reaches t x a.
Proof. intros a v A. induction A as [v|a p v A IH C]; auto. intros H. apply IH. eapply reach_parent; eauto. Qed.
Lemma reach_fun : forall p c c', child t p c -> child t p c' -> reaches t x c -> reaches t x c' -> c = c'.
Proof.
  assert (K : forall p c, child t p c -> reaches t x c ->
    (lc t p = Z.of_nat c /\ nleb (nth (nth p (t_feature t) 0%nat) x n0) (nth p (t_thresh t) n0) = true) \/
    (rc t p = Z.of_nat c /\ nleb (nth (nth p (t_feature t) 0%nat) x n0) (nth p (t_thresh t) n0) = false)).
  { intros p c C H. inversion H as [E|p' c' Hp L G E|p' c' Hp L G E]; subst.
    - exfalso. pose proof (child_lt t WF p 0 C). lia.
    - assert (p' = p) as -> by (eapply parent_unique; eauto; left; auto). auto.
    - assert (p' = p) as -> by (eapply parent_unique; eauto; right; auto). auto. }
  intros p c c' C C' H H'. destruct (K p c C H) as [[A B]|[A B]]; destruct (K p c' C' H') as [[A' B']|[A' B']]; try congruence; lia.
Qed.
Lemma reach_depth : forall d a b, depth_of t a d -> depth_of t b d -> reaches t x a -> reaches t x b -> a = b.
Proof.
  induction d as [|d IH]; intros a b Da Db Ha Hb.
  - apply depth_zero in Da. apply depth_zero in Db. congruence.
  - inversion Da as [|p c d' Dp C]; subst. inversion Db as [|p' c' d' Dp' C']; subst.
    assert (p' = p) as -> by (apply IH; auto; eapply reach_parent; eauto). eapply reach_fun; eauto.
Qed.
Lemma reach_iff : forall i a, (i < n_leaves t)%nat -> reaches t x (leaf_id t i) -> (reaches t x a <-> anc t a (leaf_id t i)).
Proof.
  intros i a Hi H. split; [|intros A; eapply reach_anc; eauto]. intros Ha.
  pose proof (reaches_lt t WF x a Ha) as La. pose proof (reaches_lt t WF x _ H) as Ll.
  destruct (depth_ex t WF a La) as (da&Da). destruct (depth_ex t WF _ Ll) as (dl&Dl).
  destruct (Nat.le_gt_cases da dl) as [Q|Q].
  - destruct (anc_at_depth t WF _ _ Dl da Q) as (b&B1&B2). assert (a = b) as -> by (eapply reach_depth; eauto; eapply reach_anc; eauto). auto.
  - destruct (anc_at_depth t WF _ _ Da dl) as (b&B1&B2); [lia|]. assert (leaf_id t i = b) as <- by (eapply reach_depth; eauto; eapply reach_anc; eauto).
    exfalso. assert (leaf_id t i = a) as <- by (apply (leaf_anc_eq t WF); auto; apply leaf_id_leaf; auto). assert (da = dl) by (eapply depth_unique; eauto). lia.
Qed.
End Reach.

(** *** the entries of the U matrices *)
Definition onp (t : tree R) (x : list R) (v : nat) : bool := existsb (Nat.eqb v) (path_nodes (size t) t x 0).
Lemma onp_iff : forall t x v, wf_tree t -> (onp t x v = true <-> reaches t x v).
Proof.
  intros t x v WF. unfold onp. rewrite existsb_exists. rewrite <- (path_reaches t WF x v). split.
  - intros (u&Hu&E). apply Nat.eqb_eq in E. congruence.
  - intros H. exists v. split; auto. apply Nat.eqb_refl.
Qed.
Definition shn (t : tree R) (l : nat) (x y : list R) : nat :=
  if existsb (fun a => ((nth a (depth_per_node t) 0 =? l)%nat && onp t x a && onp t y a)%bool) (seq 0 (size t)) then 1%nat else 0%nat.
Lemma shn_share : forall t l x y, wf_tree t -> shn t l x y = 1%nat <-> share t x y l.
Proof.
  intros t l x y WF. unfold shn, share. destruct (existsb _ _) eqn:E.
  - split; auto. intros _. apply existsb_exists in E. destruct E as (a&Ha&B). apply in_seq in Ha. apply andb_prop in B. destruct B as [B B3]. apply andb_prop in B. destruct B as [B1 B2].
    exists a. apply Nat.eqb_eq in B1. split; [apply depth_per_node_iff; auto; lia|]. split; apply onp_iff; auto.
  - split; [discriminate|]. intros (a&D&A&B). exfalso. apply Bool.not_true_iff_false in E. apply E. apply existsb_exists. exists a.
    pose proof (depth_lt t WF _ _ D) as L. split; [apply in_seq; lia|]. apply (proj2 (onp_iff t x a WF)) in A. apply (proj2 (onp_iff t y a WF)) in B. rewrite A, B.
    replace (nth a (depth_per_node t) 0%nat =? l)%nat with true; auto. symmetry. apply Nat.eqb_eq. apply depth_per_node_iff; auto.
Qed.
Lemma shn_indicates : forall t l x y, wf_tree t -> indicates (share t x y l) (INR (shn t l x y)).
Proof.
  intros t l x y WF. split; intros H.
  - apply shn_share in H; auto. rewrite H. reflexivity.
  - unfold shn in *. destruct (existsb _ _) eqn:E; auto. exfalso. apply H. apply shn_share; auto. unfold shn. rewrite E. auto.
Qed.
Lemma dotn_masked : forall (f : nat -> nat) (r s : nat -> nat) n k b,
  dotn (mask_select (map (fun a => (k =? f a)%nat) (seq b n)) (map r (seq b n))) (mask_select (map (fun a => (k =? f a)%nat) (seq b n)) (map s (seq b n)))
  = sumn (map (fun a => if (k =? f a)%nat then (r a * s a)%nat else 0%nat) (seq b n)).
Proof.
  intros f r s. unfold dotn, sumn. induction n as [|n IH]; intros k b; cbn [seq map mask_select map2 fold_right]; auto.
  destruct (k =? f b)%nat; cbn [map2 fold_right]; rewrite IH; auto.
Qed.
Lemma dot_shn : forall t l x y, wf_tree t ->
  dotn (mask_select (map (Nat.eqb l) (depth_per_node t)) (path_rown t x)) (mask_select (map (Nat.eqb l) (depth_per_node t)) (path_rown t y)) = shn t l x y.
Proof.
  intros t l x y WF. pose proof (depth_per_node_length t WF) as LD.
  rewrite (list_as_seq (depth_per_node t) 0%nat), LD, map_map. unfold path_rown. rewrite (dotn_masked (fun a => nth a (depth_per_node t) 0%nat)).
  destruct (Nat.eq_dec (shn t l x y) 1) as [E|E].
  - rewrite E. apply shn_share in E; auto. destruct E as (a&D&A&B). pose proof (depth_lt t WF _ _ D) as L.
    rewrite (sumn_one _ a); auto.
    + apply depth_per_node_iff in D; auto. rewrite D, Nat.eqb_refl. apply (proj2 (onp_iff t x a WF)) in A. apply (proj2 (onp_iff t y a WF)) in B.
      unfold onp in A, B. rewrite A, B. reflexivity.
    + intros d Hd N. destruct (Nat.eqb_spec l (nth d (depth_per_node t) 0%nat)) as [Q|]; auto.
      destruct (existsb (Nat.eqb d) (path_nodes (size t) t x 0)) eqn:P1; auto. exfalso. apply N.
      apply (reach_depth t WF x l); auto; [apply depth_per_node_iff; auto|apply onp_iff; auto].
  - assert (Z : shn t l x y = 0%nat) by (unfold shn in *; destruct (existsb _ _); auto; congruence). rewrite Z.
    apply sumn_zero. intros a Ha. apply in_seq in Ha. destruct (Nat.eqb_spec l (nth a (depth_per_node t) 0%nat)) as [Q|]; auto.
    destruct (existsb (Nat.eqb a) (path_nodes (size t) t x 0)) eqn:P1; auto. destruct (existsb (Nat.eqb a) (path_nodes (size t) t y 0)) eqn:P2; auto.
    exfalso. apply E. apply shn_share; auto. exists a. split; [apply depth_per_node_iff; auto; lia|]. split; apply onp_iff; auto.
Qed.

Definition Mx {A B C} (f : A -> B -> C) (X : list A) (Y : list B) : list (list C) := map (fun x => map (f x) Y) X.

Definition Vdict (t : tree R) (X : mat R) : dict (list (list nat)) :=
  map (fun k => (k, map (fun r => mask_select (map (Nat.eqb k) (depth_per_node t)) r) (map (path_rown t) X)))
      (filter (fun k => existsb (Nat.eqb k) (depth_per_node t)) (seq 0 (S (list_maxn (depth_per_node t))))).
Definition depths_of (dd : option (list (list nat))) (ts : list (tree R)) : Prop := dd = None \/ dd = Some (fst (calc_depth_for_forest ts)).
Lemma mapM_val : forall {A B} (f : A -> result B) (g : A -> B) l, (forall a, In a l -> f a = Ok (g a)) -> mapM f l = Ok (map g l).
Proof. intros A B f g. induction l as [|a l IH]; intros H; cbn [mapM map]; auto. rewrite (H a) by (left; auto). cbn [bind]. rewrite IH by (intros; apply H; right; auto). reflexivity. Qed.
Lemma map_snd_combine_seq : forall {A B} (g : A -> B) l b, map (fun it => g (snd it)) (combine (seq b (length l)) l) = map g l.
Proof. intros A B g. induction l as [|a l IH]; intros b; cbn; auto. rewrite IH. auto. Qed.
Lemma in_combine_seq : forall {A} (l : list A) b it, In it (combine (seq b (length l)) l) -> (b <= fst it)%nat /\ nth_error l (fst it - b) = Some (snd it).
Proof.
  intros A. induction l as [|a l IH]; intros b it H; cbn in H; [destruct H|]. destruct H as [<-|H].
  - cbn. rewrite Nat.sub_diag. split; auto.
  - apply IH in H. destruct H as [L E]. split; [lia|]. replace (fst it - b)%nat with (S (fst it - S b)) by lia. exact E.
Qed.
Lemma make_Vt_val : forall ts X dd, Forall wf_tree ts -> X <> [] -> depths_of dd ts -> make_Vt_mat ts X dd = Ok (map (fun t => Vdict t X) ts).
Proof.
  intros ts X dd WF NX DD. unfold make_Vt_mat. rewrite (mapM_val _ (fun it => Vdict (snd it) X)); [rewrite (map_snd_combine_seq (fun t => Vdict t X)); auto|].
  intros it H. apply in_combine_seq in H. destruct H as [_ E]. rewrite Nat.sub_0_r in E.
  assert (W : wf_tree (snd it)) by (eapply Forall_forall; eauto; eapply nth_error_In; eauto).
  assert (K : forall o, o = None \/ o = Some (depth_per_node (snd it)) -> make_Vt_mat_tree (snd it) X o = Ok (Vdict (snd it) X)).
  { intros o [->| ->]; unfold make_Vt_mat_tree; destruct X; try congruence; rewrite depth_per_node_length by auto; rewrite Nat.eqb_refl; cbn [negb]; reflexivity. }
  destruct DD as [->| ->]; [apply K; auto|]. unfold calc_depth_for_forest. cbn [fst]. rewrite nth_error_map, E. cbn [option_map]. apply K; auto.
Qed.
Lemma lookup_map : forall {A} (g : nat -> A) (p : nat -> bool) b n k,
  lookup k (map (fun j => (j, g j)) (filter p (seq b n))) = if ((b <=? k)%nat && (k <? b + n)%nat && p k)%bool then Some (g k) else None.
Proof.
  intros A g p b n k. unfold lookup. revert b. induction n as [|n IH]; intros b; cbn [seq filter map].
  - destruct (Nat.leb_spec b k); destruct (Nat.ltb_spec k (b + 0)); cbn; auto; lia.
  - destruct (p b) eqn:P; cbn [map filter fst].
    + destruct (Nat.eqb_spec b k) as [->|N].
      * cbn [snd]. destruct (Nat.leb_spec k k); [|lia]. destruct (Nat.ltb_spec k (k + S n)); [|lia]. rewrite P. reflexivity.
      * rewrite IH. destruct (Nat.leb_spec b k); destruct (Nat.leb_spec (S b) k); destruct (Nat.ltb_spec k (b + S n)); destruct (Nat.ltb_spec k (S b + n)); cbn; auto; lia.
    + rewrite IH. destruct (Nat.eq_dec b k) as [->|N].
      * rewrite P, !Bool.andb_false_r. auto.
      * destruct (Nat.leb_spec b k); destruct (Nat.leb_spec (S b) k); destruct (Nat.ltb_spec k (b + S n)); destruct (Nat.ltb_spec k (S b + n)); cbn; auto; lia.
Qed.
Lemma lookup_V : forall t X l, lookup l (Vdict t X) =
  if existsb (Nat.eqb l) (depth_per_node t) then Some (map (fun x => mask_select (map (Nat.eqb l) (depth_per_node t)) (path_rown t x)) X) else None.
Proof.
  intros t X l. unfold Vdict. rewrite (lookup_map (fun k => map (fun r => mask_select (map (Nat.eqb k) (depth_per_node t)) r) (map (path_rown t) X))).
  destruct (existsb (Nat.eqb l) (depth_per_node t)) eqn:E; [|rewrite Bool.andb_false_r; auto].
  apply existsb_exists in E. destruct E as (a&Ha&Q). apply Nat.eqb_eq in Q. subst a. apply list_maxn_ge in Ha.
  destruct (Nat.leb_spec 0 l); [|lia]. destruct (Nat.ltb_spec l (0 + S (list_maxn (depth_per_node t)))); [|lia]. cbn [andb]. rewrite map_map. reflexivity.
Qed.
Lemma root_depth0 : forall t : tree R, wf_tree t -> existsb (Nat.eqb 0) (depth_per_node t) = true.
Proof.
  intros t WF. apply existsb_exists. exists 0%nat. split; auto. pose proof (wf_pos t WF) as P.
  assert (E : nth 0 (depth_per_node t) 1%nat = 0%nat) by (rewrite (nth_indep _ 1%nat 0%nat) by (rewrite depth_per_node_length; auto); apply depth_per_node_iff; auto; constructor).
  rewrite <- E at 1. apply nth_In. rewrite depth_per_node_length; auto.
Qed.
Lemma no_depth_shn : forall t l x y, wf_tree t -> existsb (Nat.eqb l) (depth_per_node t) = false -> shn t l x y = 0%nat.
Proof.
  intros t l x y WF E. unfold shn. destruct (existsb _ (seq 0 (size t))) eqn:Q; auto. apply existsb_exists in Q. destruct Q as (a&Ha&B). apply in_seq in Ha.
  apply andb_prop in B. destruct B as [B _]. apply andb_prop in B. destruct B as [B _]. apply Nat.eqb_eq in B.
  apply Bool.not_true_iff_false in E. exfalso. apply E. apply existsb_exists. exists l. split; [|apply Nat.eqb_refl]. rewrite <- B. apply nth_In. rewrite depth_per_node_length; auto. lia.
Qed.
Lemma combine_map_map : forall {A B C} (f : A -> B) (g : A -> C) l, combine (map f l) (map g l) = map (fun a => (f a, g a)) l.
Proof. intros A B C f g. induction l; cbn; congruence. Qed.
Lemma mapM_map : forall {A B C} (f : B -> result C) (g : A -> B) l, mapM f (map g l) = mapM (fun a => f (g a)) l.
Proof. intros A B C f g. induction l as [|a l IH]; cbn [mapM map]; auto. rewrite IH. auto. Qed.
Lemma repeat_Mx : forall {A B} (c : nat) (X : list A) (Y : list B), repeat (repeat c (length Y)) (length X) = Mx (fun _ _ => c) X Y.
Proof. intros A B c X Y. unfold Mx. assert (K : forall {D E} (d : E) (l : list D), repeat d (length l) = map (fun _ => d) l) by (intros D E d; induction l; cbn; congruence). rewrite K. apply map_ext. intros _. apply K. Qed.
Lemma Ut_val : forall ts Xn X m, Forall wf_tree ts -> ts <> [] ->
  make_Ut_prime (map (fun t => Vdict t Xn) ts) (map (fun t => Vdict t X) ts) m =
  Ok (map (fun l => (l, map (fun t => Mx (shn t l) Xn X) ts)) (seq 0 (match m with Some m => m | None => length ts - 1 end))).
Proof.
  intros ts Xn X m WF NE. unfold make_Ut_prime. rewrite !map_length, Nat.eqb_refl. cbn [negb]. destruct ts as [|t0 ts']; [congruence|]. set (ts := t0 :: ts') in *.
  assert (W0 : wf_tree t0) by (eapply Forall_forall; eauto; left; auto).
  change (map (fun t => Vdict t X) ts) with (Vdict t0 X :: map (fun t => Vdict t X) ts') at 1. cbv iota beta.
  change (map (fun t => Vdict t Xn) ts) with (Vdict t0 Xn :: map (fun t => Vdict t Xn) ts') at 1. cbv iota beta.
  rewrite !lookup_V, root_depth0 by auto. cbv iota beta. rewrite !map_length.
  apply mapM_val. intros l _. rewrite combine_map_map, mapM_map.
  rewrite (mapM_val _ (fun t => Mx (shn t l) Xn X)); [reflexivity|]. intros t Ht. assert (W : wf_tree t) by (eapply Forall_forall; eauto).
  cbn [fst snd]. rewrite !lookup_V. destruct (existsb (Nat.eqb l) (depth_per_node t)) eqn:E.
  - unfold dot_t. f_equal. unfold Mx. rewrite map_map. apply map_ext. intros x. rewrite map_map. apply map_ext. intros y. apply dot_shn; auto.
  - rewrite repeat_Mx. f_equal. unfold Mx. apply map_ext. intros x. apply map_ext. intros y. symmetry. apply no_depth_shn; auto.
Qed.
