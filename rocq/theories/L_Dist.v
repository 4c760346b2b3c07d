(** L_Dist: consequences for the distance matrices, and example trees. *)
From Verif Require Import Base TreeSpec M_Tree L_Base L_Tree L_TreeModel L_TreeModel2.
From Coq Require Import Reals Lra QArith.
Local Open Scope nat_scope.

(** ** Example trees *)

(** the 7-node comb used throughout /repo/smooth_rf/tests *)
Definition comb7_left : list Z := [2;-1;4;-1;6;-1;-1]%Z.
Definition comb7_right : list Z := [1;-1;3;-1;5;-1;-1]%Z.
Definition comb7 {T} {NT : Num T} (value : list (list T)) (w imp : list T) : tree T :=
  mkTree comb7_left comb7_right (repeat 0 7) (repeat n0 7) value w imp.

Definition q7 (l : list Z) : list Q := map inject_Z l.

(** a 13-node tree with a shallow leaf next to a deep subtree *)
Definition deep13 {T} {NT : Num T} : tree T :=
  mkTree [1;-1;3;5;7;9;-1;11;-1;-1;-1;-1;-1]%Z [2;-1;4;6;8;10;-1;12;-1;-1;-1;-1;-1]%Z
         (repeat 0 13) (repeat n0 13) (repeat [n0] 13) (repeat n1 13) (repeat n0 13).

Lemma deep13_wf : forall {T} {NT : Num T}, wf_tree (@deep13 T NT).
Proof. intros. reflexivity. Qed.

Lemma comb7_wf : forall {T} {NT : Num T} value w imp, length value = 7 -> length w = 7 -> length imp = 7 ->
  wf_tree (@comb7 T NT value w imp).
Proof.
  intros T NT value w imp H1 H2 H3. unfold wf_tree, wf_treeb, comb7. cbn [t_left t_right t_value t_weight t_imp t_feature t_thresh size].
  unfold size. cbn [t_left]. rewrite H1, H2, H3. reflexivity.
Qed.

Section S.
Context {T : Type} {NT : Num T}.
Implicit Type t : tree T.

Definition ddist t s i j : Z := nth j (nth i (depth_dist_leaves s t) []) 0%Z.

Lemma leaf_dist_conv : forall t s i j, wf_tree t -> i < n_leaves t -> j < n_leaves t ->
  exists d, ddist t s i j = Z.of_nat d /\ leaf_dist t s (leaf_id t i) (leaf_id t j) d.
Proof.
  intros t s i j WF Hi Hj. destruct (leaf_dist_ex t WF s (leaf_id t i) (leaf_id t j)) as [d D];
    auto using leaf_id_lt. exists d. split; auto. apply depth_dist_correct; auto.
Qed.

Lemma ddist_diag : forall t s i, wf_tree t -> i < n_leaves t -> ddist t s i i = 0%Z.
Proof.
  intros. unfold ddist. rewrite (depth_dist_correct t H s i i 0); auto.
  apply leaf_dist_refl; auto using leaf_id_lt.
Qed.

Lemma ddist_off : forall t s i j, wf_tree t -> i < n_leaves t -> j < n_leaves t -> i <> j ->
  (1 <= ddist t s i j)%Z.
Proof.
  intros t s i j WF Hi Hj NE. destruct (leaf_dist_conv t s i j WF Hi Hj) as (d&E&D).
  rewrite E. destruct d; [|lia]. exfalso. apply NE. apply (leaf_id_inj t); auto.
  eapply (leaf_dist_zero t WF); eauto using leaf_id_leaf.
Qed.

Lemma ddist_sym : forall t s i j, wf_tree t -> i < n_leaves t -> j < n_leaves t -> s <> Standard ->
  ddist t s i j = ddist t s j i.
Proof.
  intros t s i j WF Hi Hj NS. unfold ddist. rewrite !depth_dist_entry by auto. destruct s; try congruence; lia.
Qed.

Lemma ddist_triangle : forall t s i j k, wf_tree t -> i < n_leaves t -> j < n_leaves t -> k < n_leaves t ->
  s <> MinStyle -> (ddist t s i k <= ddist t s i j + ddist t s j k)%Z.
Proof.
  intros t s i j k WF Hi Hj Hk NS.
  destruct (leaf_dist_conv t s i k WF Hi Hk) as (a&Ea&(a1&a2&A1&A2&A3)).
  destruct (leaf_dist_conv t s i j WF Hi Hj) as (b&Eb&(b1&b2&B1&B2&B3)).
  destruct (leaf_dist_conv t s j k WF Hj Hk) as (c&Ec&(c1&c2&C1&C2&C3)).
  rewrite Ea, Eb, Ec.
  assert (a1 <= b1 + c1) by (eapply (climb_triangle t WF (leaf_id t i) (leaf_id t j) (leaf_id t k)); eauto using leaf_id_lt).
  assert (a2 <= c2 + b2) by (eapply (climb_triangle t WF (leaf_id t k) (leaf_id t j) (leaf_id t i)); eauto using leaf_id_lt).
  destruct s; try congruence; lia.
Qed.

Lemma ddist_le_depth : forall t s i j d1 d2, wf_tree t -> i < n_leaves t -> j < n_leaves t ->
  depth_of t (leaf_id t i) d1 -> depth_of t (leaf_id t j) d2 -> (ddist t s i j <= Z.of_nat (Nat.max d1 d2))%Z.
Proof.
  intros t s i j d1 d2 WF Hi Hj D1 D2.
  destruct (leaf_dist_conv t s i j WF Hi Hj) as (a&Ea&(a1&a2&A1&A2&A3)). rewrite Ea.
  destruct A1 as (x&dx&dy&_&X1&_&->). destruct A2 as (y&ex&ey&_&Y1&_&->).
  rewrite (depth_unique t WF _ _ _ X1 D1) in *. rewrite (depth_unique t WF _ _ _ Y1 D2) in *.
  destruct s; lia.
Qed.

Lemma calc_depth_upper : forall ts, Forall (@wf_tree T) ts ->
  forall t v d, In t ts -> depth_of t v d -> d <= snd (calc_depth_for_forest ts).
Proof.
  intros ts W. unfold calc_depth_for_forest. simpl.
  assert (G : forall l m, m <= fold_left (fun m t => Nat.max m (list_maxn (depth_per_node t))) l m).
  { induction l; simpl; intros; auto. etransitivity; [|apply IHl]. lia. }
  assert (H : forall l m t, In t l -> list_maxn (depth_per_node t) <= fold_left (fun m t => Nat.max m (list_maxn (depth_per_node t))) l m).
  { induction l; simpl; intros m t I; [tauto|]. destruct I; [subst|auto].
    etransitivity; [|apply G]. lia. }
  intros t v d I D. etransitivity; [|apply H; eauto].
  rewrite Forall_forall in W. apply (depth_le_max t (W t I) v d D).
Qed.

Lemma calc_depth_attained : forall ts, Forall (@wf_tree T) ts -> ts <> [] ->
  exists t v, In t ts /\ depth_of t v (snd (calc_depth_for_forest ts)).
Proof.
  intros ts W NE. unfold calc_depth_for_forest. simpl.
  set (f := fun m (t : tree T) => Nat.max m (list_maxn (depth_per_node t))).
  assert (Hroot : forall t, wf_tree t -> exists v, depth_of t v (list_maxn (depth_per_node t))).
  { intros t Wt. pose proof (depth_per_node_length t Wt). pose proof (wf_pos t Wt).
    assert (I : In (list_maxn (depth_per_node t)) (depth_per_node t)).
    { apply list_maxn_in. intro E. rewrite E in H. simpl in H. lia. }
    destruct (In_nth _ _ 0 I) as (v&Hv&E). exists v. rewrite <- E. apply depth_per_node_correct; auto. lia. }
  assert (G : forall l m, Forall (@wf_tree T) l ->
     (fold_left f l m = m) \/ exists t v, In t l /\ depth_of t v (fold_left f l m)).
  { induction l; simpl; intros m Wl; auto. inversion Wl; subst.
    destruct (IHl (f m a) H2) as [E|(t&v&I&D)].
    - rewrite E. unfold f. destruct (Nat.max_spec m (list_maxn (depth_per_node a))) as [[L ->]|[L ->]]; auto.
      right. destruct (Hroot a H1) as [v D]. exists a, v. auto.
    - right. exists t, v. auto. }
  destruct (G ts 0 W) as [E|E]; auto. rewrite E.
  destruct ts as [|t ts]; [congruence|]. exists t, 0. split; [left; auto|constructor].
Qed.
End S.

Lemma min_triangle_fails :
  exists t : tree R, wf_tree t /\ exists i j k, i < n_leaves t /\ j < n_leaves t /\ k < n_leaves t /\
  (ddist t MinStyle i j + ddist t MinStyle j k < ddist t MinStyle i k)%Z.
Proof.
  exists deep13. split; [apply deep13_wf|]. exists 3, 0, 5.
  repeat split; vm_compute; lia.
Qed.
