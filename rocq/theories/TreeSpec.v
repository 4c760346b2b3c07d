(** TreeSpec: the array representation of a fitted scikit-learn tree and the
    mathematical notions the properties are stated with.  Nothing here mirrors
    an algorithm of the package. *)
From Verif Require Import Base.

(** ** Representation *)

(** The attributes of [tree.tree_] that the package reads or writes.
    [t_value] has one row per node, one column per class (a single column for
    regression), i.e. sklearn's (n_nodes,1,C) array with the middle axis
    dropped. *)
Record tree (T : Type) := mkTree {
  t_left : list Z;        (* children_left, -1 for none *)
  t_right : list Z;       (* children_right *)
  t_feature : list nat;   (* feature (ignored at leaves) *)
  t_thresh : list T;      (* threshold (ignored at leaves) *)
  t_value : list (list T);(* value *)
  t_weight : list T;      (* weighted_n_node_samples *)
  t_imp : list T          (* impurity *)
}.
Arguments mkTree {T}.
Arguments t_left {T}. Arguments t_right {T}. Arguments t_feature {T}.
Arguments t_thresh {T}. Arguments t_value {T}. Arguments t_weight {T}.
Arguments t_imp {T}.

Section Spec.
Context {T : Type}.
Implicit Type t : tree T.

Definition size t : nat := length (t_left t).
Definition lc t v : Z := nth v (t_left t) (-1)%Z.
Definition rc t v : Z := nth v (t_right t) (-1)%Z.

(** a leaf is a node with no left child *)
Definition is_leafb t v : bool := Z.eqb (lc t v) (-1).

(** ids of the leaves in increasing order: the order in which every leaf-indexed
    array of the package is laid out *)
Definition leaf_ids t : list nat := filter (is_leafb t) (seq 0 (size t)).
Definition n_leaves t : nat := length (leaf_ids t).
Definition leaf_id t i : nat := nth i (leaf_ids t) 0.

(** ** Well-formed trees *)

Definition node_okb t v : bool :=
  (Z.eqb (lc t v) (-1) && Z.eqb (rc t v) (-1)) ||
  ((Z.ltb (Z.of_nat v) (lc t v)) && (Z.ltb (lc t v) (Z.of_nat (size t))) &&
   (Z.ltb (Z.of_nat v) (rc t v)) && (Z.ltb (rc t v) (Z.of_nat (size t))) &&
   negb (Z.eqb (lc t v) (rc t v))).

Definition one_parentb t v : bool :=
  Nat.eqb (count_occ Z.eq_dec (t_left t ++ t_right t) (Z.of_nat v)) 1.

(** the shape every tree built by scikit-learn has *)
Definition wf_treeb t : bool :=
  Nat.ltb 0 (size t) &&
  Nat.eqb (length (t_right t)) (size t) &&
  Nat.eqb (length (t_feature t)) (size t) &&
  Nat.eqb (length (t_thresh t)) (size t) &&
  Nat.eqb (length (t_value t)) (size t) &&
  Nat.eqb (length (t_weight t)) (size t) &&
  Nat.eqb (length (t_imp t)) (size t) &&
  forallb (node_okb t) (seq 0 (size t)) &&
  forallb (one_parentb t) (seq 1 (size t - 1)).

Definition wf_tree t : Prop := wf_treeb t = true.

(** ** Relations *)

Definition child t (p c : nat) : Prop :=
  lc t p = Z.of_nat c \/ rc t p = Z.of_nat c.

(** [anc t a v]: [a] is on the path from the root to [v], [v] included *)
Inductive anc t : nat -> nat -> Prop :=
| anc_refl : forall v, v < size t -> anc t v v
| anc_step : forall a p c, anc t a p -> child t p c -> anc t a c.

(** [depth_of t v d]: the path from the root to [v] has [d] edges *)
Inductive depth_of t : nat -> nat -> Prop :=
| depth_root : depth_of t 0 0
| depth_step : forall p c d, depth_of t p d -> child t p c -> depth_of t c (S d).

(** lowest common ancestor *)
Definition is_lca t (a i j : nat) : Prop :=
  anc t a i /\ anc t a j /\ (forall b, anc t b i -> anc t b j -> anc t b a).

(** [upk t k v a]: going up [k] levels from [v], staying at the root once there *)
Inductive upk t : nat -> nat -> nat -> Prop :=
| up_here : forall v, v < size t -> upk t 0 v v
| up_root : forall k, upk t k 0 0
| up_step : forall k p c a, child t p c -> upk t k p a -> upk t (S k) c a.

(** leaf-to-leaf distance: levels to climb from [i] to reach the lowest common
    ancestor with [j] *)
Definition climb t (i j d : nat) : Prop :=
  exists a di da, is_lca t a i j /\ depth_of t i di /\ depth_of t a da
                  /\ d = di - da.

(** the three inner-tree distances of the documentation *)
Inductive dstyle := Standard | MaxStyle | MinStyle.

Definition leaf_dist t (s : dstyle) (i j d : nat) : Prop :=
  exists d1 d2, climb t i j d1 /\ climb t j i d2 /\
    d = match s with
        | Standard => d1
        | MaxStyle => Nat.max d1 d2
        | MinStyle => Nat.min d1 d2
        end.

(** routing of an observation: left iff x[feature] <= threshold *)
Inductive reaches {N : Num T} t (x : list T) : nat -> Prop :=
| reach_root : reaches t x 0
| reach_left : forall p c, reaches t x p -> lc t p = Z.of_nat c ->
    nleb (nth (nth p (t_feature t) 0) x n0) (nth p (t_thresh t) n0) = true ->
    reaches t x c
| reach_right : forall p c, reaches t x p -> rc t p = Z.of_nat c ->
    nleb (nth (nth p (t_feature t) 0) x n0) (nth p (t_thresh t) n0) = false ->
    reaches t x c.

End Spec.

(** RandomForestRegressor or RandomForestClassifier with [n_classes_] classes *)
Inductive kind : Set := Reg | Class (n_classes : nat).

(** number of response columns: one for regression, one per class otherwise *)
Definition n_gamma (kd : kind) : nat := match kd with Reg => 1 | Class nc => nc end.
