(** SpecDepth: vocabulary of the property statements about tuning the depth. *)
From Verif Require Import Base TreeSpec Spec M_Smooth M_Depth.
From Coq Require Import Reals.
Local Open Scope R_scope.

(** [a] is the node where the path to [v] stops when the tree is cut at depth [k]: the
    ancestor of v at depth k, or v itself when v is not deeper than k *)
Definition cut_node {T} (t : tree T) (k v a : nat) : Prop :=
  exists d, depth_of t v d /\ anc t a v /\ depth_of t a (Nat.min k d).

(** the tree has depth d *)
Definition tree_depth {T} (t : tree T) (d : nat) : Prop := is_max_depth [t] d.

(** leaf values (rows) replaced by those of the tree cut at depth k *)
Definition cut_tree (t : tree R) (k : nat) (t' : tree R) : Prop :=
  same_but_leaf_values t t' /\
  forall v a, (v < size t)%nat -> is_leafb t v = true -> cut_node t k v a ->
    nth v (t_value t') [] = nth a (t_value t) [].

(** class c is the most frequent one of node a (the smallest such class) *)
Definition majority (t : tree R) (a c : nat) : Prop :=
  (c < length (nth a (t_value t) []))%nat /\
  (forall c', (c' < length (nth a (t_value t) []))%nat -> node_v t c' a <= node_v t c a) /\
  (forall c', (c' < c)%nat -> node_v t c' a < node_v t c a).

(** loss [e] of the observation (x, y) when the tree is cut at depth k: squared error
    against the response of the node where x stops, or 0/1 whether the index of that
    node's most frequent class equals y *)
Definition obs_loss (kd : kind) (t : tree R) (k : nat) (x : list R) (y e : R) : Prop :=
  exists v a, reaches t x v /\ is_leafb t v = true /\ cut_node t k v a /\
    match kd with
    | Reg => e = (y - node_v t 0 a) * (y - node_v t 0 a)
    | Class _ => exists c, majority t a c /\ ((INR c = y /\ e = 0) \/ (INR c <> y /\ e = 1))
    end.

(** total loss of the cut tree on the rows (X, y) *)
Definition cut_loss (kd : kind) (t : tree R) (k : nat) (X : list (list R)) (y : list R) (L : R) : Prop :=
  exists es, length es = length X /\
    (forall i, (i < length X)%nat -> obs_loss kd t k (nth i X []) (nth i y 0) (nth i es 0)) /\
    L = sumto (length X) (fun i => nth i es 0).

(** [(X, y)] is the tuning data of tree q: the data handed in; the rows of the training
    data that are out-of-bag for the tree; or those of a fresh bootstrap sample *)
Inductive depth_rows (o : depth_opts R) (rd : randomness) (q : nat) : list (list R) -> list R -> Prop :=
| dr_given : forall X y, d_resample o = false -> d_X_tune o = Some X -> d_y_tune o = Some y ->
    depth_rows o rd q X y
| dr_oob : forall Xt yt, d_resample o = false -> (d_X_tune o = None \/ d_y_tune o = None) ->
    d_X_trained o = Some Xt -> d_y_trained o = Some yt ->
    (forall i, In i (r_oob rd q) -> (i < length Xt)%nat /\ (i < length yt)%nat) ->
    depth_rows o rd q (map (fun i => nth i Xt []) (r_oob rd q)) (map (fun i => nth i yt 0) (r_oob rd q))
| dr_boot : forall Xt yt, d_resample o = true ->
    d_X_trained o = Some Xt -> d_y_trained o = Some yt ->
    (forall i, In i (r_boot rd q) -> (i < length Xt)%nat /\ (i < length yt)%nat) ->
    depth_rows o rd q (map (fun i => nth i Xt []) (r_boot rd q)) (map (fun i => nth i yt 0) (r_boot rd q)).

(** every tree has at least one split, at least one tuning observation and as many
    responses as observations; class counts are non-empty *)
Definition tunable (kd : kind) (ts : list (tree R)) (o : depth_opts R) (rd : randomness) : Prop :=
  ts <> [] /\ Forall wf_tree ts /\
  (forall t, In t ts -> (1 < size t)%nat /\ forall v, (v < size t)%nat -> nth v (t_value t) [] <> []) /\
  forall q, (q < length ts)%nat -> exists X y, depth_rows o rd q X y /\ X <> [] /\ length y = length X.
