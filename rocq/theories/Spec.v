(** Spec: vocabulary of the property statements about leaf sums (real numbers).
    Nothing here mirrors an algorithm of the package. *)
From Verif Require Import Base TreeSpec.
From Coq Require Import Reals Sorted.
Local Open Scope R_scope.

(** plain sum of [f i] for i < n *)
Fixpoint sumto (n : nat) (f : nat -> R) : R :=
  match n with O => 0 | S m => sumto m f + f m end.

(** sum of [f j] over the indices j < n selected by [sel] *)
Definition sum_sel (n : nat) (sel : nat -> bool) (f : nat -> R) : R :=
  sumto n (fun j => if sel j then f j else 0).

(** [sel] picks the leaves (by leaf number) at distance exactly k (at most k if
    [pa]) from leaf number i *)
Definition selects {T} (t : tree T) (s : dstyle) (pa : bool) (i k : nat) (sel : nat -> bool) : Prop :=
  forall j, (j < n_leaves t)%nat ->
    (sel j = true <-> exists d, leaf_dist t s (leaf_id t i) (leaf_id t j) d /\
                         (if pa then (d <= k)%nat else d = k)).

(** training weight of node v and its response in column c *)
Definition node_w (t : tree R) (v : nat) : R := nth v (t_weight t) 0.
Definition node_v (t : tree R) (c v : nat) : R := nth c (nth v (t_value t) []) 0.

(** weighted response of node v: n*y for regression, the count of class c for
    classification (scikit-learn stores class counts as values) *)
Definition node_ny (t : tree R) (kd : kind) (c v : nat) : R :=
  match kd with Reg => node_w t v * node_v t 0 v | Class _ => node_v t c v end.

(** the same for leaf number j *)
Definition leaf_w (t : tree R) (j : nat) : R := node_w t (leaf_id t j).
Definition leaf_v (t : tree R) (c j : nat) : R := node_v t c (leaf_id t j).
Definition leaf_ny (t : tree R) (kd : kind) (c j : nat) : R := node_ny t kd c (leaf_id t j).

(** m is the largest distance between two leaves *)
Definition is_max_dist {T} (t : tree T) (s : dstyle) (m : nat) : Prop :=
  (forall i j d, (i < n_leaves t)%nat -> (j < n_leaves t)%nat ->
     leaf_dist t s (leaf_id t i) (leaf_id t j) d -> (d <= m)%nat) /\
  (exists i j, (i < n_leaves t)%nat /\ (j < n_leaves t)%nat /\
     leaf_dist t s (leaf_id t i) (leaf_id t j) m).

(** m is the largest node depth of the forest *)
Definition is_max_depth {T} (ts : list (tree T)) (m : nat) : Prop :=
  (forall t v d, In t ts -> depth_of t v d -> (d <= m)%nat) /\
  (exists t v, In t ts /\ depth_of t v m).

(** first row belonging to tree number q when leaf-indexed arrays are stacked *)
Definition offset {T} (ts : list (tree T)) (q : nat) : nat := sumn (map n_leaves (firstn q ts)).

(** a node statistic that adds up over children *)
Definition additive {T} (t : tree T) (f : nat -> R) : Prop :=
  forall p l r, lc t p = Z.of_nat l -> rc t p = Z.of_nat r -> f p = f l + f r.

(** ** Vectors *)

(** positive part *)
Definition ppos (x : R) : R := Rmax x 0.
(** decreasing order *)
Definition desc (l : list R) : Prop := StronglySorted (fun a b => b <= a) l.
(** squared Euclidean distance *)
Definition sqdist (a b : list R) : R := nsum (map2 (fun x y => (x - y) * (x - y)) a b).
(** the probability simplex in dimension n *)
Definition simplex (n : nat) (z : list R) : Prop :=
  length z = n /\ (forall x, In x z -> 0 <= x) /\ nsum z = 1.

(** ** Adam *)

(** exponentially weighted sum of a history (oldest first): the newest value has weight 1 *)
Definition ewsum (b : R) (xs : list R) : R :=
  sumto (length xs) (fun s => b ^ (length xs - 1 - s) * nth s xs 0).

(** one component after the Adam step that ends the gradient history [gs]
    (oldest first), started from [lam]: bias-corrected moments with decay [b1],
    [b2]; [c2] is the weight of a new squared gradient.  Published Adam has
    c2 = 1 - b2. *)
Definition adam_next (a b1 b2 e c2 : R) (gs : list R) (lam : R) : R :=
  let t := length gs in
  let m1 := (1 - b1) * ewsum b1 gs in
  let m2 := c2 * ewsum b2 (map (fun g => g * g) gs) in
  lam - a * (m1 / (1 - b1 ^ t)) / (sqrt (m2 / (1 - b2 ^ t)) + e).

(** ** Smoothing *)

(** weight given to a leaf at distance d by the distance weights [lamb]; with
    [pa] a weight at k reaches every leaf at distance at most k *)
Definition dweight (lamb : list R) (pa : bool) (d : nat) : R :=
  if pa then sumto (length lamb) (fun k => if Nat.leb d k then nth k lamb 0 else 0)
  else nth d lamb 0.

(** [kap j] is the weight of leaf j as seen from leaf i *)
Definition is_kernel (t : tree R) (s : dstyle) (pa : bool) (lamb : list R) (i : nat) (kap : nat -> R) : Prop :=
  forall j, (j < n_leaves t)%nat ->
    exists d, leaf_dist t s (leaf_id t i) (leaf_id t j) d /\ kap j = dweight lamb pa d.

(** total training weight seen through the kernel, and the weighted mean of the
    responses in column c (0 without mass) *)
Definition kmass (t : tree R) (kap : nat -> R) : R := sumto (n_leaves t) (fun j => kap j * leaf_w t j).
Definition kmean (t : tree R) (kd : kind) (kap : nat -> R) (c : nat) : R :=
  if Req_EM_T (kmass t kap) 0 then 0
  else sumto (n_leaves t) (fun j => kap j * leaf_ny t kd c j) / kmass t kap.

(** the trees differ at most in the values of their leaves *)
Definition same_but_leaf_values {T} (t t' : tree T) : Prop :=
  t_left t' = t_left t /\ t_right t' = t_right t /\ t_feature t' = t_feature t /\
  t_thresh t' = t_thresh t /\ t_weight t' = t_weight t /\ t_imp t' = t_imp t /\
  length (t_value t') = length (t_value t) /\
  forall v, is_leafb t v = false -> nth v (t_value t') [] = nth v (t_value t) [].

(** every node has one value per response column *)
Definition wf_values {T} (kd : kind) (t : tree T) : Prop :=
  forall v, (v < size t)%nat -> length (nth v (t_value t) []) = n_gamma kd.

(** [r] are the elements of [l] at the positions [idx] *)
Definition picked {A} (l : list A) (idx : list nat) (r : list A) : Prop := Forall2 (fun i x => nth_error l i = Some x) idx r.
(** the positions at which [l] holds q, in increasing order *)
Definition rows_of (q : nat) (l : list nat) : list nat :=
  filter (fun r => Nat.eqb (nth r l 0%nat) q) (seq 0 (length l)).
