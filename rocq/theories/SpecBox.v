(** SpecBox: vocabulary of the property statements about bounding boxes. *)
From Verif Require Import Base TreeSpec Spec.
From Coq Require Import Reals.
Local Open Scope R_scope.

(** data with p features: at least one row, all rows of length p *)
Definition data_ok (p : nat) (X : list (list R)) : Prop := X <> [] /\ forall x, In x X -> length x = p.

(** every split uses one of the p features *)
Definition features_ok (p : nat) (t : tree R) : Prop :=
  forall v, (v < size t)%nat -> is_leafb t v = false -> (nth v (t_feature t) 0 < p)%nat.

Definition lower (b : list (R * R)) (f : nat) : R := fst (nth f b (0, 0)).
Definition upper (b : list (R * R)) (f : nat) : R := snd (nth f b (0, 0)).

(** x lies in the box *)
Definition in_box (p : nat) (x : list R) (b : list (R * R)) : Prop :=
  forall f, (f < p)%nat -> lower b f <= nth f x 0 <= upper b f.
(** x lies in the box and on none of its lower faces *)
Definition in_half_box (p : nat) (x : list R) (b : list (R * R)) : Prop :=
  forall f, (f < p)%nat -> lower b f < nth f x 0 <= upper b f.

(** every coordinate of x lies between two values of that feature in the data *)
Definition in_range (p : nat) (X : list (list R)) (x : list R) : Prop :=
  forall f, (f < p)%nat -> exists a b, In a X /\ In b X /\ nth f a 0 <= nth f x 0 <= nth f b 0.

(** [b] is the smallest box around the data *)
Definition hull (p : nat) (X : list (list R)) (b : list (R * R)) : Prop :=
  length b = p /\ (forall x, In x X -> in_box p x b) /\
  forall f, (f < p)%nat -> (exists x, In x X /\ lower b f = nth f x 0) /\ (exists x, In x X /\ upper b f = nth f x 0).

(** [b'] is [b] with the upper / lower bound of feature f replaced by x *)
Definition cut_hi (p f : nat) (x : R) (b b' : list (R * R)) : Prop :=
  length b' = p /\ forall g, (g < p)%nat -> lower b' g = lower b g /\ upper b' g = if Nat.eqb g f then x else upper b g.
Definition cut_lo (p f : nat) (x : R) (b b' : list (R * R)) : Prop :=
  length b' = p /\ forall g, (g < p)%nat -> upper b' g = upper b g /\ lower b' g = if Nat.eqb g f then x else lower b g.

(** the thresholds lie inside the boxes they split, as they do for the data the tree was
    trained on *)
Definition splits_inside (t : tree R) (bs : list (list (R * R))) : Prop :=
  forall v, (v < size t)%nat -> is_leafb t v = false ->
    let f := nth v (t_feature t) 0%nat in
    lower (nth v bs []) f <= nth v (t_thresh t) 0 <= upper (nth v bs []) f.

(** first row of tree q when node-indexed arrays are stacked *)
Definition nodes_before (ts : list (tree R)) (q : nat) : nat := sumn (map size (firstn q ts)).
