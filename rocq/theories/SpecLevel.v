(** SpecLevel: vocabulary of the property statements about smooth_level.py. *)
From Verif Require Import Base TreeSpec Spec M_Level SpecSmooth SpecTune.
From Coq Require Import Reals.
Local Open Scope R_scope.

(** [x] is 1 if [P] holds, 0 otherwise *)
Definition indicates (P : Prop) (x : R) : Prop := (P -> x = 1) /\ (~ P -> x = 0).

(** the paths of observations x and y pass through a common node at depth l *)
Definition share {N : Num R} (t : tree R) (x y : list R) (l : nat) : Prop :=
  exists a, depth_of t a l /\ reaches t x a /\ reaches t y a.

(** quadratic form of a matrix *)
Definition quad (n : nat) (M : list (list R)) (x : nat -> R) : R :=
  sumto n (fun i => sumto n (fun j => x i * nth j (nth i M []) 0 * x j)).
Definition square (n : nat) (M : list (list R)) : Prop :=
  length M = n /\ forall i, (i < n)%nat -> length (nth i M []) = n.
Definition symmetric (n : nat) (M : list (list R)) : Prop :=
  forall i j, (i < n)%nat -> (j < n)%nat -> nth j (nth i M []) 0 = nth i (nth j M []) 0.
Definition pos_semidef (n : nat) (M : list (list R)) : Prop := forall x, 0 <= quad n M x.
Definition pos_def (n : nat) (M : list (list R)) : Prop :=
  forall x, (exists i, (i < n)%nat /\ x i <> 0) -> 0 < quad n M x.

(** mean training response of the leaves at distance k (at most k if [pa]) from leaf i; 0 if there are none *)
Definition level_mean (t : tree R) (pa : bool) (i k : nat) (m : R) : Prop :=
  exists sel, selects t Standard pa i k sel /\ m = kmean t Reg (fun j => if sel j then 1 else 0) 0.

(** weights the optimisation may choose *)
Definition feasible (no_constraint : bool) (n : nat) (l : list R) : Prop :=
  if no_constraint then length l = n else simplex n l.
(** the quadratic program's objective: half the quadratic form less the linear term *)
Definition qp_objective (n : nat) (G : list (list R)) (a l : list R) : R :=
  / 2 * quad n G (fun k => nth k l 0) - sumto n (fun k => nth k a 0 * nth k l 0).
(** sum over the trees of the mean squared error on the tree's tuning data, when an observation in leaf i
    of tree q is predicted by [pred q i] *)
Definition mean_sse (nt : nat) (data : nat -> list (list R) * list R) (lf : nat -> nat -> nat) (pred : nat -> nat -> R) : R :=
  sumto nt (fun q => sumto (length (fst (data q))) (fun o => (nth o (snd (data q)) 0 - pred q (lf q o)) ^ 2) / INR (length (fst (data q)))).
Definition sqnorm (l : list R) : R := nsum (map (fun x => x * x) l).

(** entries, agreement with the transpose within numpy's allclose tolerances, and adding c to the diagonal *)
Definition ent (A : list (list R)) (i j : nat) : R := nth j (nth i A []) 0.
Definition near_sym (n : nat) (A : list (list R)) : Prop := forall i j, (i < n)%nat -> (j < n)%nat ->
  Rabs (ent A i j - ent A j i) <= (/ 10) ^ 8 + (/ 10) ^ 5 * Rabs (ent A j i).
Definition lifted (n : nat) (G : list (list R)) (c : R) (G' : list (list R)) : Prop :=
  square n G' /\ forall i j, (i < n)%nat -> (j < n)%nat -> nth j (nth i G' []) 0 = nth j (nth i G []) 0 + (if (i =? j)%nat then c else 0).
(** nothing, or 1000 eps doubled some number of times *)
Definition lift_of (eps c : R) : Prop := c = 0 \/ exists k, c = 1000 * eps * 2 ^ k.

(** D is the greatest depth in the forest *)
Definition deepest (ts : list (tree R)) (D : nat) : Prop :=
  (forall t v d, In t ts -> depth_of t v d -> (d <= D)%nat) /\
  (ts = [] /\ D = 0%nat \/ exists t v, In t ts /\ depth_of t v D).

(** tuning data of tree q: the bootstrap sample if resampling, else the given tuning data, else the out-of-bag rows *)
Definition tuning_set (o : all_opts R) (oob boot : nat -> list nat) (q : nat) (d : list (list R) * list R) : Prop :=
  if a_resample o then picked (a_X o) (boot q) (fst d) /\ picked (a_y o) (boot q) (snd d)
  else match a_X_tune o, a_y_tune o with
       | Some X, Some y => d = (X, y)
       | _, _ => picked (a_X o) (oob q) (fst d) /\ picked (a_y o) (oob q) (snd d)
       end.
(** [data q] is tree q's tuning data and [lf q] the leaf of each of its observations *)
Definition all_data (o : all_opts R) (oob boot : nat -> list nat) (ts : list (tree R))
    (data : nat -> list (list R) * list R) (lf : nat -> nat -> nat) : Prop :=
  forall q t, nth_error ts q = Some t -> tuning_set o oob boot q (data q) /\ routed t (fst (data q)) (lf q).
