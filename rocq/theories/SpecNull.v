(** SpecNull: vocabulary of the property statements about check_in_null. *)
From Coq Require Import Reals QArith.
From Verif Require Import Base TreeSpec Spec M_Null.
Local Open Scope R_scope.

(** entry i of the combination of the columns C with coefficients a *)
Definition combo (C : list (list R)) (a : nat -> R) (i : nat) : R := sumto (length C) (fun k => a k * nth i (nth k C []) 0).

(** columns with m entries: linearly independent; generating x *)
Definition indep (m : nat) (C : list (list R)) : Prop :=
  forall a, (forall i, (i < m)%nat -> combo C a i = 0) -> forall k, (k < length C)%nat -> a k = 0.
Definition generates (m : nat) (C : list (list R)) (x : list R) : Prop :=
  exists a, forall i, (i < m)%nat -> nth i x 0 = combo C a i.

(** G (rows of m entries) sends x to the zero vector *)
Definition sent_to_0 (m : nat) (G : list (list R)) (x : list R) : Prop :=
  length x = m /\ forall row, In row G -> sumto m (fun j => nth j row 0 * nth j x 0) = 0.
Definition null_basis (m : nat) (G : list (list R)) (N : list (list R)) : Prop :=
  (forall c, In c N -> sent_to_0 m G c) /\ indep m N /\ (forall x, sent_to_0 m G x -> generates m N x).

(** some non-zero vector is sent to 0 *)
Definition singular (m : nat) (G : list (list R)) : Prop :=
  exists x, sent_to_0 m G x /\ exists i, (i < m)%nat /\ nth i x 0 <> 0.

(** r is the greatest number of columns, taken at different places, that are independent *)
Definition is_rank (m : nat) (C : list (list R)) (r : nat) : Prop :=
  let free s := NoDup s /\ (forall k, In k s -> (k < length C)%nat) /\ indep m (map (fun k => nth k C []) s) in
  (exists s, free s /\ length s = r) /\ (forall s, free s -> (length s <= r)%nat).

(** the argument sanity_check asks for [b], with [tol] as tol_pow *)
Inductive asks : sanity_arg -> bool -> option Q -> Prop :=
| asks_bool : forall b, asks (SBool b) b None
| asks_dict : forall b tol, asks (SDict (Some tol) (Some (Some b))) b tol.
(** None or a natural number *)
Definition whole (tol : option Q) : Prop := forall q, tol = Some q -> exists k : nat, (q == inject_Z (Z.of_nat k))%Q.
(** some weight is more than 1e-7 away from the starting weights 1, 0, 0, ... *)
Definition moved (lamb : list R) : Prop :=
  exists k, (k < length lamb)%nat /\ (/ 10) ^ 7 < Rabs (nth k lamb 0 - (if (k =? 0)%nat then 1 else 0)).
