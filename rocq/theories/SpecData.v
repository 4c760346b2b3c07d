(** SpecData: notions for the data generators. *)
From Coq Require Import Reals.
From Verif Require Import Base Spec M_Data.
Local Open Scope R_scope.

(** the numbers of a stream lie in [0,1) *)
Definition unit_draws (u : nat -> R) : Prop := forall i, 0 <= u i < 1.

Definition within (lo hi x : R) : Prop := lo <= x <= hi.

(** the square [0,1/2)² turned by 10 degrees and shifted *)
Definition turned (p : R * R) : R * R :=
  let a := PI / 18 in
  (fst p / 2 * cos a - snd p / 2 * sin a + 0.175, fst p / 2 * sin a + snd p / 2 * cos a + 0.075).

(** how many of the first i entries are v *)
Definition count_before (v : nat) (l : list nat) (i : nat) : nat := count_occ Nat.eq_dec (firstn i l) v.

(** a table point in the units of the source *)
Definition nano (z : Z) : R := IZR z / 1000000000.

(** the part of the strip above a line of table points *)
Definition region (xs ys : list Z) : list (R * R) :=
  (nano (-13152278), nano (hd 0%Z ys)) :: combine (map nano xs) (map nano ys) ++
  [(nano 987378459, nano (last ys 0%Z)); (nano 987378459, nano 974966800); (nano (-13152278), nano 974966800)].
