(** M_Float: the out-of-bag weights of smooth_clean.py in IEEE double arithmetic, with Flocq's
    binary64 numbers (round to nearest, ties to even). *)
From Flocq Require Import Core IEEE754.BinarySingleNaN.
From Coq Require Import ZArith List Bool Arith.
Import ListNotations.

(** *** numpy.sum of a one-dimensional array (numpy/core/src/umath/loops.c.src, pairwise_sum):
    fewer than 8 numbers are added from left to right starting with 0; up to 128 numbers are added in
    8 interleaved lanes that are then added pairwise, the remainder from left to right; longer arrays
    are split in two at a multiple of 8.  The result is added to the initial value 0. *)
Section Sum.
Context {F : Type} (add : F -> F -> F) (zero : F).

(** left-to-right *)
Definition seq_sum (acc : F) (l : list F) : F := fold_left add l acc.

(** one block of 8 numbers added lane by lane to the 8 lanes *)
Fixpoint add_lanes (r b : list F) : list F :=
  match r, b with x :: r', y :: b' => add x y :: add_lanes r' b' | _, _ => r end.

(** all full blocks of 8; returns the lanes and the remaining numbers *)
Fixpoint lanes (fuel : nat) (r : list F) (l : list F) : list F * list F :=
  match fuel with
  | O => (r, l)
  | S fuel' => if Nat.leb 8 (length l) then lanes fuel' (add_lanes r (firstn 8 l)) (skipn 8 l) else (r, l)
  end.

(** ((r0+r1)+(r2+r3)) + ((r4+r5)+(r6+r7)) *)
Definition join_lanes (r : list F) : F :=
  let g := fun i => nth i r zero in
  add (add (add (g 0) (g 1)) (add (g 2) (g 3))) (add (add (g 4) (g 5)) (add (g 6) (g 7))).

Fixpoint pairwise_sum (fuel : nat) (l : list F) : F :=
  let n := length l in
  if Nat.ltb n 8 then seq_sum zero l
  else if Nat.leb n 128 then
    let '(r, rest) := lanes n (firstn 8 l) (skipn 8 l) in seq_sum (join_lanes r) rest
  else match fuel with
       | O => seq_sum zero l
       | S fuel' => let n2 := (n / 2 - (n / 2) mod 8)%nat in
                    add (pairwise_sum fuel' (firstn n2 l)) (pairwise_sum fuel' (skipn n2 l))
       end.
(** the fuel is enough: the length at least halves, rounded down by less than 8, while above 128 *)
Definition np_sum (l : list F) : F := add zero (pairwise_sum (length l) l).
End Sum.

(** *** binary64 *)
Notation b64 := (binary_float 53 1024).
Definition prec_pos : Prec_gt_0 53 := eq_refl.
Definition prec_emax : Prec_lt_emax 53 1024 := eq_refl.
Definition b64_add : b64 -> b64 -> b64 := @Bplus 53 1024 prec_pos prec_emax mode_NE.
Definition b64_div : b64 -> b64 -> b64 := @Bdiv 53 1024 prec_pos prec_emax mode_NE.
Definition b64_of_nat (n : nat) : b64 := binary_normalize 53 1024 prec_pos prec_emax mode_NE (Z.of_nat n) 0 false.
Definition b64_zero : b64 := B754_zero false.

(** number of trees for which the observation is out of bag *)
Definition mask_count (mask : list bool) : nat := length (filter (fun b => b) mask).

(** smooth_clean.py:86-90: the weights of one observation; [mask] is its row of oob_weights_prime *)
Definition float_weights (mask : list bool) : list b64 :=
  let c := mask_count mask in
  let c1 := if Nat.eqb c 0 then 1%nat else c in
  map (fun b : bool => b64_div (b64_of_nat (if b then 1 else 0)) (b64_of_nat c1)) mask.

(** smooth_clean.py:283, 432: [np.sum(item) == 1] *)
Definition float_ever_oob (mask : list bool) : bool :=
  Beqb (np_sum b64_add b64_zero (float_weights mask)) (b64_of_nat 1).
