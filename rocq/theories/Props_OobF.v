(** C36, further part: how far the floating point sum of the out-of-bag weights is from 1. *)
From Verif Require Import Base M_Float M_Start L_OobF.
From Flocq Require Import Core BinarySingleNaN.
From Coq Require Import Reals ZArith.
Local Open Scope R_scope.

(** C36: for every observation that is out of bag for at least one of n <= 2^40 trees the sum of its weights is within 4 n 2^-53 of 1, *)
Theorem C36_close : forall mask, (1 <= mask_count mask)%nat -> (Z.of_nat (length mask) <= 2 ^ 40)%Z ->
  is_finite (np_sum b64_add b64_zero (float_weights mask)) = true /\
  Rabs (B2R (np_sum b64_add b64_zero (float_weights mask)) - 1) <= 4 * (INR (length mask) * bpow radix2 (-53)).
Proof. exact p_oob_close. Qed.
Print Assumptions C36_close.
Example C36_close_ex : mask_count [true; false; true; true; true; true; true] = 6%nat.
Proof. reflexivity. Qed.

(** so that a comparison up to numpy's default tolerance (np.allclose, used elsewhere in the same file) keeps exactly the observations that are out of bag for some tree, unlike the comparison [== 1] (C36_dropped). *)
Theorem C36_tolerance : forall mask, (Z.of_nat (length mask) <= 2 ^ 33)%Z ->
  (close_to_one (np_sum b64_add b64_zero (float_weights mask)) = true <-> (1 <= mask_count mask)%nat).
Proof. exact p_oob_tolerance. Qed.
Print Assumptions C36_tolerance.
Example C36_tolerance_ex : close_to_one (np_sum b64_add b64_zero (float_weights (repeat true 6))) = true /\ float_ever_oob (repeat true 6) = false /\
  close_to_one (np_sum b64_add b64_zero (float_weights (repeat false 6))) = false.
Proof. split; [vm_compute; reflexivity|]. split; vm_compute; reflexivity. Qed.
