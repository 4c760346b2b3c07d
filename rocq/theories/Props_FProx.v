(** C133: prox_project in double arithmetic. *)
From Verif Require Import Base M_Float M_Start M_Prox M_FProx L_Start L_FProx L_FProx2 L_FProx3 L_FProx4.
From Flocq Require Import Core BinarySingleNaN.
From Coq Require Import Reals Lra Lia ZArith Permutation Sorted.
Local Open Scope R_scope.

(** C133: a vector without NaN goes through the model that C20 and C21 use over the reals, here with double arithmetic. *)
Theorem C133_same : forall y, (forall x, In x y -> is_nan x = false) -> prox_project64 y = @prox_project b64 BNum y.
Proof. exact p_same. Qed.
Print Assumptions C133_same.

(** Moderate entries (y_i K^2 <= 2^50 for each i, however negative, and K <= 2^40): prox_project returns.  One number theta >= 0, below some entry unless it is 0, is subtracted from the positive part of every entry with one rounding, and the negative results become 0; no returned weight exceeds the positive part of its entry, and the caller's array keeps its positive part exactly. *)
Theorem C133_returns : forall y : list b64, y <> [] -> (Z.of_nat (length y) <= 2 ^ 40)%Z ->
  (forall x, In x y -> is_finite x = true /\ B2R x * (INR (length y) * INR (length y)) <= bpow radix2 50) ->
  exists r y' theta, prox_project64 y = Ok (r, y') /\ 0 <= theta /\ (theta = 0 \/ exists x, In x y /\ theta < B2R x) /\
  Forall2 (fun x z => is_finite z = true /\ B2R z = Rmax (B2R x) 0) y y' /\
  Forall2 (fun x z => is_finite z = true /\ B2R z = Rmax (round radix2 (FLT_exp (-1074) 53) ZnearestE (Rmax (B2R x) 0 - theta)) 0 /\ 0 <= B2R z <= Rmax (B2R x) 0) y r.
Proof.
  intros y A B C. destruct (p_safe y (conj A (conj B C))) as (r&y'&t&D&E&F&G&H). exists r, y', t. split; auto. split; auto. split; auto. split; auto.
  clear - H. induction H as [|x z y r (P&Q&S) H IH]; constructor; auto. split; auto. split; [exact Q|]. split; [rewrite Q; apply Rmax_r|exact S].
Qed.
Print Assumptions C133_returns.
(** [0.25; 1.75; -3]: the thresholds are 0.75, 0.5 and 1/3; 0.5 < 1.75 is selected, theta = 0.5 *)
Definition q (m : Z) : b64 := binary_normalize 53 1024 prec_pos prec_emax mode_NE m (-2) false.
Example C133_returns_ex : (match prox_project64 [q 1; q 7; q (-12)] with Ok (r, y') => Some (map B2SF r, map B2SF y') | Err _ => None end) =
  Some (map B2SF [q 0; q 5; q 0], map B2SF [q 1; q 7; q 0]).
Proof. vm_compute. reflexivity. Qed.

(** The number theta that is subtracted: with u the positive parts in decreasing order, the j-th threshold t_j is (u_0 + ... + u_j - 1) / (j + 1) up to 6 (u_0 + ... + u_j + 1) 2^-53.  The thresholds below the positive part of the entry at their own position in the unsorted vector are selected; there is one, and theta is the largest of them or 0. *)
Definition top (n : nat) (u : list R) : R := fold_right Rplus 0 (firstn n u).
Theorem C133_theta : forall y : list b64, y <> [] -> (Z.of_nat (length y) <= 2 ^ 40)%Z ->
  (forall x, In x y -> is_finite x = true /\ B2R x * (INR (length y) * INR (length y)) <= bpow radix2 50) ->
  exists r y' theta u t, prox_project64 y = Ok (r, y') /\
  Forall2 (fun x z => is_finite z = true /\ B2R z = Rmax (round radix2 (FLT_exp (-1074) 53) ZnearestE (Rmax (B2R x) 0 - theta)) 0) y r /\
  Permutation (map (fun x => Rmax (B2R x) 0) y) u /\ StronglySorted Rge u /\
  (forall j, (j < length y)%nat -> Rabs (t j - (top (S j) u - 1) / INR (S j)) <= 6 * ((top (S j) u + 1) * bpow radix2 (-53))) /\
  let selected := fun j => (j < length y)%nat /\ t j < Rmax (B2R (nth j y b64_zero)) 0 in
  0 <= theta /\ (exists j, selected j) /\ (theta = 0 \/ exists j, selected j /\ theta = t j) /\ forall j, selected j -> t j <= theta.
Proof.
  intros y A B C. destruct (p_theta y (conj A (conj B C))) as (r&y'&th&u&t&D&[_ E]&F1&F2&F3&F4&F5&F6&F7). exists r, y', th, u, t. split; auto. split; [|split; auto; split; auto; split; [exact F3|]].
  - clear - E. induction E as [|x z y r (P&Q&S) H IH]; constructor; auto.
  - cbv zeta. split; auto. split; [exact F6|]. split; [destruct F5 as [F5|(j&X&Y&Z)]; [left; auto|right; exists j; auto]|]. intros j [X Y]. auto.
Qed.
Print Assumptions C133_theta.

(** A vector of K <= 2^25 finite numbers whose positive parts sum to at most 1 - 2 K 2^-53 is only clipped, without any rounding (C21_prox_small in doubles; such a result need not sum to 1). *)
Theorem C133_inside : forall y : list b64, y <> [] -> (Z.of_nat (length y) <= 2 ^ 25)%Z -> (forall x, In x y -> is_finite x = true) ->
  fold_right (fun x a => Rmax (B2R x) 0 + a) 0 y <= 1 - 2 * (INR (length y) * bpow radix2 (-53)) ->
  exists r y', prox_project64 y = Ok (r, y') /\ Forall2 (fun x z => is_finite z = true /\ B2R z = Rmax (B2R x) 0) y r /\
  Forall2 (fun x z => is_finite z = true /\ B2R z = Rmax (B2R x) 0) y y'.
Proof. exact p_inside. Qed.
Print Assumptions C133_inside.
(** [0.25; -3; 0.5] becomes [0.25; 0; 0.5] *)
Example C133_inside_ex : (match prox_project64 [q 1; q (-12); q 2] with Ok (r, y') => Some (map B2SF r, map B2SF y') | Err _ => None end) =
  Some (map B2SF [q 1; q 0; q 2], map B2SF [q 1; q 0; q 2]).
Proof. vm_compute. reflexivity. Qed.

(** A NaN or plus infinity anywhere in the vector: no threshold is below its entry, and np.max of an empty array raises ValueError. *)
Theorem C133_nonfinite : forall (y : list b64) x, In x y -> is_nan x = true \/ x = B754_infinity false -> prox_project64 y = Err ValueError.
Proof. intros y x H [N| ->]; [apply (p_nan y x); auto|apply p_inf; exact H]. Qed.
Print Assumptions C133_nonfinite.
Definition raised {A} (r : result A) : option exn := match r with Ok _ => None | Err e => Some e end.
Example C133_nonfinite_ex : raised (prox_project64 [q 1; B754_nan]) = Some ValueError /\ raised (prox_project64 [B754_infinity true]) = None.
Proof. split; vm_compute; reflexivity. Qed.

(** C21 proves that prox_project returns on every non-empty vector of real numbers.  In doubles this fails: when the first of K entries is at least 2^55 and at least K times every other entry, subtracting 1 from a sum does not change it, no threshold is below its entry, and prox_project raises ValueError (also when the sums overflow). *)
Theorem C133_large : forall (M : b64) l, is_finite M = true -> bpow radix2 55 <= B2R M -> (Z.of_nat (length l) < 2 ^ 52)%Z ->
  (forall x, In x l -> is_finite x = true /\ B2R x * INR (S (length l)) <= B2R M) -> prox_project64 (M :: l) = Err ValueError.
Proof. intros M l F B L H. apply p_dominant; auto. Qed.
Print Assumptions C133_large.
Theorem C133_total_refuted : exists y : list b64, y <> [] /\ (forall x, In x y -> is_finite x = true /\ 0 <= B2R x) /\ prox_project64 y = Err ValueError.
Proof.
  set (M := binary_normalize 53 1024 prec_pos prec_emax mode_NE 1 60 false). assert (E : B2SF M = SpecFloat.S754_finite false 4503599627370496 8) by (vm_compute; reflexivity).
  exists [M; b64_zero]. split; [discriminate|]. split; [|assert (R : raised (prox_project64 [M; b64_zero]) = Some ValueError) by (vm_compute; reflexivity); unfold raised in R; destruct (prox_project64 [M; b64_zero]); congruence].
  intros x [<-|[<-|[]]]; [|split; [reflexivity|cbn; lra]]. destruct M as [s|s| |s m e H]; try discriminate E. injection E as -> -> ->. split; [reflexivity|].
  unfold B2R, F2R. cbn [Fnum Fexp cond_Zopp]. apply Rmult_le_pos; [lra|apply bpow_ge_0].
Qed.
Print Assumptions C133_total_refuted.
(** 2^60 alone raises, and before 2^57 and 2^50; with the large entry at another position a threshold of the smaller entries may be selected *)
Example C133_large_ex : let M := binary_normalize 53 1024 prec_pos prec_emax mode_NE 1 60 false in
  raised (prox_project64 [M]) = Some ValueError /\ raised (prox_project64 [M; binary_normalize 53 1024 prec_pos prec_emax mode_NE 1 57 false; binary_normalize 53 1024 prec_pos prec_emax mode_NE 1 50 false]) = Some ValueError /\ raised (prox_project64 [b64_zero; M]) = None.
Proof. cbv zeta. split; [vm_compute; reflexivity|]. split; vm_compute; reflexivity. Qed.
