(** M_Start: the starting weights of smooth and smooth_clean and the checks they have to pass, in IEEE double
    arithmetic (Flocq's binary64 numbers, numpy's summation as in M_Float), and the uniform draws of
    numpy.random after seed (Mersenne Twister). *)
From Verif Require Import Base M_Float.
From Flocq Require Import Core IEEE754.BinarySingleNaN.
From Coq Require Import ZArith NArith List Bool Arith.
Import ListNotations.

Definition b64_sub : b64 -> b64 -> b64 := @Bminus 53 1024 prec_pos prec_emax mode_NE.
Definition b64_mul : b64 -> b64 -> b64 := @Bmult 53 1024 prec_pos prec_emax mode_NE.
Definition b64_one : b64 := b64_of_nat 1.
(** the literals 1e-4, 1e-5 and 1e-8: the double nearest to 1/[n] *)
Definition b64_frac (n : Z) : b64 := b64_div b64_one (binary_normalize 53 1024 prec_pos prec_emax mode_NE n 0 false).
(** [np.sum(lamb)] and [lamb.sum()] *)
Definition b64_sum (l : list b64) : b64 := np_sum b64_add b64_zero l.

(** smooth_base.py:1296, 1300, 1301, smooth_clean.py:988: [lamb / lamb.sum()] *)
Definition normalise (l : list b64) : list b64 := map (fun x => b64_div x (b64_sum l)) l.

(** smooth_base.py:1290-1296, smooth_clean.py:982-988: the start for [K] columns; [draws] are the numbers
    drawn after [np.random.seed(initial_lamb_seed)], None when initial_lamb_seed is None.  [lamb[0] = 1]
    is an IndexError when there is no column. *)
Definition start_weights (K : nat) (draws : option (list b64)) : result (list b64) :=
  match draws with
  | Some l => Ok (normalise l)
  | None => match K with O => Err IndexError | S K' => Ok (b64_one :: repeat b64_zero K') end
  end.

(** smooth_base.py:1298-1301: for classes the start is mixed with equal weights and normalised twice *)
Definition class_start (class_eps : b64) (l : list b64) : list b64 :=
  normalise (normalise (map (fun x => b64_add x (b64_div (b64_mul b64_one class_eps) (b64_of_nat (length l)))) l)).

(** smooth_base.py:1290-1301: the start of smooth; [class_eps] is given for a classification *)
Definition smooth_start (class_eps : option b64) (K : nat) (draws : option (list b64)) : result (list b64) :=
  do l <- start_weights K draws;
  Ok (match class_eps with Some e => class_start e l | None => l end).

(** smooth_base.py:1492-1493: the feasible value that the error message suggests, [np.ones(K)/K] *)
Definition suggested_start (K : nat) : list b64 := repeat (b64_div b64_one (b64_of_nat K)) K.

(** [np.any(lamb_init < 0)] *)
Definition any_negative (l : list b64) : bool := existsb (fun x => Bltb x b64_zero) l.

(** smooth_base.py:1487-1493 stocastic_grad_descent: [np.sum(lamb_init)!=1 or np.any(lamb_init < 0)];
    [cols] = Gamma.shape[1] *)
Definition sgd_accepts (constrained : bool) (cols : nat) (l : list b64) : result unit :=
  if negb (Nat.eqb cols (length l)) then Err TypeError
  else if (constrained && (negb (Beqb (b64_sum l) b64_one) || any_negative l))%bool then Err TypeError
  else Ok tt.

(** [np.allclose(x, 1)]: |x - 1| <= atol + rtol * |1| with atol = 1e-8 and rtol = 1e-5, x finite *)
Definition close_to_one (x : b64) : bool :=
  (is_finite x && Bleb (Babs (b64_sub x b64_one)) (b64_add (b64_frac 100000000) (b64_mul (b64_frac 100000) (Babs b64_one))))%bool.

(** smooth_clean.py:755-762 stocastic_grad_descent_clean: [not np.allclose(np.sum(lamb_init),1) or np.any(lamb_init < 0)] *)
Definition clean_accepts (constrained : bool) (cols : nat) (l : list b64) : result unit :=
  if negb (Nat.eqb cols (length l)) then Err TypeError
  else if (constrained && (negb (close_to_one (b64_sum l)) || any_negative l))%bool then Err TypeError
  else Ok tt.

(** *** numpy.random: [seed] and [uniform] (MT19937; numpy/random/src/mt19937/mt19937.c) *)
Definition two32 : N := 4294967296%N.
(** mt19937_seed: the 624 words of the state, [x] the last one and [i] its number *)
Fixpoint mt_words (n : nat) (i x : N) : list N :=
  match n with
  | O => []
  | S n' => let y := N.modulo (1812433253 * N.lxor x (N.shiftr x 30) + i) two32 in y :: mt_words n' (i + 1) y
  end.
Definition mt_seed (s : N) : list N := let x := N.modulo s two32 in x :: mt_words 623 1 x.
(** mt19937_gen: the word that follows 624 words; the state is the last 624 words *)
Definition mt_twist (st : list N) : N :=
  let y := N.lor (N.land (nth 0 st 0%N) 2147483648) (N.land (nth 1 st 0%N) 2147483647) in
  N.lxor (N.lxor (nth 397 st 0%N) (N.shiftr y 1)) (if N.odd y then 2567483615 else 0)%N.
(** mt19937_next: tempering *)
Definition mt_temper (y : N) : N :=
  let y := N.lxor y (N.shiftr y 11) in
  let y := N.lxor y (N.land (N.modulo (N.shiftl y 7) two32) 2636928640) in
  let y := N.lxor y (N.land (N.modulo (N.shiftl y 15) two32) 4022730752) in
  N.lxor y (N.shiftr y 18).
Definition mt_next (st : list N) : N * list N := let x := mt_twist st in (mt_temper x, tl st ++ [x]).
(** mt19937_next_double: [(a >> 5, b >> 6)] and [(a * 2^26 + b) / 2^53], exact in double arithmetic *)
Definition mt_double (st : list N) : b64 * list N :=
  let '(a, st1) := mt_next st in
  let '(b, st2) := mt_next st1 in
  (binary_normalize 53 1024 prec_pos prec_emax mode_NE (Z.of_N (N.shiftr a 5 * 67108864 + N.shiftr b 6)) (-53) false, st2).
Fixpoint mt_doubles (n : nat) (st : list N) : list b64 :=
  match n with O => [] | S n' => let '(x, st') := mt_double st in x :: mt_doubles n' st' end.
(** [np.random.seed(s); np.random.uniform(size = n)]: the draws are 0 + (1 - 0) * x = x *)
Definition uniform_after_seed (s : N) (n : nat) : list b64 := mt_doubles n (mt_seed s).
