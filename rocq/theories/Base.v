(** Base: arrays as lists, exceptions as values, the number operations.

    Nothing here models a particular function of the package; these are the
    numpy / Python primitives the model files are written with. *)
From Coq Require Export List Arith ZArith Lia Bool.
From Coq Require Import Reals QArith.
Local Open Scope nat_scope.
Export ListNotations.

(** ** Exceptions as values *)

(** The Python exception classes raised (explicitly, or by a numpy primitive)
    in the modelled code. [RecursionError] is what the model answers when the
    fuel of a recursion runs out; theorems show it is never produced on
    well-formed trees. *)
Inductive exn : Set :=
| ValueError | TypeError | AssertionError | NameError
| IndexError | KeyError | UnboundLocalError | RuntimeError | RecursionError | ZeroDivisionError.

Inductive result (A : Type) : Type :=
| Ok : A -> result A
| Err : exn -> result A.
Arguments Ok {A} _.
Arguments Err {A} _.

Definition bind {A B} (x : result A) (f : A -> result B) : result B :=
  match x with Ok a => f a | Err e => Err e end.

Declare Scope result_scope.
Delimit Scope result_scope with result.
Notation "'do' x <- e ; f" := (bind e (fun x => f))
  (at level 200, x name, e at level 100, f at level 200, right associativity)
  : result_scope.
Notation "'do' ' p <- e ; f" := (bind e (fun x => let 'p := x in f))
  (at level 200, p strict pattern, e at level 100, f at level 200,
   right associativity) : result_scope.
Open Scope result_scope.

(** A Python [for x in l: state = body(state, x)] whose body may raise. *)
Fixpoint foldM {A B} (f : A -> B -> result A) (l : list B) (a : A) : result A :=
  match l with
  | [] => Ok a
  | x :: r => bind (f a x) (foldM f r)
  end.

(** [[body(x) for x in l]] whose body may raise. *)
Fixpoint mapM {A B} (f : A -> result B) (l : list A) : result (list B) :=
  match l with
  | [] => Ok []
  | x :: r => bind (f x) (fun y => bind (mapM f r) (fun ys => Ok (y :: ys)))
  end.

(** ** Arrays *)

(** [a[i] = x] *)
Fixpoint upd {A} (l : list A) (i : nat) (x : A) : list A :=
  match l, i with
  | [], _ => []
  | _ :: r, O => x :: r
  | y :: r, S j => y :: upd r j x
  end.

(** elementwise binary operation on two arrays of the same length *)
Fixpoint map2 {A B C} (f : A -> B -> C) (l : list A) (m : list B) : list C :=
  match l, m with
  | a :: l', b :: m' => f a b :: map2 f l' m'
  | _, _ => []
  end.

(** [a[mask]] for a boolean mask *)
Fixpoint mask_select {A} (m : list bool) (l : list A) : list A :=
  match m, l with
  | true :: m', x :: l' => x :: mask_select m' l'
  | false :: m', _ :: l' => mask_select m' l'
  | _, _ => []
  end.

(** [a[mask] = vals]: the masked positions receive the values in order *)
Fixpoint mask_assign {A} (m : list bool) (l vals : list A) : list A :=
  match m, l with
  | true :: m', x :: l' =>
      match vals with
      | v :: vs => v :: mask_assign m' l' vs
      | [] => x :: mask_assign m' l' []
      end
  | false :: m', x :: l' => x :: mask_assign m' l' vals
  | _, _ => l
  end.

(** [np.max] of a list of naturals, 0 for the empty list *)
Definition list_maxn (l : list nat) : nat := fold_right Nat.max 0 l.

(** [np.sum] of naturals *)
Definition sumn (l : list nat) : nat := fold_right Nat.add 0 l.

(** transpose of a rectangular matrix with [c] columns *)
Definition transpose {A} (d : A) (c : nat) (M : list (list A)) : list (list A) :=
  map (fun j => map (fun r => nth j r d) M) (seq 0 c).

(** running sums of lengths etc.: prefix sums starting at [a] *)
Fixpoint offsets (a : nat) (l : list nat) : list nat :=
  match l with
  | [] => []
  | x :: r => a :: offsets (a + x) r
  end.

(** ** Numbers *)

(** The operations the package uses on float arrays. The theorems are about
    the instance for [R]; the instance for rationals [Q] serves to execute
    the model on the repository's test tables. *)
Class Num (T : Type) := {
  n0 : T; n1 : T;
  nadd : T -> T -> T; nsub : T -> T -> T; nmul : T -> T -> T;
  ndiv : T -> T -> T; nopp : T -> T;
  nltb : T -> T -> bool; neqb : T -> T -> bool;
  nsqrt : T -> T;
  nof : nat -> T
}.

Declare Scope num_scope.
Delimit Scope num_scope with num.
Infix "+" := nadd : num_scope.
Infix "-" := nsub : num_scope.
Infix "*" := nmul : num_scope.
Infix "/" := ndiv : num_scope.
Notation "- x" := (nopp x) : num_scope.
Infix "<?" := nltb : num_scope.
Infix "=?" := neqb : num_scope.

Section NumOps.
Context {T : Type} {NT : Num T}.
Local Open Scope num_scope.

(** [np.sum] *)
Definition nsum (l : list T) : T := fold_right nadd n0 l.

(** [np.dot] of two vectors *)
Definition dot (a b : list T) : T := nsum (map2 nmul a b).

(** [M @ v] *)
Definition mv (M : list (list T)) (v : list T) : list T := map (fun r => dot r v) M.

Definition nmax (a b : T) : T := if a <? b then b else a.
Definition nmin (a b : T) : T := if b <? a then b else a.
Definition nleb (a b : T) : bool := negb (b <? a).

(** [np.max] / [np.min] of a non-empty array; numpy raises ValueError on an
    empty one *)
Definition nmaximum (l : list T) : result T :=
  match l with [] => Err ValueError | x :: r => Ok (fold_left nmax r x) end.
Definition nminimum (l : list T) : result T :=
  match l with [] => Err ValueError | x :: r => Ok (fold_left nmin r x) end.

(** [np.cumsum] *)
Fixpoint cumsum_from (a : T) (l : list T) : list T :=
  match l with
  | [] => []
  | x :: r => (a + x) :: cumsum_from (a + x) r
  end.
Definition cumsum (l : list T) : list T := cumsum_from n0 l.

Fixpoint npow (x : T) (k : nat) : T :=
  match k with O => n1 | S j => x * npow x j end.

End NumOps.

(** ** Instances *)

Definition Rltb (a b : R) : bool := if Rlt_dec a b then true else false.
Definition Reqb (a b : R) : bool := if Req_EM_T a b then true else false.

#[global] Instance RNum : Num R := {|
  n0 := 0%R; n1 := 1%R;
  nadd := Rplus; nsub := Rminus; nmul := Rmult; ndiv := Rdiv; nopp := Ropp;
  nltb := Rltb; neqb := Reqb; nsqrt := sqrt; nof := INR
|}.

(** rationals in lowest terms (executable) *)
Definition Qltb (a b : Q) : bool := negb (Qle_bool b a).
Definition qred_op (f : Q -> Q -> Q) (a b : Q) : Q := Qred (f a b).
(** a rational square root good enough to execute examples: exact on squares *)
Definition Qsqrt_approx (a : Q) : Q :=
  Qred (Z.sqrt (Qnum a * Zpos (Qden a) * 10^24) # (Qden a * 10^12)).

#[global] Instance QNum : Num Q := {|
  n0 := 0%Q; n1 := 1%Q;
  nadd := qred_op Qplus; nsub := qred_op Qminus; nmul := qred_op Qmult;
  ndiv := qred_op Qdiv; nopp := (fun a => Qred (- a));
  nltb := Qltb; neqb := Qeq_bool; nsqrt := Qsqrt_approx;
  nof := (fun n => inject_Z (Z.of_nat n))
|}.
