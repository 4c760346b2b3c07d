(** M_Torch: the torch / numpy array operations smooth_pytorch.py is written with.  Arrays of any
    dimension: a shape and the entries in row-major order.  All arithmetic is exact (float32 and
    float64 are not modelled), and there is no nan: divisions by zero are outside the model. *)
From Verif Require Import Base M_Gamma.

Section Model.
Context {T : Type} {NT : Num T}.
Local Open Scope num_scope.

Record tensor := mkTensor { sh : list nat; dat : list T }.

(** number of entries of an array of this shape *)
Definition numel (s : list nat) : nat := fold_right Nat.mul 1%nat s.

(** all multi-indices in row-major order, and the position of one of them *)
Fixpoint all_idx (s : list nat) : list (list nat) :=
  match s with
  | [] => [[]]
  | n :: r => concat (map (fun i => map (cons i) (all_idx r)) (seq 0 n))
  end.
Fixpoint ravel (s idx : list nat) : nat :=
  match s, idx with
  | _ :: r, i :: is_ => (i * numel r + ravel r is_)%nat
  | _, _ => O
  end.

(** the entry at a multi-index, and the array with given entries *)
Definition get (x : tensor) (idx : list nat) : T := nth (ravel (sh x) idx) (dat x) n0.
Definition build (s : list nat) (f : list nat -> T) : tensor := mkTensor s (map f (all_idx s)).

(** lists with a position added / removed / replaced *)
Definition insert_at {A} (d : nat) (x : A) (l : list A) : list A := firstn d l ++ x :: skipn d l.
Definition remove_at {A} (d : nat) (l : list A) : list A := firstn d l ++ skipn (S d) l.

(** broadcasting of two shapes, last dimension first: equal sizes, or one of them 1, or missing.
    [e] is the error of the library (RuntimeError in torch, ValueError in numpy). *)
Fixpoint bcast_rev (e : exn) (a b : list nat) : result (list nat) :=
  match a, b with
  | [], _ => Ok b
  | _, [] => Ok a
  | x :: a', y :: b' =>
      do r <- bcast_rev e a' b';
      if Nat.eqb x y then Ok (x :: r)
      else if Nat.eqb x 1 then Ok (y :: r)
      else if Nat.eqb y 1 then Ok (x :: r)
      else Err e
  end.
Definition bcast (e : exn) (a b : list nat) : result (list nat) :=
  do r <- bcast_rev e (rev a) (rev b); Ok (rev r).

(** the index of an operand of shape [s] used for index [idx] of the broadcast result *)
Definition bidx (s idx : list nat) : list nat :=
  map2 (fun n i => if Nat.eqb n 1 then O else i) s (skipn (length idx - length s) idx).

(** an elementwise binary operation with broadcasting *)
Definition bop (e : exn) (f : T -> T -> T) (x y : tensor) : result tensor :=
  do s <- bcast e (sh x) (sh y);
  Ok (build s (fun idx => f (get x (bidx (sh x) idx)) (get y (bidx (sh y) idx)))).

(** an elementwise operation *)
Definition tmap (f : T -> T) (x : tensor) : tensor := mkTensor (sh x) (map f (dat x)).

(** [torch.sum(x)], [np.sum(x)], and [np.mean(x)] *)
Definition tsum (x : tensor) : T := nsum (dat x).
Definition tmean (x : tensor) : T := tsum x / nof (length (dat x)).

(** [x.sum(dim = d)] *)
Definition sum_dim (d : nat) (x : tensor) : tensor :=
  build (remove_at d (sh x))
        (fun idx => nsum (map (fun k => get x (insert_at d k idx)) (seq 0 (nth d (sh x) O)))).

(** [torch.nn.Softmax(dim = d)]; [ex] is the exponential (the library subtracts the maximum
    first, which changes nothing in exact arithmetic) *)
Definition softmax (ex : T -> T) (d : nat) (x : tensor) : tensor :=
  build (sh x)
        (fun idx => ex (get x idx) /
                    nsum (map (fun k => ex (get x (insert_at d k (remove_at d idx)))) (seq 0 (nth d (sh x) O)))).

(** [torch.stack(xs, dim = d)]: RuntimeError for an empty list or different shapes *)
Definition stack (d : nat) (xs : list tensor) : result tensor :=
  match xs with
  | [] => Err RuntimeError
  | x :: _ =>
      if forallb (fun y => if list_eq_dec Nat.eq_dec (sh y) (sh x) then true else false) xs
      then Ok (build (insert_at d (length xs) (sh x))
                     (fun idx => get (nth (nth d idx O) xs x) (remove_at d idx)))
      else Err RuntimeError
  end.

(** [x[..., c]] for an integer array c: IndexError when an index is too large *)
Definition index_last (x : tensor) (c : list nat) : result tensor :=
  if forallb (fun j => Nat.ltb j (last (sh x) O)) c
  then Ok (build (removelast (sh x) ++ [length c])
                 (fun idx => get x (removelast idx ++ [nth (last idx O) c O])))
  else Err IndexError.

(** [torch.nn.Linear(len(w), 1)] with weight row [w] and bias [b] *)
Definition linear (w : list T) (b : T) (x : tensor) : result tensor :=
  if Nat.eqb (last (sh x) O) (length w)
  then Ok (build (removelast (sh x) ++ [1%nat])
                 (fun idx => nsum (map (fun v => get x (removelast idx ++ [v]) * nth v w n0)
                                       (seq 0 (length w))) + b))
  else Err RuntimeError.

(** [x.resize_(s)] when the number of entries stays the same; otherwise the result would contain
    uninitialised memory, which is not modelled (RuntimeError) *)
Definition resize (s : list nat) (x : tensor) : result tensor :=
  if Nat.eqb (numel s) (numel (sh x)) then Ok (mkTensor s (dat x)) else Err RuntimeError.

(** one-dimensional arrays; and what torch.utils.data.DataLoader (batch size 1) makes of the
    arrays of one dataset item: a leading dimension of size 1 *)
Definition of_list (l : list T) : tensor := mkTensor [length l] l.
Definition batch_vec (l : list T) : tensor := mkTensor [1%nat; length l] l.
Definition batch_mat (M : mat T) : tensor := mkTensor [1%nat; length M; ncols M] (concat M).

End Model.
Arguments tensor T : clear implicits.
