(** M_Box: model of the bounding boxes and centers of tree nodes (smooth_base.py:1700-1835). *)
From Verif Require Import Base TreeSpec M_Gamma.

Section Model.
Context {T : Type} {NT : Num T}.
Local Open Scope num_scope.
Implicit Type t : tree T.

(** one node of storage_bound_box: (min, max) per feature *)
Local Notation box := (list (T * T)).

(** smooth_base.py:1724-1725 [np.array([np.min(X, axis = 0), np.max(X, axis = 0)]).T]:
    a ValueError for an array without rows *)
Definition data_box (X : mat T) : result box :=
  mapM (fun f => let c := map (fun r => nth f r n0) X in
                 do lo <- nminimum c; do hi <- nmaximum c; Ok (lo, hi)) (seq 0 (ncols X)).

(** smooth_base.py:1774 [storage_bound_box[idx_left, split_feature, 1] = split_threshold] *)
Definition cut_above (b : box) (f : nat) (x : T) : box := upd b f (fst (nth f b (n0, n0)), x).
(** smooth_base.py:1779 [storage_bound_box[idx_right, split_feature, 0] = split_threshold] *)
Definition cut_below (b : box) (f : nat) (x : T) : box := upd b f (x, snd (nth f b (n0, n0))).

(** smooth_base.py:1732-1781 [_bound_box_tree]; fuel bounds the depth of the recursion.  A
    feature index beyond the columns of X is an IndexError. *)
Fixpoint bound_box_from (fuel : nat) t (st : list box) (v : nat) : result (list box) :=
  match fuel with
  | O => Err RecursionError
  | S fu =>
    if Z.eqb (lc t v) (-1) then Ok st
    else
      let f := nth v (t_feature t) 0%nat in
      let x := nth v (t_thresh t) n0 in
      let l := Z.to_nat (lc t v) in
      let r := Z.to_nat (rc t v) in
      if Nat.leb (length (nth v st [])) f then Err IndexError
      else
        do st1 <- bound_box_from fu t (upd st l (cut_above (nth v st []) f x)) l;
        bound_box_from fu t (upd st1 r (cut_below (nth v st1 []) f x)) r
  end.

(** smooth_base.py:1702-1730 [bound_box_tree] *)
Definition bound_box_tree t (X : mat T) : result (list box) :=
  match X with
  | [] => Err ValueError
  | _ => do b <- data_box X;
         bound_box_from (size t) t (upd (repeat (repeat (n0, n0) (ncols X)) (size t)) 0 b) 0
  end.

(** smooth_base.py:1783-1801 [center_tree]: mean over the last axis, of length two *)
Definition center_tree t (X : mat T) : result (mat T) :=
  do bs <- bound_box_tree t X;
  Ok (map (map (fun lh => (fst lh + snd lh) / nof 2)) bs).

(** smooth_base.py:1804-1835 [center_forest] *)
Definition center_forest (ts : list (tree T)) (X : mat T) : result (mat T * list nat) :=
  foldM (fun '(m, ti) '(q, t) => do c <- center_tree t X; Ok (m ++ c, ti ++ repeat q (length c)))
        (combine (seq 0 (length ts)) ts) ([], []).

End Model.
