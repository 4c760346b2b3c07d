(** SpecRel2: vocabulary of further properties that compare two runs of smooth. *)
From Verif Require Import Base TreeSpec Spec M_Tree M_Gamma M_Levels M_Grad M_Sgd M_Smooth SpecSmooth SpecRel.
From Coq Require Import Reals Permutation Sorted.
Local Open Scope R_scope.

(** *** numbering of the nodes *)
(** the same tree with its nodes numbered in another order: node [v] of [t'] is node [sg v] of [t] *)
Definition renumbered {T} {NT : Num T} (sg : nat -> nat) (t t' : tree T) : Prop :=
  size t' = size t /\ Permutation (map sg (seq 0 (size t))) (seq 0 (size t)) /\ sg 0%nat = 0%nat /\
  forall v, (v < size t)%nat ->
    is_leafb t' v = is_leafb t (sg v) /\
    (is_leafb t' v = false ->
       lc t (sg v) = Z.of_nat (sg (Z.to_nat (lc t' v))) /\ rc t (sg v) = Z.of_nat (sg (Z.to_nat (rc t' v))) /\
       nth v (t_feature t') 0%nat = nth (sg v) (t_feature t) 0%nat /\ nth v (t_thresh t') n0 = nth (sg v) (t_thresh t) n0) /\
    nth v (t_value t') [] = nth (sg v) (t_value t) [] /\ nth v (t_weight t') n0 = nth (sg v) (t_weight t) n0 /\
    nth v (t_imp t') n0 = nth (sg v) (t_imp t) n0.
(** tree by tree *)
Definition all_renumbered {T} {NT : Num T} (sg : nat -> nat -> nat) (ts ts' : list (tree T)) : Prop :=
  length ts' = length ts /\
  forall q t t', nth_error ts q = Some t -> nth_error ts' q = Some t' -> renumbered (sg q) t t'.

(** *** order of the classes *)
(** class [c] of the new numbering is class [tau c] of the old one *)
Definition class_row {T} {NT : Num T} (nc : nat) (tau : nat -> nat) (r : list T) : list T := map (fun c => nth (tau c) r n0) (seq 0 nc).
Definition class_tree {T} {NT : Num T} (nc : nat) (tau : nat -> nat) (t : tree T) : tree T :=
  mkTree (t_left t) (t_right t) (t_feature t) (t_thresh t) (map (class_row nc tau) (t_value t)) (t_weight t) (t_imp t).
(** [phi] renames the labels; [cs] and [cs'] are the sorted labels before and after *)
Definition relabels (nc : nat) (tau : nat -> nat) (phi : R -> R) (cs cs' : list R) : Prop :=
  StronglySorted Rlt cs /\ StronglySorted Rlt cs' /\ length cs = nc /\ length cs' = nc /\
  forall c, (c < nc)%nat -> phi (nth (tau c) cs 0) = nth c cs' 0.
Definition class_opts {T} {NT : Num T} (nc : nat) (tau : nat -> nat) (phi : T -> T) (o : smooth_opts T) : smooth_opts T :=
  {| o_X_trained := o_X_trained o; o_y_trained := option_map (map phi) (o_y_trained o);
     o_X_tune := o_X_tune o; o_y_tune := option_map (map (class_row nc tau)) (o_y_tune o);
     o_no_constraint := o_no_constraint o; o_sanity := o_sanity o; o_resample := o_resample o;
     o_t_fix := o_t_fix o; o_all_trees := o_all_trees o; o_lamb_draws := o_lamb_draws o;
     o_style := o_style o; o_dist := o_dist o; o_class_eps := o_class_eps o; o_class_loss := o_class_loss o;
     o_adam := o_adam o |}.

(** *** numbering of the features *)
(** feature [f] of the old data is feature [pi f] of the new data *)
Definition feature_tree {T} (pi : nat -> nat) (t : tree T) : tree T :=
  mkTree (t_left t) (t_right t) (map pi (t_feature t)) (t_thresh t) (t_value t) (t_weight t) (t_imp t).
Definition feature_rows (p : nat) (pi : nat -> nat) (X X' : mat R) : Prop :=
  length X' = length X /\ forall o f, (o < length X)%nat -> (f < p)%nat -> nth (pi f) (nth o X' []) 0 = nth f (nth o X []) 0.
Definition with_X (o : smooth_opts R) (Xtr Xtu : option (mat R)) : smooth_opts R :=
  {| o_X_trained := Xtr; o_y_trained := o_y_trained o; o_X_tune := Xtu; o_y_tune := o_y_tune o;
     o_no_constraint := o_no_constraint o; o_sanity := o_sanity o; o_resample := o_resample o;
     o_t_fix := o_t_fix o; o_all_trees := o_all_trees o; o_lamb_draws := o_lamb_draws o;
     o_style := o_style o; o_dist := o_dist o; o_class_eps := o_class_eps o; o_class_loss := o_class_loss o;
     o_adam := o_adam o |}.
(** two optional arrays, both missing or both there and related *)
Definition both {A} (P : A -> A -> Prop) (a b : option A) : Prop :=
  match a, b with None, None => True | Some x, Some y => P x y | _, _ => False end.

(** *** tuning data that are there several times *)
(** every tuning observation [m] times, in any order: tuning pairs, out-of-bag rows and bootstrap rows *)
Definition times {A} (m : nat) (l l' : list A) : Prop := Permutation l' (concat (repeat l m)).
(** step size divided by [m], Adam's epsilon times [m]; everything else as it is *)
Definition slower {T} {NT : Num T} (m : nat) (o : smooth_opts T) : smooth_opts T :=
  {| o_X_trained := o_X_trained o; o_y_trained := o_y_trained o; o_X_tune := o_X_tune o; o_y_tune := o_y_tune o;
     o_no_constraint := o_no_constraint o; o_sanity := o_sanity o; o_resample := o_resample o;
     o_t_fix := ndiv (o_t_fix o) (nof m); o_all_trees := o_all_trees o; o_lamb_draws := o_lamb_draws o;
     o_style := o_style o; o_dist := o_dist o; o_class_eps := o_class_eps o; o_class_loss := o_class_loss o;
     o_adam := option_map (fun p => {| ad_alpha := ad_alpha p; ad_b1 := ad_b1 p; ad_b2 := ad_b2 p; ad_eps := nmul (nof m) (ad_eps p) |}) (o_adam o) |}.
(** costs times [m] *)
Definition dearer {T} {NT : Num T} (m : nat) (out : smooth_out T) : smooth_out T :=
  {| s_forest := s_forest out; s_lamb := s_lamb out; s_forest2 := s_forest2 out; s_lamb2 := s_lamb2 out;
     s_lamb_last := s_lamb_last out; s_costs := map (nmul (nof m)) (s_costs out) |}.
