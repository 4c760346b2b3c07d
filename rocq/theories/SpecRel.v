(** SpecRel: vocabulary of the properties that compare two runs of smooth. *)
From Verif Require Import Base TreeSpec Spec M_Tree M_Gamma M_Levels M_Grad M_Sgd M_Smooth SpecSmooth.
From Coq Require Import Reals Permutation.
Local Open Scope R_scope.

(** the value of a run under a map of the returned values; exceptions stay *)
Definition rmap {A B} (f : A -> B) (x : result A) : result B :=
  match x with Ok a => Ok (f a) | Err e => Err e end.

(** two runs that end alike: both return, related values, or both raise the same exception *)
Definition rrel {A B} (Rel : A -> B -> Prop) (x : result A) (y : result B) : Prop :=
  match x, y with Ok a, Ok b => Rel a b | Err e, Err f => e = f | _, _ => False end.

(** *** change of units of the response *)

(** the tree in the new units: node values times [c], impurities (variances) times the
    square of [c] *)
Definition scale_tree {T} {NT : Num T} (c : T) (t : tree T) : tree T :=
  mkTree (t_left t) (t_right t) (t_feature t) (t_thresh t) (map (map (nmul c)) (t_value t)) (t_weight t)
         (map (nmul (nmul c c)) (t_imp t)).

(** the responses times [c], the step size divided by the square of [c], Adam's epsilon
    times the square of [c]; everything else as it is *)
Definition scale_opts {T} {NT : Num T} (c : T) (o : smooth_opts T) : smooth_opts T :=
  {| o_X_trained := o_X_trained o; o_y_trained := option_map (map (nmul c)) (o_y_trained o);
     o_X_tune := o_X_tune o; o_y_tune := option_map (map (map (nmul c))) (o_y_tune o);
     o_no_constraint := o_no_constraint o; o_sanity := o_sanity o; o_resample := o_resample o;
     o_t_fix := ndiv (o_t_fix o) (nmul c c); o_all_trees := o_all_trees o; o_lamb_draws := o_lamb_draws o;
     o_style := o_style o; o_dist := o_dist o; o_class_eps := o_class_eps o; o_class_loss := o_class_loss o;
     o_adam := option_map (fun p => {| ad_alpha := ad_alpha p; ad_b1 := ad_b1 p; ad_b2 := ad_b2 p;
                                       ad_eps := nmul (nmul c c) (ad_eps p) |}) (o_adam o) |}.

(** the returned tuple in the new units *)
Definition scale_out {T} {NT : Num T} (c : T) (out : smooth_out T) : smooth_out T :=
  {| s_forest := map (scale_tree c) (s_forest out); s_lamb := s_lamb out;
     s_forest2 := map (scale_tree c) (s_forest2 out); s_lamb2 := s_lamb2 out;
     s_lamb_last := s_lamb_last out; s_costs := map (nmul (nmul c c)) (s_costs out) |}.

(** *** order of the tuning observations *)
Definition with_tune (o : smooth_opts R) (X Y : mat R) : smooth_opts R :=
  {| o_X_trained := o_X_trained o; o_y_trained := o_y_trained o; o_X_tune := Some X; o_y_tune := Some Y;
     o_no_constraint := o_no_constraint o; o_sanity := o_sanity o; o_resample := o_resample o;
     o_t_fix := o_t_fix o; o_all_trees := o_all_trees o; o_lamb_draws := o_lamb_draws o;
     o_style := o_style o; o_dist := o_dist o; o_class_eps := o_class_eps o; o_class_loss := o_class_loss o;
     o_adam := o_adam o |}.

(** *** rescaling of the features: feature f is measured on the scale [phi f] *)
Definition rescaled_obs (phi : nat -> R -> R) (x : list R) : list R := map2 phi (seq 0 (length x)) x.
Definition rescaled_tree (phi : nat -> R -> R) (t : tree R) : tree R :=
  mkTree (t_left t) (t_right t) (t_feature t) (map2 phi (t_feature t) (t_thresh t)) (t_value t) (t_weight t) (t_imp t).
Definition rescaled_opts (phi : nat -> R -> R) (o : smooth_opts R) : smooth_opts R :=
  {| o_X_trained := option_map (map (rescaled_obs phi)) (o_X_trained o); o_y_trained := o_y_trained o;
     o_X_tune := option_map (map (rescaled_obs phi)) (o_X_tune o); o_y_tune := o_y_tune o;
     o_no_constraint := o_no_constraint o; o_sanity := o_sanity o; o_resample := o_resample o;
     o_t_fix := o_t_fix o; o_all_trees := o_all_trees o; o_lamb_draws := o_lamb_draws o;
     o_style := o_style o; o_dist := o_dist o; o_class_eps := o_class_eps o; o_class_loss := o_class_loss o;
     o_adam := o_adam o |}.
(** the data have [p] features and the trees split on these *)
Definition has_features (p : nat) (o : smooth_opts R) (ts : list (tree R)) : Prop :=
  (forall X x, o_X_trained o = Some X \/ o_X_tune o = Some X -> In x X -> length x = p) /\
  (forall t v, In t ts -> (v < size t)%nat -> is_leafb t v = false -> (nth v (t_feature t) 0 < p)%nat).
(** a map applied to the trees of both returned forests *)
Definition on_trees (f : tree R -> tree R) (out : smooth_out R) : smooth_out R :=
  {| s_forest := map f (s_forest out); s_lamb := s_lamb out; s_forest2 := map f (s_forest2 out);
     s_lamb2 := s_lamb2 out; s_lamb_last := s_lamb_last out; s_costs := s_costs out |}.

(** *** what smooth may look at *)
(** the same training rows wherever a tree's tuning sample has one *)
Definition same_sample (o : smooth_opts R) (rd : randomness) (n : nat) (X X' : mat R) (y y' : list R) : Prop :=
  forall q i, (q < n)%nat -> In i (if o_resample o then r_boot rd q else r_oob rd q) ->
  nth_error X' i = nth_error X i /\ nth_error y' i = nth_error y i.
Definition with_trained (o : smooth_opts R) (X : mat R) (y : list R) : smooth_opts R :=
  {| o_X_trained := Some X; o_y_trained := Some y; o_X_tune := o_X_tune o; o_y_tune := o_y_tune o;
     o_no_constraint := o_no_constraint o; o_sanity := o_sanity o; o_resample := o_resample o;
     o_t_fix := o_t_fix o; o_all_trees := o_all_trees o; o_lamb_draws := o_lamb_draws o;
     o_style := o_style o; o_dist := o_dist o; o_class_eps := o_class_eps o; o_class_loss := o_class_loss o;
     o_adam := o_adam o |}.
(** trees with the same shape, the same questions at inner nodes, the same values and weights
    at the leaves (and, if [imp], the same impurities); nothing is said about the feature and
    threshold entries of leaves and the values and weights of inner nodes *)
Definition same_tree (imp : bool) (t t' : tree R) : Prop :=
  t_left t' = t_left t /\ t_right t' = t_right t /\
  length (t_value t') = length (t_value t) /\ length (t_weight t') = length (t_weight t) /\
  (forall v, is_leafb t v = false ->
     nth v (t_feature t') 0%nat = nth v (t_feature t) 0%nat /\ nth v (t_thresh t') 0 = nth v (t_thresh t) 0) /\
  (forall v, is_leafb t v = true ->
     nth v (t_value t') [] = nth v (t_value t) [] /\ nth v (t_weight t') 0 = nth v (t_weight t) 0) /\
  (imp = true -> t_imp t' = t_imp t).
(** the same weights, costs, and leaf values *)
Definition same_out (imp : bool) (a b : smooth_out R) : Prop :=
  Forall2 (same_tree imp) (s_forest a) (s_forest b) /\ s_lamb b = s_lamb a /\
  Forall2 (same_tree imp) (s_forest2 a) (s_forest2 b) /\ s_lamb2 b = s_lamb2 a /\
  s_lamb_last b = s_lamb_last a /\ s_costs b = s_costs a.

(** *** descents without Adam *)
(** all rows of Gamma and eta have [K] entries *)
Definition rows_len (K : nat) (P : problem R) : Prop :=
  (forall r, In r (p_Gamma P) -> length r = K) /\ (forall r, In r (p_eta P) -> length r = K).
(** smooth tunes its weights, with the squared error and without Adam *)
Definition plain_l2 (kd : kind) (o : smooth_opts R) : Prop :=
  o_sanity o = false /\ o_adam o = None /\ (kd = Reg \/ o_class_loss o = L2).

(** *** units of the sample weights, origin of the response *)
(** sample weights times [s]; for a classifier the class counts, too *)
Definition reweighted {T} {NT : Num T} (kd : kind) (s : T) (t : tree T) : tree T :=
  mkTree (t_left t) (t_right t) (t_feature t) (t_thresh t)
         (match kd with Reg => t_value t | Class _ => map (map (nmul s)) (t_value t) end)
         (map (nmul s) (t_weight t)) (t_imp t).
(** node values plus [b] *)
Definition shifted {T} {NT : Num T} (b : T) (t : tree T) : tree T :=
  mkTree (t_left t) (t_right t) (t_feature t) (t_thresh t) (map (map (nadd b)) (t_value t)) (t_weight t) (t_imp t).
(** responses plus [b] *)
Definition shifted_opts {T} {NT : Num T} (b : T) (o : smooth_opts T) : smooth_opts T :=
  {| o_X_trained := o_X_trained o; o_y_trained := option_map (map (nadd b)) (o_y_trained o);
     o_X_tune := o_X_tune o; o_y_tune := option_map (map (map (nadd b))) (o_y_tune o);
     o_no_constraint := o_no_constraint o; o_sanity := o_sanity o; o_resample := o_resample o;
     o_t_fix := o_t_fix o; o_all_trees := o_all_trees o; o_lamb_draws := o_lamb_draws o;
     o_style := o_style o; o_dist := o_dist o; o_class_eps := o_class_eps o; o_class_loss := o_class_loss o;
     o_adam := o_adam o |}.
(** the run stopped after [n] steps *)
Definition first_draws (n : nat) (rd : randomness) : randomness :=
  {| r_oob := r_oob rd; r_boot := r_boot rd; r_draws := firstn n (r_draws rd) |}.
(** after every number of steps each leaf sees some training weight through the kernel *)
Definition keeps_mass (lg : R -> R) (kd : kind) (ts : list (tree R)) (o : smooth_opts R) (rd : randomness) : Prop :=
  forall n out, smooth lg (Forest kd ts) o (first_draws n rd) = Ok out ->
  forall q t i kap, nth_error ts q = Some t -> (i < n_leaves t)%nat ->
  smooth_kernel o ts t (s_lamb_last out) i kap -> kmass t kap <> 0.
(** the same shape and splits; leaf values are [f] of the others *)
Definition moved_tree (f : R -> R) (t t' : tree R) : Prop :=
  t_left t' = t_left t /\ t_right t' = t_right t /\ t_feature t' = t_feature t /\ t_thresh t' = t_thresh t /\
  forall v, (v < size t)%nat -> is_leafb t v = true -> nth v (t_value t') [] = map f (nth v (t_value t) []).
(** the same weights and costs; leaf values are [f] of the others *)
Definition moved_out (f : R -> R) (x y : smooth_out R) : Prop :=
  Forall2 (moved_tree f) (s_forest x) (s_forest y) /\ s_lamb y = s_lamb x /\
  Forall2 (moved_tree f) (s_forest2 x) (s_forest2 y) /\ s_lamb2 y = s_lamb2 x /\
  s_lamb_last y = s_lamb_last x /\ s_costs y = s_costs x.

(** *** order of the trees *)
(** the same forest and randomness with the trees in another order: place [q] of the new forest
    holds tree [pi q], with its out-of-bag and bootstrap rows; steps draw the same trees *)
Definition reordered {T} (pi : nat -> nat) (ts ts' : list (tree T)) (rd rd' : randomness) : Prop :=
  length ts' = length ts /\ Permutation (map pi (seq 0 (length ts))) (seq 0 (length ts)) /\
  (forall q, (q < length ts)%nat -> nth_error ts' q = nth_error ts (pi q) /\ r_oob rd' q = r_oob rd (pi q) /\ r_boot rd' q = r_boot rd (pi q)) /\
  Forall2 (fun d d' => Nat.modulo d (length ts) = pi (Nat.modulo d' (length ts))) (r_draws rd) (r_draws rd').
