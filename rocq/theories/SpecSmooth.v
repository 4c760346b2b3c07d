(** SpecSmooth: vocabulary of the property statements about smooth. *)
From Verif Require Import Base TreeSpec Spec M_Tree M_Gamma M_Levels M_Grad M_Sgd M_Smooth.
From Coq Require Import Reals.
Local Open Scope R_scope.

(** the level boundaries used for the whole forest (impurity distances only) *)
Definition level_array (s : dstyle) (lv : levels_arg R) (ts : list (tree R)) (arr : list R) : Prop :=
  match lv with
  | LInt n => quantiles_distance_trees s (firstn 5 ts) n = Ok arr
  | LArr l => arr = l
  end.

(** [kap j] is the weight smooth gives leaf j of tree [t] when it averages around
    leaf i: the distance weight at the depth distance, or at the impurity level *)
Definition smooth_kernel (o : smooth_opts R) (ts : list (tree R)) (t : tree R) (lamb : list R) (i : nat)
    (kap : nat -> R) : Prop :=
  match o_dist o with
  | DDepth pa => is_kernel t (o_style o) pa lamb i kap
  | DImp lv => exists arr D e, level_array (o_style o) lv ts arr /\
      impurity_levels (o_style o) (LArr arr) t = Ok (D, e) /\
      forall j, (j < n_leaves t)%nat -> kap j = nth (Z.to_nat (nth j (nth i D []) 0%Z)) lamb 0
  end.

(** the uniform draws for the starting weights are not negative *)
Definition draws_nonneg (o : smooth_opts R) : Prop :=
  match o_lamb_draws o with None => True | Some u => forall k, 0 <= u k end.

(** scikit-learn's statistics: positive leaf weights *)
Definition pos_leaves (t : tree R) : Prop := forall j, (j < n_leaves t)%nat -> 0 < leaf_w t j.
(** class counts of a leaf: not negative, and adding up to its weight *)
Definition class_counts (nc : nat) (t : tree R) : Prop := forall j, (j < n_leaves t)%nat ->
  (forall c, (c < nc)%nat -> 0 <= leaf_v t c j) /\ sumto nc (fun c => leaf_v t c j) = leaf_w t j.

(** observation [x] ends up in leaf number [i] *)
Definition leaf_of {N : Num R} (t : tree R) (x : list R) (i : nat) : Prop :=
  (i < n_leaves t)%nat /\ reaches t x (leaf_id t i).

(** usable tuning data: either tuning data are given (at least one row, one response
    row per observation), or every tree's out-of-bag (or bootstrap) sample is not empty and,
    for a classifier with nc classes, contains exactly nc labels *)
Definition tune_sample (o : smooth_opts R) (rd : randomness) (q : nat) : list nat :=
  if o_resample o then r_boot rd q else r_oob rd q.
Definition good_data (kd : kind) (o : smooth_opts R) (rd : randomness) (ts : list (tree R)) : Prop :=
  (o_resample o = false /\ exists X Y, o_X_tune o = Some X /\ o_y_tune o = Some Y /\ X <> [] /\
     length Y = length X /\ forall r, In r Y -> length r = n_gamma kd) \/
  ((o_resample o = true \/ o_X_tune o = None \/ o_y_tune o = None) /\
   exists X y, o_X_trained o = Some X /\ o_y_trained o = Some y /\ length y = length X /\
     forall q, (q < length ts)%nat -> tune_sample o rd q <> [] /\
       (forall i, In i (tune_sample o rd q) -> (i < length X)%nat) /\
       match kd with
       | Reg => True
       | Class nc => exists cs, NoDup cs /\ length cs = nc /\
           forall v, In v cs <-> exists i, In i (tune_sample o rd q) /\ nth_error y i = Some v
       end).

(** the starting weights can be normalised *)
Definition draws_ok (o : smooth_opts R) : Prop :=
  match o_lamb_draws o with None => True | Some u => (forall k, 0 <= u k) /\ 0 < u 0%nat end.

(** distances between different leaves are positive (automatic for depth distances) and the
    level boundaries are not negative *)
Definition separated (o : smooth_opts R) (ts : list (tree R)) : Prop :=
  match o_dist o with
  | DDepth _ => True
  | DImp lv => (match lv with LArr l => forall x, In x l -> 0 <= x | LInt _ => True end) /\
      forall t Dm m, In t ts -> impurity_dist_leaves (o_style o) t = Ok (Dm, m) ->
      forall i j, (i < n_leaves t)%nat -> (j < n_leaves t)%nat -> i <> j -> 0 < nth j (nth i Dm []) 0
  end.

(** each tree has two leaves at a positive impurity distance and some level boundary is
    not 0 (nothing to ask for depth distances) *)
Definition matrices_exist (o : smooth_opts R) (ts : list (tree R)) : Prop :=
  match o_dist o with
  | DDepth _ => True
  | DImp lv => (match lv with LInt n => (0 < n)%nat | LArr l => exists x, In x l /\ x <> 0 end) /\
      forall t Dm m, In t ts -> impurity_dist_leaves (o_style o) t = Ok (Dm, m) ->
        exists i j, (i < n_leaves t)%nat /\ (j < n_leaves t)%nat /\ 0 < nth j (nth i Dm []) 0
  end.

(** a small regression tree and a small classification tree for the examples: node 0
    splits on feature 0 at 1, node 2 on feature 1 at 2; leaves 1, 3, 4 *)
Definition ex5 {T} {NT : Num T} (value : list (list T)) (w imp : list T) : tree T :=
  mkTree [1;-1;3;-1;-1]%Z [2;-1;4;-1;-1]%Z [0;0;1;0;0]%nat [n1;n0;nadd n1 n1;n0;n0] value w imp.
Definition exz {T} {NT : Num T} (z : Z) : T :=
  match z with Z0 => n0 | Zpos p => nof (Pos.to_nat p) | Zneg p => nopp (nof (Pos.to_nat p)) end.
Definition exrow {T} {NT : Num T} (l : list Z) : list T := map exz l.
(** regression: leaf values 1, 5, 9 with weights 2, 1, 1 *)
Definition ex5_reg {T} {NT : Num T} : tree T :=
  ex5 (map (fun z => [exz z]) [4;1;7;5;9]%Z) (exrow [4;2;2;1;1]%Z) (exrow [10;0;4;0;0]%Z).
(** two classes: leaf counts (2,0), (0,1), (1,0) *)
Definition ex5_class {T} {NT : Num T} : tree T :=
  ex5 (map exrow [[3;1];[2;0];[1;1];[0;1];[1;0]]%Z) (exrow [4;2;2;1;1]%Z) (exrow [10;0;4;0;0]%Z).
(** a two-leaf tree with leaf values 20 and 30 *)
Definition ex3_reg {T} {NT : Num T} : tree T :=
  mkTree [1;-1;-1]%Z [2;-1;-1]%Z [0;0;0]%nat [n1;n0;n0] (map (fun z => [exz z]) [25;20;30]%Z) (exrow [4;2;2]%Z) (exrow [3;0;0]%Z).
(** tuning data: three observations, one per leaf of ex5; options *)
Definition exX {T} {NT : Num T} : mat T := map exrow [[0;0];[3;1];[3;5]]%Z.
Definition ex_opts {T} {NT : Num T} (Y : mat T) (sanity : bool) (d : dist_choice T) (eps : T) (l : loss_choice) : smooth_opts T :=
  {| o_X_trained := None; o_y_trained := None; o_X_tune := Some exX; o_y_tune := Some Y;
     o_no_constraint := false; o_sanity := sanity; o_resample := false; o_t_fix := n1; o_all_trees := false;
     o_lamb_draws := None; o_style := Standard; o_dist := d; o_class_eps := eps; o_class_loss := l; o_adam := None |}.
Definition exYr {T} {NT : Num T} : mat T := map (fun z => [exz z]) [2;4;8]%Z.
Definition exYc {T} {NT : Num T} : mat T := map exrow [[1;0];[0;1];[1;0]]%Z.
Definition ex_rand (draws : list nat) : randomness := {| r_oob := fun _ => []; r_boot := fun _ => []; r_draws := draws |}.
