(** Props_Level: property theorems about smooth_level.py. *)
From Coq Require Import Reals Lra Lia QArith.
From Verif Require Import Base TreeSpec Spec M_Tree M_Gamma M_Levels M_Grad M_Smooth M_Level SpecSmooth SpecTune SpecClean SpecLevel.
From Verif Require Import L_Base L_Dist L_Tune L_Level L_Level2 L_Level3 L_Level4 L_Level5 L_Level6 L_Level7 L_Level8 L_Level9.
Local Open Scope R_scope.

(** ** C53: decision paths of the leaves *)

(** C53: decision_path_nodes returns the matrix create_decision_per_leafs returns first ... *)
Theorem C53_same : forall {T} (t : tree T), wf_tree t -> decision_path_nodes t = Ok (fst (create_decision_per_leafs t)).
Proof. intros T t. exact (p_C53 t). Qed.
Print Assumptions C53_same.

(** ... which has a 1 in a leaf's row exactly at the node's ancestors and the leaf itself. *)
Theorem C53_entries : forall {T} (t : tree T), wf_tree t -> exists V, decision_path_nodes t = Ok V /\ length V = n_leaves t /\
  forall i, (i < n_leaves t)%nat -> length (nth i V []) = size t /\
  forall v, (v < size t)%nat -> (anc t v (leaf_id t i) -> nth v (nth i V []) 0%nat = 1%nat) /\ (~ anc t v (leaf_id t i) -> nth v (nth i V []) 0%nat = 0%nat).
Proof. intros T t. exact (p_C53_entry t). Qed.
Print Assumptions C53_entries.

Example C53_ex : decision_path_nodes (@ex5_reg Q _) = Ok [[1;1;0;0;0];[1;0;1;1;0];[1;0;1;0;1]]%nat /\ wf_tree (@ex5_reg Q _).
Proof. split; reflexivity. Qed.

(** ** C54: expansion and symmetrisation of distances *)

(** C54: categorical_depth_expand of a non-empty matrix without negative entries has one slice per value up to the largest entry; each position is 1 in the slice of its entry and 0 in the others, so the index-weighted sum of the slices is the matrix. *)
Theorem C54_expand : forall D, concat D <> [] -> (forall x, In x (concat D) -> (0 <= x)%Z) ->
  exists S, categorical_depth_expand D = Ok S /\
    (forall x, In x (concat D) -> (x < Z.of_nat (length S))%Z) /\ In (Z.of_nat (length S) - 1)%Z (concat D) /\
    (forall d, (d < length S)%nat -> length (nth d S []) = length D /\ forall i, (i < length D)%nat -> length (nth i (nth d S []) []) = length (nth i D [])) /\
    forall i j x, (i < length D)%nat -> nth_error (nth i D []) j = Some x ->
      (forall d, (d < length S)%nat -> nth j (nth i (nth d S []) []) 0%nat = if Z.eq_dec x (Z.of_nat d) then 1%nat else 0%nat) /\
      x = Z.of_nat (sumn (map (fun d => (d * nth j (nth i (nth d S []) []) 0)%nat) (seq 0 (length S)))).
Proof. exact p_C54. Qed.
Print Assumptions C54_expand.

(** ... it raises for an empty matrix and for a negative entry; *)
Theorem C54_refuses : (forall D, concat D = [] -> categorical_depth_expand D = Err ValueError) /\
  (forall D x, In x (concat D) -> (x < 0)%Z -> categorical_depth_expand D = Err AssertionError).
Proof. exact p_C54_fail. Qed.
Print Assumptions C54_refuses.

(** ... max_depth_dist and min_depth_dist of a distance matrix are the entrywise maximum and minimum with the transpose, hence symmetric. *)
Theorem C54_symmetric : forall n (D : list (list R)), square n D ->
  exists A B, max_depth_dist None (Some D) = Ok A /\ min_depth_dist None (Some D) = Ok B /\ square n A /\ square n B /\ symmetric n A /\ symmetric n B /\
  forall i j, (i < n)%nat -> (j < n)%nat ->
    nth j (nth i A []) 0 = Rmax (nth j (nth i D []) 0) (nth i (nth j D []) 0) /\ nth j (nth i B []) 0 = Rmin (nth j (nth i D []) 0) (nth i (nth j D []) 0).
Proof. exact p_C54_sym. Qed.
Print Assumptions C54_symmetric.

Example C54_ex : categorical_depth_expand [[0;1;1];[2;0;1];[2;1;0]]%Z =
    Ok [[[1;0;0];[0;1;0];[0;0;1]]; [[0;1;1];[0;0;1];[0;1;0]]; [[0;0;0];[1;0;0];[1;0;0]]]%nat /\
  max_depth_dist None (Some [[0;1;1];[2;0;1];[2;1;0]]%Q) = Ok [[0;2;2];[2;0;1];[2;1;0]]%Q /\
  min_depth_dist None (Some [[0;1;1];[2;0;1];[2;1;0]]%Q) = Ok [[0;1;1];[1;0;1];[1;1;0]]%Q /\
  square 3 [[0;1;1];[2;0;1];[2;1;0]].
Proof. repeat split; try reflexivity. intros [|[|[|i]]] H; try reflexivity; lia. Qed.

(** ** C55: kernels *)

(** C55: the kernel made from the first m depths weights depth l by lambda_l times the share of trees in which the two observations pass through a common node at depth l (make_Ut_prime of two data sets, with or without calc_depth_for_forest's depths); removing depth 0 shifts the weights by one. *)
Theorem C55_kernel : forall ts (Xn X : list (list R)) dd m (lamb : list R), Forall wf_tree ts -> ts <> [] -> Xn <> [] -> X <> [] ->
  (dd = None \/ dd = Some (fst (calc_depth_for_forest ts))) -> (0 < m)%nat ->
  exists Vn V U U1 sh,
    make_Vt_mat ts Xn dd = Ok Vn /\ make_Vt_mat ts X dd = Ok V /\ make_Ut_prime Vn V (Some m) = Ok U /\ remove_0 U = Ok U1 /\
    (forall l q i j t, nth_error ts q = Some t -> (i < length Xn)%nat -> (j < length X)%nat -> indicates (share t (nth i Xn []) (nth j X []) l) (sh l q i j)) /\
    (length lamb = m -> exists K, make_kernel U (Some lamb) = Ok (Some K) /\ length K = length Xn /\
       forall i, (i < length Xn)%nat -> length (nth i K []) = length X /\ forall j, (j < length X)%nat ->
         nth j (nth i K []) 0 = sumto m (fun l => nth l lamb 0 * (sumto (length ts) (fun q => sh l q i j) / INR (length ts)))) /\
    (length lamb = (m - 1)%nat -> (1 < m)%nat -> exists K, make_kernel U1 (Some lamb) = Ok (Some K) /\ length K = length Xn /\
       forall i, (i < length Xn)%nat -> length (nth i K []) = length X /\ forall j, (j < length X)%nat ->
         nth j (nth i K []) 0 = sumto (m - 1) (fun l => nth l lamb 0 * (sumto (length ts) (fun q => sh (S l) q i j) / INR (length ts)))).
Proof. intros ts Xn X dd m lamb WF NE N1 N2 DD Hm. exact (p_C55_kernel ts Xn X dd WF NE N1 N2 DD m lamb Hm). Qed.
Print Assumptions C55_kernel.

(** ... of a data set with itself and with non-negative weights it is symmetric and positive semi-definite; *)
Theorem C55_psd : forall ts (X : list (list R)) dd m (lamb : list R), Forall wf_tree ts -> ts <> [] -> X <> [] ->
  (dd = None \/ dd = Some (fst (calc_depth_for_forest ts))) -> (0 < m)%nat -> (forall c, In c lamb -> 0 <= c) ->
  exists V U U1, make_Vt_mat ts X dd = Ok V /\ make_Ut_prime V V (Some m) = Ok U /\ remove_0 U = Ok U1 /\
    forall K, make_kernel U (Some lamb) = Ok (Some K) \/ make_kernel U1 (Some lamb) = Ok (Some K) ->
      square (length X) K /\ symmetric (length X) K /\ pos_semidef (length X) K.
Proof. exact p_C55_psd. Qed.
Print Assumptions C55_psd.

(** ... with unit weights depth_dist of the kernel is, between observations i and j, the mean over the trees of the depth of i's leaf less that of the leaves' deepest common ancestor, both counted among the first m depths.  Without depth 0 it is the same, except that it raises when every leaf is a root and that no kernel is left for m = 1; *)
Theorem C55_dist : forall ts (X : list (list R)) dd (lf dl : nat -> nat -> nat) m, Forall wf_tree ts -> ts <> [] -> X <> [] ->
  (dd = None \/ dd = Some (fst (calc_depth_for_forest ts))) -> leaves_of ts X lf ->
  (forall q t i, nth_error ts q = Some t -> (i < length X)%nat -> depth_of t (leaf_id t (lf q i)) (dl q i)) -> (0 < m)%nat ->
  let is_cut D := square (length X) D /\ forall i j, (i < length X)%nat -> (j < length X)%nat -> forall dc : nat -> nat,
    (forall q t, nth_error ts q = Some t -> exists a, is_lca t a (leaf_id t (lf q i)) (leaf_id t (lf q j)) /\ depth_of t a (dc q)) ->
    nth j (nth i D []) 0 = sumto (length ts) (fun q => INR (Nat.min (S (dl q i)) m) - INR (Nat.min (S (dc q)) m)) / INR (length ts) in
  exists V U K D, make_Vt_mat ts X dd = Ok V /\ make_Ut_prime V V (Some m) = Ok U /\
    make_kernel U None = Ok (Some K) /\ depth_dist K = Ok D /\ is_cut D /\
    exists U1, remove_0 U = Ok U1 /\
      (m = 1%nat -> make_kernel (T := R) U1 None = Ok None) /\
      ((1 < m)%nat -> exists K1, make_kernel U1 None = Ok (Some K1) /\
        ((forall q i, (q < length ts)%nat -> (i < length X)%nat -> dl q i = 0%nat) -> depth_dist K1 = Err AssertionError) /\
        ((exists q i, (q < length ts)%nat /\ (i < length X)%nat /\ dl q i <> 0%nat) -> exists D1, depth_dist K1 = Ok D1 /\ is_cut D1)).
Proof. exact q_C55_dist. Qed.
Print Assumptions C55_dist.

(** ... so when m exceeds the depths of the leaves it is the mean over the trees of the leaf distance 'standard'. *)
Theorem C55_standard : forall ts (X : list (list R)) dd (lf dl : nat -> nat -> nat) m, Forall wf_tree ts -> ts <> [] -> X <> [] ->
  (dd = None \/ dd = Some (fst (calc_depth_for_forest ts))) -> leaves_of ts X lf ->
  (forall q t i, nth_error ts q = Some t -> (i < length X)%nat -> depth_of t (leaf_id t (lf q i)) (dl q i)) ->
  (forall q i, (q < length ts)%nat -> (i < length X)%nat -> (dl q i < m)%nat) ->
  exists V U K D, make_Vt_mat ts X dd = Ok V /\ make_Ut_prime V V (Some m) = Ok U /\ make_kernel U None = Ok (Some K) /\ depth_dist K = Ok D /\
    forall i j (k : nat -> nat), (i < length X)%nat -> (j < length X)%nat ->
      (forall q t, nth_error ts q = Some t -> TreeSpec.leaf_dist t Standard (leaf_id t (lf q i)) (leaf_id t (lf q j)) (k q)) ->
      nth j (nth i D []) 0 = sumto (length ts) (fun q => INR (k q)) / INR (length ts).
Proof. exact q_C55_standard. Qed.
Print Assumptions C55_standard.

(** With m the depth of the forest, the number calc_depth_for_forest returns, the deepest level is left out: two sibling leaves get distance 0. *)
Theorem C55_max_depth_refuted : exists (t : tree Q) X U K D, wf_tree t /\ snd (calc_depth_for_forest [t]) = 2%nat /\
  bind (make_Vt_mat [t] X None) (fun V => make_Ut_prime V V (Some 2%nat)) = Ok U /\ make_kernel U None = Ok (Some K) /\ depth_dist K = Ok D /\
  nth 2 (nth 1 D []) 1%Q = 0%Q /\ depth_dist_leaves Standard t = [[0;1;1];[2;0;1];[2;1;0]]%Z.
Proof. exists ex5_reg, exX. do 3 eexists. repeat split; vm_compute; reflexivity. Qed.
Print Assumptions C55_max_depth_refuted.

Example C55_ex : exists U K,
  bind (make_Vt_mat [@ex5_reg Q _; ex3_reg] exX None) (fun V => make_Ut_prime V V (Some 3%nat)) = Ok U /\
  make_kernel U (Some [1;2;4]%Q) = Ok (Some K) /\ K = [[3;1;1];[1;5;3];[1;3;5]]%Q /\
  Forall wf_tree [@ex5_reg R _; ex3_reg].
Proof. do 2 eexists. split; [vm_compute; reflexivity|]. split; [vm_compute; reflexivity|]. split; [vm_compute; reflexivity|]. repeat constructor. Qed.

(** ** C69: make_Ut_prime without a maximal depth *)

(** C69: with max_depth None the number of levels is one less than the number of trees, whatever the depths; *)
Theorem C69_levels : forall ts (Xn X : list (list R)) dd, Forall wf_tree ts -> ts <> [] -> Xn <> [] -> X <> [] ->
  (dd = None \/ dd = Some (fst (calc_depth_for_forest ts))) ->
  exists Vn V U, make_Vt_mat ts Xn dd = Ok Vn /\ make_Vt_mat ts X dd = Ok V /\ make_Ut_prime Vn V None = Ok U /\
    map fst U = seq 0 (length ts - 1) /\ make_Ut_prime Vn V (Some (length ts - 1)%nat) = Ok U.
Proof. exact q_C69. Qed.
Print Assumptions C69_levels.

(** ... so for a forest of one tree there is none and make_kernel returns the number 0 instead of a matrix. *)
Theorem C69_one_tree : forall (t : tree R) (X : list (list R)), wf_tree t -> X <> [] ->
  exists V U, make_Vt_mat [t] X None = Ok V /\ make_Ut_prime V V None = Ok U /\ make_kernel (T := R) U None = Ok None.
Proof. exact q_C69_one. Qed.
Print Assumptions C69_one_tree.

Example C69_ex : exists U, bind (make_Vt_mat [@ex5_reg Q _; ex3_reg] exX None) (fun V => make_Ut_prime V V None) = Ok U /\ map fst U = [0]%nat.
Proof. eexists. split; vm_compute; reflexivity. Qed.

(** ** C56: values written by smooth_all *)

(** C56: for any weights the solver answers with (as many as there are right-hand sides), smooth_all changes only leaf values, and writes to leaf i the sum over the distances k = 0..D (D the depth of the forest) of lambda_k times the mean training response of the leaves at distance k (at most k with parents_all), 0 where there is none. *)
Theorem C56_values : forall fuel feps solve in_null (o : all_opts R) oob boot ts D f lamb, Forall wf_tree ts -> deepest ts D ->
  (forall nc G a l, solve nc G a = Some l -> length l = length a) ->
  smooth_all fuel feps solve in_null o oob boot ts = Ok (f, lamb) ->
  length lamb = S D /\ length f = length ts /\
  forall q t, nth_error ts q = Some t -> exists t', nth_error f q = Some t' /\ same_but_leaf_values t t' /\
    forall i, (i < n_leaves t)%nat -> exists m, (forall k, (k < S D)%nat -> level_mean t (a_parents_all o) i k (m k)) /\
      nth (leaf_id t i) (t_value t') [] = [sumto (S D) (fun k => nth k lamb 0 * m k)].
Proof. exact q_C56_values. Qed.
Print Assumptions C56_values.

(** ... with parents_all and a solver answering with weights that are not negative and sum to 1, the values stay within the range of the tree's leaf values; *)
Theorem C56_range : forall fuel feps solve in_null (o : all_opts R) oob boot ts f lamb, Forall wf_tree ts ->
  (forall G a l, solve (a_no_constraint o) G a = Some l -> simplex (length a) l) ->
  (forall nc G a l, solve nc G a = Some l -> length l = length a) ->
  a_parents_all o = true ->
  smooth_all fuel feps solve in_null o oob boot ts = Ok (f, lamb) ->
  forall q t t' lo hi, nth_error ts q = Some t -> nth_error f q = Some t' -> pos_leaves t ->
    (forall j, (j < n_leaves t)%nat -> lo <= leaf_v t 0 j <= hi) ->
    forall i, (i < n_leaves t)%nat -> exists x, nth (leaf_id t i) (t_value t') [] = [x] /\ lo <= x <= hi.
Proof. exact p_C56_range. Qed.
Print Assumptions C56_range.

(** ... a tree with constant leaf values v gets, at leaf i, v times the weight of the distances at which leaf i has a leaf (nothing lost with parents_all, as leaf i itself is at distance 0); *)
Theorem C56_constant : forall fuel feps solve in_null (o : all_opts R) oob boot ts D f lamb, Forall wf_tree ts -> deepest ts D ->
  (forall nc G a l, solve nc G a = Some l -> length l = length a) ->
  smooth_all fuel feps solve in_null o oob boot ts = Ok (f, lamb) ->
  forall q t t' v, nth_error ts q = Some t -> nth_error f q = Some t' -> pos_leaves t ->
    (forall j, (j < n_leaves t)%nat -> leaf_v t 0 j = v) ->
    forall i, (i < n_leaves t)%nat -> exists r : nat -> R,
      (forall k, (k < S D)%nat -> indicates (exists j d, (j < n_leaves t)%nat /\ TreeSpec.leaf_dist t Standard (leaf_id t i) (leaf_id t j) d /\ (if a_parents_all o then (d <= k)%nat else d = k)) (r k)) /\
      nth (leaf_id t i) (t_value t') [] = [v * sumto (S D) (fun k => nth k lamb 0 * r k)].
Proof. exact q_C56_constant. Qed.
Print Assumptions C56_constant.

(** ... with sanity_check the leaf values are those of the input. *)
Theorem C56_sanity : forall fuel feps solve in_null (o : all_opts R) oob boot ts f lamb, Forall wf_tree ts ->
  (forall nc G a l, solve nc G a = Some l -> length l = length a) ->
  a_sanity o = true ->
  smooth_all fuel feps solve in_null o oob boot ts = Ok (f, lamb) ->
  forall q t t', nth_error ts q = Some t -> nth_error f q = Some t' -> pos_leaves t ->
    forall i, (i < n_leaves t)%nat -> nth (leaf_id t i) (t_value t') [] = [leaf_v t 0 i].
Proof. exact p_C56_sanity. Qed.
Print Assumptions C56_sanity.

(** By default (parents_all False) a constant tree is not preserved: here all leaf values are 1, and the weights (0, 0, 1), which fit the tuning data exactly, turn them into 0, 1, 1. *)
Definition ex5_const {T} {NT : Num T} : tree T :=
  ex5 (map (fun z => [exz z]) [1;1;1;1;1]%Z) (exrow [4;2;2;1;1]%Z) (exrow [0;0;0;0;0]%Z).
Definition ex_all {T} {NT : Num T} (Y : list Z) (nc sanity pa : bool) : all_opts T :=
  {| a_X := exX; a_y := exrow Y; a_X_tune := Some exX; a_y_tune := Some (exrow Y); a_no_constraint := nc; a_sanity := sanity;
     a_resample := false; a_parents_all := pa; a_inner_assess := true |}.
Theorem C56_default_refuted : exists (t : tree Q) f, wf_tree t /\ t_value t = repeat [1%Q] 5 /\
  smooth_all 10 (1 # 4503599627370496) (fun _ _ _ => Some [0;0;1]%Q) (fun _ _ => false) (ex_all [0;1;1]%Z false false false) (fun _ => []) (fun _ => []) [t] = Ok (f, [0;0;1]%Q) /\
  map (fun t' => map (fun i => nth (leaf_id t' i) (t_value t') []) [0;1;2]%nat) f = [[[0];[1];[1]]]%Q.
Proof. exists ex5_const. eexists. split; [reflexivity|]. split; [reflexivity|]. split; vm_compute; reflexivity. Qed.
Print Assumptions C56_default_refuted.

Example C56_ex : exists f,
  smooth_all 10 (1 # 4503599627370496) (fun _ _ _ => Some [1#2;1#4;1#4]%Q) (fun _ _ => true) (ex_all [2;4;8]%Z false false true) (fun _ => []) (fun _ => []) [@ex5_reg Q _; ex3_reg] = Ok (f, [1#2;1#4;1#4]%Q) /\
  map (fun t' => map (fun i => nth (leaf_id t' i) (t_value t') []) (seq 0 (n_leaves t'))) f = [[[5#2];[21#4];[29#4]]; [[45#2];[55#2]]]%Q.
Proof. eexists. split; vm_compute; reflexivity. Qed.

(** ** C57: tuning data per leaf *)

(** C57: process_tuning_leaf_attributes_tree returns per leaf the share of the tuning observations (eps where there are none) and their mean response (0 where there are none); the shares of leaves with observations sum to 1 and the share-weighted means to the overall mean. *)
Theorem C57_attributes : forall (t : tree R) eps X y, wf_tree t -> X <> [] -> length y = length X ->
  exists w yl lf, process_tuning_leaf_attributes_tree t eps X y = Ok (w, yl) /\ routed t X lf /\ length w = n_leaves t /\ length yl = n_leaves t /\
  (forall i, (i < n_leaves t)%nat ->
     let n := length (filter (fun o => Nat.eqb (lf o) i) (seq 0 (length X))) in
     (n = 0%nat -> nth i w 0 = eps /\ nth i yl 0 = 0) /\
     (n <> 0%nat -> nth i w 0 = INR n / INR (length X) /\ INR n * nth i yl 0 = sum_sel (length X) (fun o => Nat.eqb (lf o) i) (fun o => nth o y 0))) /\
  sum_sel (n_leaves t) (fun i => negb (Nat.eqb (length (filter (fun o => Nat.eqb (lf o) i) (seq 0 (length X)))) 0)) (fun i => nth i w 0) = 1 /\
  sumto (n_leaves t) (fun i => nth i w 0 * nth i yl 0) = nsum y / INR (length X).
Proof. exact p_C57. Qed.
Print Assumptions C57_attributes.

Example C57_ex : process_tuning_leaf_attributes_tree (@ex5_reg Q _) (- (1))%Q (map exrow [[0;0];[3;1];[3;2];[0;7]]%Z) [2;4;8;6]%Q = Ok ([1#2;1#2;-1]%Q, [4;6;0]%Q) /\
  wf_tree (@ex5_reg R _).
Proof. split; vm_compute; reflexivity. Qed.

(** ** C58: update_til_psd *)

(** C58: update_til_psd raises for a matrix that is not symmetric (up to allclose).  Otherwise what it returns is accepted as positive definite, is the input if that is accepted, and else differs from it by 1000 eps 2^k on the diagonal for the smallest k whose lift is accepted; *)
Theorem C58_lift : forall n fuel eps G, square n G ->
  (~ near_sym n G -> update_til_psd fuel eps G = Err ValueError) /\
  (near_sym n G -> update_til_psd fuel eps G = Err RecursionError \/
    exists G', update_til_psd fuel eps G = Ok G' /\ is_pos_def G' = true /\
      ((is_pos_def G = true /\ G' = G) \/
       (is_pos_def G = false /\ exists k, lifted n G (1000 * eps * 2 ^ k) G' /\
          forall i M, (i < k)%nat -> lifted n G (1000 * eps * 2 ^ i) M -> is_pos_def M = false))).
Proof. exact p_C58. Qed.
Print Assumptions C58_lift.

(** ... and it does return after finitely many retries. *)
Theorem C58_terminates : forall n eps G, square n G -> near_sym n G -> 0 < eps ->
  exists fuel0, forall fuel, (fuel0 <= fuel)%nat -> exists G', update_til_psd fuel eps G = Ok G'.
Proof. exact p_C58_terminates. Qed.
Print Assumptions C58_terminates.

Example C58_ex : update_til_psd 5 (1#8000)%Q [[1;1];[1;1]]%Q = Ok [[9#8;1];[1;9#8]]%Q /\
  update_til_psd 5 (1#8000)%Q [[1;5#4];[5#4;1]]%Q = Ok [[3#2;5#4];[5#4;3#2]]%Q /\
  update_til_psd 5 (1#8000)%Q [[1;2];[1;1]]%Q = Err ValueError /\
  square 2 [[1;1];[1;1]] /\ near_sym 2 [[1;1];[1;1]].
Proof.
  split; [vm_compute; reflexivity|]. split; [vm_compute; reflexivity|]. split; [vm_compute; reflexivity|].
  split; [split; [reflexivity|intros [|[|i]] H; try reflexivity; lia]|].
  intros [|[|i]] [|[|j]] Hi Hj; try lia; unfold ent; cbn [nth]; replace (1 - 1) with 0 by ring; rewrite Rabs_R0, Rabs_R1; apply Rplus_le_le_0_compat; try apply Rmult_le_pos; try apply pow_le; lra.
Qed.

(** ** C71: the test of positive definiteness *)

(** C71: is_pos_def accepts exactly the matrices symmetric up to allclose whose lower triangle, mirrored, is positive definite; a symmetric matrix is accepted exactly if it is positive definite. *)
Theorem C71_is_pos_def : forall n A, square n A ->
  (is_pos_def A = true <-> near_sym n A /\ exists B, square n B /\ symmetric n B /\ (forall i j, (j <= i)%nat -> (i < n)%nat -> nth j (nth i B []) 0 = nth j (nth i A []) 0) /\ pos_def n B) /\
  (symmetric n A -> (is_pos_def A = true <-> pos_def n A)).
Proof. exact p_C71. Qed.
Print Assumptions C71_is_pos_def.

Example C71_ex : is_pos_def [[2;1];[1;2]]%Q = true /\ is_pos_def [[1;2];[2;1]]%Q = false /\ is_pos_def [[1;1];[1;1]]%Q = false /\ is_pos_def [[1;2];[0;1]]%Q = false.
Proof. repeat split. Qed.

(** ** C70: smooth_all minimises the tuning error *)

(** C70: if the solver answers with feasible weights of least objective (any weights without constraints, else weights that are not negative and sum to 1), the forest smooth_all returns has, among all forests whose leaf values are so weighted level means, the least sum over the trees of the mean squared error on the tree's tuning data plus c times the squared norm of the weights; c is the sum of two lifts of the diagonal, each 0 or 1000 eps 2^k.  In particular its error is at most the original forest's plus c. *)
Theorem C70_optimal : forall fuel feps solve in_null (o : all_opts R) oob boot ts D f lamb, Forall wf_tree ts -> deepest ts D -> 0 <= feps ->
  (forall G a l, length a = S D -> solve (a_no_constraint o) G a = Some l -> feasible (a_no_constraint o) (S D) l /\
     forall l', feasible (a_no_constraint o) (S D) l' -> qp_objective (S D) G a l <= qp_objective (S D) G a l') ->
  a_sanity o = false -> smooth_all fuel feps solve in_null o oob boot ts = Ok (f, lamb) ->
  exists c1 c2 c, lift_of feps c1 /\ lift_of feps c2 /\ c = c1 + c2 /\ 0 <= c /\ feasible (a_no_constraint o) (S D) lamb /\
  (exists data lf, all_data o oob boot ts data lf) /\
  forall data lf, all_data o oob boot ts data lf ->
    (forall l' m, feasible (a_no_constraint o) (S D) l' ->
       (forall q t i k, nth_error ts q = Some t -> (i < n_leaves t)%nat -> (k < S D)%nat -> level_mean t (a_parents_all o) i k (m q i k)) ->
       mean_sse (length ts) data lf (fun q i => leaf_v (nth q f no_tree) 0 i) + c * sqnorm lamb
       <= mean_sse (length ts) data lf (fun q i => sumto (S D) (fun k => nth k l' 0 * m q i k)) + c * sqnorm l') /\
    (Forall pos_leaves ts ->
       mean_sse (length ts) data lf (fun q i => leaf_v (nth q f no_tree) 0 i) + c * sqnorm lamb
       <= mean_sse (length ts) data lf (fun q i => leaf_v (nth q ts no_tree) 0 i) + c).
Proof. exact q_C70. Qed.
Print Assumptions C70_optimal.

(** ... the solution of G l = a, which smooth_all computes by inverting G when there is no constraint, is such an answer. *)
Theorem C70_inverse : forall n G a l, square n G -> symmetric n G -> pos_semidef n G -> length a = n -> length l = n ->
  (forall i, (i < n)%nat -> sumto n (fun j => nth j (nth i G []) 0 * nth j l 0) = nth i a 0) ->
  forall l', length l' = n -> qp_objective n G a l <= qp_objective n G a l'.
Proof. exact p_C70_inverse. Qed.
Print Assumptions C70_inverse.

(** ** C72: smooth_all returns *)

(** C72: smooth_all returns a forest, after finitely many retries, whenever every tree has tuning data, leaf weights are positive, and the solver answers optimally for positive definite matrices; its assessment of the weights against the starting point then never fails. *)
Theorem C72_returns : forall feps solve in_null (o : all_opts R) oob boot ts D, Forall wf_tree ts -> deepest ts D -> Forall pos_leaves ts -> 0 < feps ->
  length (a_y o) = length (a_X o) ->
  (forall q t, nth_error ts q = Some t -> exists d, tuning_set o oob boot q d /\ fst d <> [] /\ length (snd d) = length (fst d)) ->
  (forall G a, length a = S D -> square (S D) G -> symmetric (S D) G -> pos_def (S D) G -> exists l, solve (a_no_constraint o) G a = Some l) ->
  (forall G a l, length a = S D -> solve (a_no_constraint o) G a = Some l -> feasible (a_no_constraint o) (S D) l /\
     forall l', feasible (a_no_constraint o) (S D) l' -> qp_objective (S D) G a l <= qp_objective (S D) G a l') ->
  exists fuel0, forall fuel, (fuel0 <= fuel)%nat -> exists f lamb, smooth_all fuel feps solve in_null o oob boot ts = Ok (f, lamb).
Proof. exact q_C72. Qed.
Print Assumptions C72_returns.

(** the hypotheses on the solver hold for Cramer's rule on the two-leaf tree *)
Definition cramer (nc : bool) (G : list (list R)) (a : list R) : option (list R) :=
  let g i j := nth j (nth i G []) 0 in
  let det := g 0%nat 0%nat * g 1%nat 1%nat - g 0%nat 1%nat * g 0%nat 1%nat in
  if (nc && Rltb 0 (g 0%nat 0%nat) && Rltb 0 det && Reqb (g 0%nat 1%nat) (g 1%nat 0%nat))%bool
  then Some [(nth 0 a 0 * g 1%nat 1%nat - nth 1 a 0 * g 0%nat 1%nat) / det; (nth 1 a 0 * g 0%nat 0%nat - nth 0 a 0 * g 0%nat 1%nat) / det]
  else None.
Lemma cramer_opt : forall G a l, length a = 2%nat -> cramer true G a = Some l -> feasible true 2 l /\
  forall l', feasible true 2 l' -> qp_objective 2 G a l <= qp_objective 2 G a l'.
Proof.
  intros G a l La H. unfold cramer in H. cbv zeta in H. set (g00 := nth 0 (nth 0 G []) 0) in *. set (g01 := nth 1 (nth 0 G []) 0) in *. set (g10 := nth 0 (nth 1 G []) 0) in *. set (g11 := nth 1 (nth 1 G []) 0) in *.
  cbn [andb] in H. destruct (Rltb_spec 0 g00) as [P0|]; [|discriminate]. destruct (Rltb_spec 0 (g00 * g11 - g01 * g01)) as [PD|]; [|discriminate]. destruct (Reqb_spec g01 g10) as [SY|]; [|discriminate].
  cbn [andb] in H. set (d := g00 * g11 - g01 * g01) in *.
  assert (E : l = [(nth 0 a 0 * g11 - nth 1 a 0 * g01) / d; (nth 1 a 0 * g00 - nth 0 a 0 * g01) / d]) by congruence. clear H.
  split; [rewrite E; reflexivity|]. intros l' FL. unfold feasible in FL.
  unfold qp_objective, quad. cbn [sumto]. fold g00 g01 g10 g11. rewrite <- SY, E. cbn [nth].
  set (x := nth 0 l' 0). set (y := nth 1 l' 0). set (u := (nth 0 a 0 * g11 - nth 1 a 0 * g01) / d). set (v := (nth 1 a 0 * g00 - nth 0 a 0 * g01) / d).
  assert (A0 : nth 0 a 0 = g00 * u + g01 * v) by (unfold u, v; unfold d in *; field; lra).
  assert (A1 : nth 1 a 0 = g01 * u + g11 * v) by (unfold u, v; unfold d in *; field; lra).
  rewrite A0, A1.
  assert (Q : 0 <= (g00 * (x - u) + g01 * (y - v)) ^ 2 + d * (y - v) ^ 2) by (apply Rplus_le_le_0_compat; [apply pow2_ge_0|apply Rmult_le_pos; [lra|apply pow2_ge_0]]).
  assert (Q2 : 0 <= g00 * (x - u) ^ 2 + 2 * g01 * (x - u) * (y - v) + g11 * (y - v) ^ 2).
  { apply (Rmult_le_reg_l g00); [exact P0|]. rewrite Rmult_0_r. unfold d in Q. nra. }
  nra.
Qed.
Lemma cramer_total : forall G a, length a = 2%nat -> square 2 G -> symmetric 2 G -> pos_def 2 G -> exists l, cramer true G a = Some l.
Proof.
  intros G a _ _ SY PD. unfold cramer. cbv zeta. pose proof (SY 0%nat 1%nat ltac:(lia) ltac:(lia)) as E.
  pose proof (PD (fun k => match k with O => 1 | _ => 0 end) ltac:(exists 0%nat; split; [lia|lra])) as P0.
  pose proof (PD (fun k => match k with O => - nth 1 (nth 0 G []) 0 | _ => nth 0 (nth 0 G []) 0 end)) as P1.
  unfold quad in P0, P1. cbn [sumto] in P0, P1. rewrite <- E in *.
  set (g00 := nth 0 (nth 0 G []) 0) in *. set (g01 := nth 1 (nth 0 G []) 0) in *. set (g11 := nth 1 (nth 1 G []) 0) in *.
  assert (G0 : 0 < g00) by lra. specialize (P1 ltac:(exists 1%nat; split; [lia|lra])).
  assert (0 < g00 * g11 - g01 * g01) by (apply (Rmult_lt_reg_l g00); [exact G0|]; nra).
  cbn [andb]. destruct (Rltb_spec 0 g00); [|lra]. destruct (Rltb_spec 0 (g00 * g11 - g01 * g01)); [|lra]. destruct (Reqb_spec g01 g01); [|contradiction]. eexists. reflexivity.
Qed.
Ltac exnum := unfold leaf_w, node_w, leaf_v, node_v; cbn; rewrite ?INR_IPR; unfold IPR, IPR_2; cbn; lra.
Lemma ex3_deepest : deepest [@ex3_reg R _] 1.
Proof. apply (deepest_ex [@ex3_reg R _]). repeat constructor. Qed.
Lemma ex3_pos : pos_leaves (@ex3_reg R _).
Proof. intros j Hj. do 2 (destruct j as [|j]; [exnum|]). cbn in Hj. lia. Qed.
Lemma ex_all_tuning : forall Y nc sa pa q d, length Y = 3%nat -> tuning_set (ex_all Y nc sa pa) (fun _ => []) (fun _ => []) q d <-> d = (exX, exrow Y).
Proof. intros. reflexivity. Qed.

Example C72_ex : forall pa : bool, exists fuel f lamb,
  smooth_all fuel 1 cramer (fun _ _ => false) (ex_all [2;4;8]%Z true false pa) (fun _ => []) (fun _ => []) [@ex3_reg R _] = Ok (f, lamb).
Proof.
  intros pa. destruct (C72_returns 1 cramer (fun _ _ => false) (ex_all [2;4;8]%Z true false pa) (fun _ => []) (fun _ => []) [@ex3_reg R _] 1) as (fuel0&H).
  - repeat constructor.
  - apply ex3_deepest.
  - repeat constructor. apply ex3_pos.
  - lra.
  - reflexivity.
  - intros q t _. eexists. split; [reflexivity|]. split; [discriminate|reflexivity].
  - apply cramer_total.
  - apply cramer_opt.
  - destruct (H fuel0 (le_n _)) as (f&lamb&E). exists fuel0, f, lamb. exact E.
Qed.
(** the conclusion of C70 holds for it *)
Example C70_ex : exists fuel f lamb c lf, 0 <= c /\ routed (@ex3_reg R _) exX lf /\
  smooth_all fuel 1 cramer (fun _ _ => false) (ex_all [2;4;8]%Z true false false) (fun _ => []) (fun _ => []) [@ex3_reg R _] = Ok (f, lamb) /\
  mean_sse 1 (fun _ => (exX, [2;4;8])) (fun _ => lf) (fun q i => leaf_v (nth q f no_tree) 0 i) + c * sqnorm lamb
  <= mean_sse 1 (fun _ => (exX, [2;4;8])) (fun _ => lf) (fun q i => leaf_v (@ex3_reg R _) 0 i) + c.
Proof.
  destruct (C72_ex false) as (fuel&f&lamb&E). exists fuel, f, lamb.
  assert (EY : exrow [2;4;8]%Z = [2;4;8]) by (unfold exrow; cbn; rewrite !INR_IPR; unfold IPR, IPR_2; cbn; repeat (apply f_equal2; [lra|]); reflexivity).
  destruct (C70_optimal fuel 1 cramer (fun _ _ => false) (ex_all [2;4;8]%Z true false false) (fun _ => []) (fun _ => []) [@ex3_reg R _] 1 f lamb) as (c1&c2&c&_&_&_&CP&_&(data&lf&DT)&H).
  - repeat constructor.
  - apply ex3_deepest.
  - lra.
  - apply cramer_opt.
  - reflexivity.
  - exact E.
  - destruct (H data lf DT) as [_ H2]. specialize (H2 (Forall_cons _ ex3_pos (Forall_nil _))).
    destruct (DT 0%nat _ eq_refl) as [D0 R0]. apply ex_all_tuning in D0; [|reflexivity]. rewrite EY in D0.
    exists c, (lf 0%nat). split; [exact CP|]. split; [rewrite D0 in R0; exact R0|]. split; [exact E|].
    unfold mean_sse in *. cbn [length sumto] in H2. rewrite D0 in H2. cbn [fst snd nth] in H2. cbn [sumto fst snd]. exact H2.
Qed.
