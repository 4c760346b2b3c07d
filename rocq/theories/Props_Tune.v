(** Props_Tune: property theorems about the tuning data of smooth. *)
From Verif Require Import Base TreeSpec Spec M_Tree M_Gamma M_Levels M_Prox M_Grad M_Sgd M_Smooth SpecSmooth SpecTune.
From Verif Require Import L_Base L_Tune Props_Smooth.
From Coq Require Import Reals Lra QArith.
Local Open Scope R_scope.

(** ** C27: leaf weights and targets *)

(** C27: every observation ends in exactly one leaf; the weight of a leaf is the number of observations it received, the weights add up to the number of observations, and the target of a leaf is the mean response of its observations (0 without any). *)
Theorem C27_leaf_weights : forall nc (t : tree R) X Y yl w, wf_tree t -> leaf_targets nc t X Y = Ok (yl, w) ->
  exists lf, routed t X lf /\ length w = n_leaves t /\ length yl = n_leaves t /\ nsum w = INR (length X) /\
  forall i, (i < n_leaves t)%nat ->
    nth i w 0 = INR (length (filter (fun o => Nat.eqb (lf o) i) (seq 0 (length X)))) /\
    forall c, (c < nc)%nat ->
      nth i w 0 * nth c (nth i yl []) 0 = sum_sel (length X) (fun o => Nat.eqb (lf o) i) (fun o => resp Y o c) /\
      (nth i w 0 = 0 -> nth c (nth i yl []) 0 = 0).
Proof. exact p_C27. Qed.
Print Assumptions C27_leaf_weights.

(** five observations, two in the first leaf, three in the last, none in the middle one *)
Example C27_ex : leaf_targets 1 ex5_reg (map exrow [[0;0];[3;5];[1;9];[2;3];[5;3]]%Z) (map (fun z => [exz z]) [2;4;6;1;1]%Z)
  = Ok ([[4];[0];[2]]%Q, [2;0;3]%Q).
Proof. vm_compute. reflexivity. Qed.
Example C27_ex_hyp : exists yl w, leaf_targets 1 ex5_reg exX exYr = Ok (yl, w) /\ nsum w = INR 3.
Proof.
  assert (exists yl w, leaf_targets 1 (@ex5_reg R _) exX exYr = Ok (yl, w)) as (yl&w&E) by (eexists; eexists; reflexivity).
  exists yl, w. split; auto. destruct (C27_leaf_weights 1 ex5_reg exX exYr yl w ltac:(reflexivity) E) as (lf&_&_&_&S&_). exact S.
Qed.

(** ** C26: leaf-level and observation-level loss *)

(** C26: let P be the problem smooth hands to the descent.  For every weight vector at which the cost is defined, cost + wss is the sum of squared errors over all trees' tuning observations of the forest smoothed with these weights; wss does not depend on the weights. *)
Theorem C26_leaf_loss : forall kd ts (o : smooth_opts R) rd G E Ti Y W, Forall (@wf_tree R) ts -> ts <> [] ->
  forest_matrices kd o ts = Ok (G, E, Ti) -> all_targets kd o rd ts = Ok (Y, W) ->
  let P := flatten kd o G E Ti Y W in
  (exists data lf, tuning_of kd o rd ts data lf) /\
  forall data lf, tuning_of kd o rd ts data lf ->
  exists wss, forall lamb c, length lamb = ncols E ->
    calc_cost (p_y P) (p_Gamma P) (p_eta P) (p_w P) lamb = Ok c ->
    exists pred,
     (forall q t i, nth_error ts q = Some t -> (i < n_leaves t)%nat ->
        exists kap, smooth_kernel o ts t lamb i kap /\ forall cc, (cc < n_gamma kd)%nat -> pred q i cc = kmean t kd kap cc) /\
     c + wss = sumto (length ts) (fun q => sse (n_gamma kd) (fst (data q)) (snd (data q)) (lf q) (pred q)).
Proof. exact p_C26. Qed.
Print Assumptions C26_leaf_loss.

(** ... and the smallest recorded cost, plus such a constant, is the sum of squared errors of the returned first forest. *)
Theorem C26_returned : forall (lg : R -> R) kd ts (o : smooth_opts R) rd out, smooth lg (Forest kd ts) o rd = Ok out ->
  Forall (@wf_tree R) ts -> ts <> [] -> o_sanity o = false -> (kd = Reg \/ o_class_loss o = L2) ->
  exists wss cb, In cb (s_costs out) /\ (forall c, In c (s_costs out) -> cb <= c) /\
   forall data lf, tuning_of kd o rd ts data lf -> cb + wss = forest_sse (n_gamma kd) data lf (s_forest out).
Proof. exact p_C26_returned. Qed.
Print Assumptions C26_returned.

(** ** C66: smoothing does not increase the tuning error *)

(** C66: for regression with the default start, the returned first forest has at most the tuning error of the original forest, for every step size, schedule and Adam setting (even without the simplex constraint). *)
Theorem C66_no_worse : forall (lg : R -> R) ts (o : smooth_opts R) rd out, smooth lg (Forest Reg ts) o rd = Ok out ->
  Forall (@wf_tree R) ts -> Forall pos_leaves ts -> ts <> [] -> o_sanity o = false -> o_lamb_draws o = None -> separated o ts ->
  (exists data lf, tuning_of Reg o rd ts data lf) /\
  forall data lf, tuning_of Reg o rd ts data lf -> forest_sse 1 data lf (s_forest out) <= forest_sse 1 data lf ts.
Proof. exact p_C66. Qed.
Print Assumptions C66_no_worse.

Example C26_C66_ex : forall lg pa draws, exists out,
  smooth lg (Forest Reg [ex5_reg; ex3_reg]) (ex_opts exYr false (DDepth pa) 0 L2) (ex_rand draws) = Ok out /\
  (exists wss cb, In cb (s_costs out) /\ forall data lf, tuning_of Reg (ex_opts exYr false (DDepth pa) 0 L2) (ex_rand draws) [ex5_reg; ex3_reg] data lf ->
     cb + wss = forest_sse 1 data lf (s_forest out) /\ forest_sse 1 data lf (s_forest out) <= forest_sse 1 data lf [ex5_reg; ex3_reg]) /\
  exists data lf, tuning_of Reg (ex_opts exYr false (DDepth pa) 0 L2) (ex_rand draws) [ex5_reg; ex3_reg] data lf.
Proof.
  intros. destruct (C65_ex_reg lg false pa draws) as (out&E). exists out. split; auto.
  destruct ex_trees_ok as (A&_&C).
  destruct (C26_returned _ _ _ _ _ _ E A ltac:(discriminate) eq_refl (or_introl eq_refl)) as (wss&cb&B1&_&B2).
  destruct (C66_no_worse _ _ _ _ _ E A C ltac:(discriminate) eq_refl eq_refl I) as [D1 D2].
  split; [|exact D1]. exists wss, cb. split; auto.
Qed.
(** the costs really go down with a small step *)
Definition ex_small : smooth_opts Q :=
  {| o_X_trained := None; o_y_trained := None; o_X_tune := Some exX; o_y_tune := Some exYr;
     o_no_constraint := false; o_sanity := false; o_resample := false; o_t_fix := 1#1000; o_all_trees := false;
     o_lamb_draws := None; o_style := Standard; o_dist := DDepth false; o_class_eps := 0%Q; o_class_loss := L2; o_adam := None |}.
Example C66_ex_strict : match smooth (fun x => x) (Forest Reg [ex5_reg]) ex_small (ex_rand [0]%nat) with
  | Ok out => match s_costs out with [a; b] => Qltb b a | _ => false end | Err _ => false end = true.
Proof. vm_compute. reflexivity. Qed.
