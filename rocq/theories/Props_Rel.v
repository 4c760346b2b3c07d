(** Props_Rel: properties comparing two runs of smooth. *)
From Verif Require Import Base TreeSpec Spec M_Tree M_Gamma M_Levels M_Prox M_Grad M_Sgd M_Smooth SpecSmooth SpecRel.
From Verif Require Import L_Base L_Rel L_Rel2 L_Rel3 Props_Smooth.
From Coq Require Import Reals Lra QArith Permutation.
Local Open Scope R_scope.

(** ** C83: units of the response *)

(** C83: measuring the response of a regression in other units (all node values and responses times c, the gradient step divided by the square of c, Adam's epsilon multiplied by it) changes nothing but the units of the outcome when distances are depth distances: same weights, leaf values times c, costs times the square of c, and the same exceptions. *)
Theorem C83_units : forall c : R, c <> 0 -> forall lg ts (o : smooth_opts R) rd pa, o_dist o = DDepth pa ->
  smooth lg (Forest Reg (map (scale_tree c) ts)) (scale_opts c o) rd = rmap (scale_out c) (smooth lg (Forest Reg ts) o rd).
Proof. exact p_C83. Qed.
Print Assumptions C83_units.

Definition ex_small {T} {NT : Num T} (d : dist_choice T) (t : T) (ad : option (adam_par T)) : smooth_opts T :=
  {| o_X_trained := None; o_y_trained := None; o_X_tune := Some exX; o_y_tune := Some exYr;
     o_no_constraint := false; o_sanity := false; o_resample := false; o_t_fix := t; o_all_trees := false;
     o_lamb_draws := None; o_style := Standard; o_dist := d; o_class_eps := n0; o_class_loss := L2; o_adam := ad |}.
Definition lambs {T} (r : result (smooth_out T)) : list T := match r with Ok o => s_lamb o | Err _ => [] end.
Definition costs {T} (r : result (smooth_out T)) : list T := match r with Ok o => s_costs o | Err _ => [] end.
Example C83_ex : smooth (fun x => x) (Forest Reg (map (scale_tree (-3)%Q) [ex5_reg; ex3_reg])) (scale_opts (-3)%Q (ex_small (DDepth true) (1#20)%Q None)) (ex_rand [0;1;0]%nat)
    = rmap (scale_out (-3)%Q) (smooth (fun x => x) (Forest Reg [ex5_reg; ex3_reg]) (ex_small (DDepth true) (1#20)%Q None) (ex_rand [0;1;0]%nat)) /\
  costs (smooth (fun x => x) (Forest Reg [ex5_reg; ex3_reg]) (ex_small (DDepth true) (1#20)%Q None) (ex_rand [0;1;0]%nat)) <> [].
Proof. split; [vm_compute; reflexivity|vm_compute; discriminate]. Qed.
Example C83_ex_hyp : forall lg out, smooth lg (Forest Reg [ex5_reg; ex3_reg]) (ex_small (DDepth true) (1/20) None) (ex_rand [0;1;0]%nat) = Ok out ->
  smooth lg (Forest Reg (map (scale_tree (-1)) [ex5_reg; ex3_reg])) (scale_opts (-1) (ex_small (DDepth true) (1/20) None)) (ex_rand [0;1;0]%nat) = Ok (scale_out (-1) out).
Proof. intros lg out H. rewrite (C83_units (-1) ltac:(lra) lg _ _ _ true) by reflexivity. rewrite H. reflexivity. Qed.

(** ... with impurity distances even the number of weights can depend on the units (impurities are multiplied by the square of c, like variances): the break upper_zero compares the smallest distance with the fixed number 2. *)
Theorem C83_impurity_refuted : exists (c : Q) (ts : list (tree Q)) (o : smooth_opts Q) rd out out',
  Qlt 0 c /\ Forall (@wf_tree Q) ts /\ o_dist o = DImp (LInt 7) /\
  smooth (fun x => x) (Forest Reg ts) o rd = Ok out /\
  smooth (fun x => x) (Forest Reg (map (scale_tree c) ts)) (scale_opts c o) rd = Ok out' /\
  length (s_lamb out) = 6%nat /\ length (s_lamb out') = 5%nat /\
  s_costs out = [3#1; 539715#8281]%Q /\ s_costs out' = [3#100; 317787#451250]%Q.
Proof.
  exists (1#10)%Q, [ex5_reg], (ex_small (DImp (LInt 7)) (1#20)%Q None), (ex_rand [0]%nat). eexists. eexists.
  split; [reflexivity|]. split; [repeat constructor|]. split; [reflexivity|].
  split; [vm_compute; reflexivity|]. split; [vm_compute; reflexivity|]. repeat split; vm_compute; reflexivity.
Qed.
Print Assumptions C83_impurity_refuted.

(** ** C85: order of the tuning observations *)

(** C85: the order of the rows of X_tune and y_tune does not matter, for any forest, distance and option ... *)
Theorem C85_tune_order : forall lg rf (o : smooth_opts R) rd X Y X' Y', length Y = length X -> length Y' = length X' ->
  Permutation (combine X Y) (combine X' Y') -> smooth lg rf (with_tune o X' Y') rd = smooth lg rf (with_tune o X Y) rd.
Proof. exact p_C85_tune. Qed.
Print Assumptions C85_tune_order.

(** ... nor does the order in which the out-of-bag or the bootstrap rows of a tree are listed. *)
Theorem C85_sample_order : forall lg rf (o : smooth_opts R) rd rd', (forall q, Permutation (r_oob rd q) (r_oob rd' q)) ->
  (forall q, Permutation (r_boot rd q) (r_boot rd' q)) -> r_draws rd' = r_draws rd ->
  smooth lg rf o rd' = smooth lg rf o rd.
Proof. exact p_C85_sample. Qed.
Print Assumptions C85_sample_order.

Example C85_ex : forall lg rd, smooth lg (Forest Reg [ex5_reg; ex3_reg]) (with_tune (ex_small (DDepth true) (1/20) None) (rev exX) (rev exYr)) rd
  = smooth lg (Forest Reg [ex5_reg; ex3_reg]) (with_tune (ex_small (DDepth true) (1/20) None) exX exYr) rd.
Proof.
  intros. apply C85_tune_order; auto. unfold exX, exYr. cbn [map rev app combine].
  eapply perm_trans; [apply perm_swap|]. eapply perm_trans; [apply perm_skip, perm_swap|]. apply perm_swap.
Qed.
Example C85_ex_sample : forall lg rf (o : smooth_opts R) draws,
  smooth lg rf o {| r_oob := fun q => [3;1;q]%nat; r_boot := fun q => [q;q;0]%nat; r_draws := draws |} =
  smooth lg rf o {| r_oob := fun q => [1;3;q]%nat; r_boot := fun q => [0;q;q]%nat; r_draws := draws |}.
Proof.
  intros. apply C85_sample_order; cbn; intros; auto; [apply perm_swap|].
  eapply perm_trans; [apply perm_swap|]. apply perm_skip, perm_swap.
Qed.

(** ** C86: monotone transformations of the features *)

(** C86: replacing every feature by a strictly increasing function of it, in the data and in the thresholds of the trees, changes nothing else: same weights, costs and node values, same exceptions. *)
Theorem C86_features : forall phi : nat -> R -> R, (forall f a b, a < b -> phi f a < phi f b) ->
  forall lg kd ts (o : smooth_opts R) rd p, Forall (@wf_tree R) ts -> has_features p o ts ->
  smooth lg (Forest kd (map (rescaled_tree phi) ts)) (rescaled_opts phi o) rd =
  rmap (on_trees (rescaled_tree phi)) (smooth lg (Forest kd ts) o rd).
Proof. exact p_C86. Qed.
Print Assumptions C86_features.

Example C86_ex : forall lg rd, smooth lg (Forest Reg (map (rescaled_tree (fun f x => INR (S f) * x + 1)) [ex5_reg; ex3_reg]))
    (rescaled_opts (fun f x => INR (S f) * x + 1) (ex_small (DDepth false) (1/20) None)) rd =
  rmap (on_trees (rescaled_tree (fun f x => INR (S f) * x + 1))) (smooth lg (Forest Reg [ex5_reg; ex3_reg]) (ex_small (DDepth false) (1/20) None) rd).
Proof.
  intros. apply C86_features with (p := 2%nat).
  - intros f a b H. apply Rplus_lt_compat_r, Rmult_lt_compat_l; auto. apply lt_0_INR. lia.
  - apply ex_trees_ok.
  - split.
    + intros X x [H|H] Hx; inversion H; subst. destruct Hx as [<-|[<-|[<-|[]]]]; reflexivity.
    + intros t v [<-|[<-|[]]] Hv L; cbn in Hv.
      * do 5 (destruct v as [|v]; [cbn; lia|]). lia.
      * do 3 (destruct v as [|v]; [cbn; lia|]). lia.
Qed.

(** ** C87: what smooth may look at *)

(** C87: training observations outside every tree's tuning sample have no influence ... *)
Theorem C87_training_rows : forall lg kd ts (o : smooth_opts R) rd X X' y y', same_sample o rd (length ts) X X' y y' ->
  smooth lg (Forest kd ts) (with_trained o X' y') rd = smooth lg (Forest kd ts) (with_trained o X y) rd.
Proof. exact p_C87_rows. Qed.
Print Assumptions C87_training_rows.

(** ... nor have the values and weights of inner nodes, the feature and threshold entries of leaves and, for depth distances, the impurities: weights, costs, leaf values and exceptions are the same. *)
Theorem C87_inner_nodes : forall lg kd ts ts' (o : smooth_opts R) rd imp,
  Forall2 (same_tree imp) ts ts' -> match o_dist o with DDepth _ => True | DImp _ => imp = true end ->
  rrel (same_out imp) (smooth lg (Forest kd ts) o rd) (smooth lg (Forest kd ts') o rd).
Proof. exact p_C87_nodes. Qed.
Print Assumptions C87_inner_nodes.

Example C87_ex_rows : forall lg (o : smooth_opts R) (a b c : R), o_resample o = false ->
  smooth lg (Forest Reg [ex5_reg; ex3_reg]) (with_trained o (exX ++ [[a;b]]) ([1;2;3;c])) {| r_oob := fun q => [q;2]%nat; r_boot := fun q => []; r_draws := [1]%nat |} =
  smooth lg (Forest Reg [ex5_reg; ex3_reg]) (with_trained o exX [1;2;3]) {| r_oob := fun q => [q;2]%nat; r_boot := fun q => []; r_draws := [1]%nat |}.
Proof.
  intros lg o a b c H. apply C87_training_rows. intros q i Hq Hi. rewrite H in Hi. cbn in Hq, Hi.
  assert (D : (i = 0 \/ i = 1 \/ i = 2)%nat) by lia. destruct D as [D | [D | D]]; subst i; split; reflexivity.
Qed.
Definition ex5_other : tree R :=
  mkTree [1;-1;3;-1;-1]%Z [2;-1;4;-1;-1]%Z [0;7;1;8;9]%nat [1;55;1+1;66;77] (map (fun z => [exz z]) [-100;1;0;5;9]%Z) (exrow [0;2;-5;1;1]%Z) (exrow [0;0;0;0;9]%Z).
Example C87_ex_nodes : forall lg rd out, smooth lg (Forest Reg [ex5_reg]) (ex_small (DDepth true) (1/20) None) rd = Ok out ->
  exists out', smooth lg (Forest Reg [ex5_other]) (ex_small (DDepth true) (1/20) None) rd = Ok out' /\
  s_lamb out' = s_lamb out /\ s_costs out' = s_costs out.
Proof.
  intros lg rd out H.
  assert (F : Forall2 (same_tree false) [ex5_reg] [ex5_other]).
  { constructor; [|constructor]. repeat (split; [reflexivity|]). split; [|split; [|discriminate]].
    - intros v L. do 5 (destruct v as [|v]; [try discriminate L; split; reflexivity|]).
      destruct v; discriminate L.
    - intros v L. do 5 (destruct v as [|v]; [try discriminate L; split; reflexivity|]). destruct v; split; reflexivity. }
  pose proof (C87_inner_nodes lg Reg _ _ (ex_small (DDepth true) (1/20) None) rd false F Logic.I) as X.
  rewrite H in X. destruct (smooth lg (Forest Reg [ex5_other]) _ rd) as [out'|]; [|contradiction].
  exists out'. split; auto. destruct X as (_&A&_&_&_&B). auto.
Qed.
