(** Props_DRel: what the tuning of the depth does not depend on. *)
From Verif Require Import Base TreeSpec Spec M_Tree M_Smooth M_Depth SpecSmooth SpecDepth SpecRel SpecRel2 SpecDRel.
From Verif Require Import L_Base L_DRel Props_Depth.
From Coq Require Import Reals Lra QArith Permutation.
Local Open Scope R_scope.

(** ** C114: how the data are written down *)

(** C114: if every tuning observation is given m times, in any order (m = 1: in another order), depth_tune returns the same forest, and the recorded losses are m times as large ... *)
Theorem C114_tune : forall kd ts (o : depth_opts R) rd m X y X' y', (0 < m)%nat -> d_resample o = false -> tunable kd ts (d_with o X y) rd ->
  length y' = length X' -> times m (combine X y) (combine X' y') ->
  depth_tune (Forest kd ts) (d_with o X' y') rd = rmap (d_map (fun t => t) (Rmult (INR m))) (depth_tune (Forest kd ts) (d_with o X y) rd).
Proof. exact p_C114_tune. Qed.
Print Assumptions C114_tune.

(** ... the same holds for the out-of-bag and bootstrap rows of the trees ... *)
Theorem C114_sample : forall kd ts (o : depth_opts R) rd rd' m, (0 < m)%nat -> (d_oob o || d_resample o)%bool = true -> tunable kd ts o rd ->
  (forall q, times m (r_oob rd q) (r_oob rd' q)) -> (forall q, times m (r_boot rd q) (r_boot rd' q)) ->
  depth_tune (Forest kd ts) o rd' = rmap (d_map (fun t => t) (Rmult (INR m))) (depth_tune (Forest kd ts) o rd).
Proof. exact p_C114_sample. Qed.
Print Assumptions C114_sample.

(** ... responses and node values in other units give the same trees in these units, with losses times the square of the factor; the chosen depth is the same ... *)
Theorem C114_units : forall c ts (o : depth_opts R) rd, c <> 0 -> tunable Reg ts o rd ->
  depth_tune (Forest Reg (map (scale_tree c) ts)) (d_responses (Rmult c) o) rd = rmap (d_map (scale_tree c) (Rmult (c * c))) (depth_tune (Forest Reg ts) o rd).
Proof. exact p_C114_units. Qed.
Print Assumptions C114_units.

(** ... a common shift of responses and node values shifts the new node values and leaves the losses alone ... *)
Theorem C114_origin : forall b ts (o : depth_opts R) rd, tunable Reg ts o rd ->
  depth_tune (Forest Reg (map (shifted b) ts)) (d_responses (Rplus b) o) rd = rmap (d_map (shifted b) (fun l => l)) (depth_tune (Forest Reg ts) o rd).
Proof. exact p_C114_origin. Qed.
Print Assumptions C114_origin.

(** ... and increasing transformations of the features, in data and thresholds, change nothing else. *)
Theorem C114_features : forall phi : nat -> R -> R, (forall f a b, a < b -> phi f a < phi f b) ->
  forall kd ts (o : depth_opts R) rd p, d_features p o ts -> tunable kd ts o rd ->
  depth_tune (Forest kd (map (rescaled_tree phi) ts)) (d_rescaled phi o) rd = rmap (d_map (rescaled_tree phi) (fun l => l)) (depth_tune (Forest kd ts) o rd).
Proof. exact p_C114_features. Qed.
Print Assumptions C114_features.

(** the forest and the data of C38 *)
Lemma ex_tunable : tunable Reg [ex5_reg; ex3_reg] (d_opts [2;4;8]) (ex_rand []).
Proof. exact (proj1 C38_ex_hyp). Qed.
Example C114_ex : exists ts' fl, depth_tune (Forest Reg [ex5_reg; ex3_reg]) (d_with (d_opts [2;4;8]) (exX ++ rev exX) ([2;4;8] ++ rev [2;4;8])) (ex_rand []) = Ok (ts', fl) /\
  depth_tune (Forest Reg [ex5_reg; ex3_reg]) (d_opts [2;4;8]) (ex_rand []) = Ok (ts', map (Rmult (1/2)) fl).
Proof.
  destruct (depth_tune (Forest Reg [ex5_reg; ex3_reg]) (d_opts [2;4;8]) (ex_rand [])) as [[ts' fl]|] eqn:E.
  - exists ts', (map (Rmult (INR 2)) fl). split.
    + rewrite (C114_tune Reg [ex5_reg; ex3_reg] (d_opts [2;4;8]) (ex_rand []) 2 exX [2;4;8]); auto.
      * change (d_with (d_opts [2;4;8]) exX [2;4;8]) with (@d_opts R _ [2;4;8]). rewrite E. cbn [rmap]. unfold d_map. cbn [fst snd]. rewrite map_id. reflexivity.
      * apply ex_tunable.
      * unfold times, exX. cbn [map rev app combine repeat concat]. do 3 apply perm_skip.
        eapply perm_trans; [apply perm_swap|]. eapply perm_trans; [apply perm_skip, perm_swap|]. apply perm_swap.
    + f_equal. f_equal. rewrite map_map. rewrite <- (map_id fl) at 1. apply map_ext. intros x. change (INR 2) with (1 + 1). lra.
  - destruct (C38_best_depth Reg _ _ _ 2 ex_tunable (proj2 C38_ex_hyp)) as (ts'&fl&b&E2&_). congruence.
Qed.
(** the same forest in other units, computed: values and responses times -3 *)
Example C114_ex_units : exists ts' fl, depth_tune (Forest Reg (map (scale_tree (-3)%Q) [ex5_reg; ex3_reg])) (d_responses (Qmult (-3)) (d_opts [2;4;8]%Q)) (ex_rand []) = Ok (ts', fl) /\
  map Qred fl = [9 * (20 + 1259); 9 * (11 + 1259)]%Q /\ map (fun t => map (map Qred) (t_value t)) ts' = [[[-12];[-3];[-21];[-21];[-21]]; [[-75];[-75];[-75]]]%Q.
Proof. eexists. eexists. split; [vm_compute; reflexivity|]. split; vm_compute; reflexivity. Qed.
Example C114_ex_features : d_features 2 (d_opts [2;4;8]) [@ex5_reg R _; ex3_reg].
Proof.
  split.
  - intros X x [H|H] Hx; inversion H; subst. destruct Hx as [<-|[<-|[<-|[]]]]; reflexivity.
  - intros t v [<-|[<-|[]]] Hv L; cbn in Hv.
    + do 5 (destruct v as [|v]; [cbn; lia|]). lia.
    + do 3 (destruct v as [|v]; [cbn; lia|]). lia.
Qed.

(** ** C115: order and copies of the trees *)

(** C115: if the new forest holds every tree m times, in any order (m = 1: the same trees in another order), with its out-of-bag and bootstrap rows, depth_tune cuts all trees at the same depth as before, and the recorded losses are m times as large. *)
Theorem C115_trees : forall kd ts ts' (o : depth_opts R) rd rd' m ix, tunable kd ts o rd -> regrouped m ix ts ts' rd rd' ->
  forall us fl, depth_tune (Forest kd ts) o rd = Ok (us, fl) ->
  exists us', depth_tune (Forest kd ts') o rd' = Ok (us', map (Rmult (INR m)) fl) /\ length us' = length ts' /\
    forall q, (q < length ts')%nat -> nth_error us' q = nth_error us (ix q).
Proof. exact p_C115. Qed.
Print Assumptions C115_trees.

(** two copies of [ex5; ex3], as [ex3; ex5; ex5; ex3] *)
Definition ex_ix (q : nat) : nat := nth q [1;0;0;1]%nat 0%nat.
Example C115_ex : regrouped 2 ex_ix [@ex5_reg R _; ex3_reg] [ex3_reg; ex5_reg; ex5_reg; ex3_reg] (ex_rand []) (ex_rand []).
Proof.
  split; [lia|]. split.
  - unfold times. cbn. apply (perm_trans (l' := [0;1;0;1]%nat)); [|reflexivity]. apply perm_swap.
  - intros q Hq. do 4 (destruct q as [|q]; [repeat split|]). cbn in Hq. lia.
Qed.
Example C115_ex_run : exists ts' fl, depth_tune (Forest Reg [ex3_reg; ex5_reg; ex5_reg; ex3_reg]) (d_opts [2;4;8]%Q) (ex_rand []) = Ok (ts', fl) /\
  map Qred fl = [2 * (20 + 1259); 2 * (11 + 1259)]%Q.
Proof. eexists. eexists. split; vm_compute; reflexivity. Qed.
