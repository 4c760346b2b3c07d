(** Props_Depth: property theorems about tuning the depth (tune_depth.py). *)
From Verif Require Import Base TreeSpec Spec M_Tree M_Smooth M_Depth SpecSmooth SpecDepth.
From Verif Require Import L_Base L_Depth2 L_Dist.
From Coq Require Import Reals Lra Lia QArith.
Local Open Scope R_scope.

(** ** C37: depth-truncated leaf values *)

(** C37: there is one entry for every k below the depth of the tree, and entry k gives to leaf number i the value row of the node where the leaf's path stops when cut at depth k. *)
Theorem C37_truncated_values : forall (t : tree R) d, wf_tree t -> tree_depth t d ->
  length (leaf_predicted_values t) = d /\
  forall k, (k < d)%nat ->
    length (nth k (leaf_predicted_values t) []) = n_leaves t /\
    forall i, (i < n_leaves t)%nat ->
      exists a, cut_node t k (leaf_id t i) a /\
                nth i (nth k (leaf_predicted_values t) []) [] = nth a (t_value t) [].
Proof. exact p_C37. Qed.
Print Assumptions C37_truncated_values.

(** ... that node exists and is unique; *)
Theorem C37_cut_unique : forall (t : tree R) k v, wf_tree t -> (v < size t)%nat ->
  exists a, cut_node t k v a /\ forall b, cut_node t k v b -> b = a.
Proof. exact p_cut_total. Qed.
Print Assumptions C37_cut_unique.

(** ... and it is the leaf itself when the leaf is not deeper than k. *)
Theorem C37_shallow_leaf : forall (t : tree R) d k i e, wf_tree t -> tree_depth t d -> (k < d)%nat -> (i < n_leaves t)%nat ->
  depth_of t (leaf_id t i) e -> (e <= k)%nat ->
  nth i (nth k (leaf_predicted_values t) []) [] = nth (leaf_id t i) (t_value t) [].
Proof. exact p_C37_shallow. Qed.
Print Assumptions C37_shallow_leaf.

(** root value 4; leaf 1 (value 1) at depth 1; leaves 3, 4 (values 5, 9) below node 2 (value 7) *)
Example C37_ex : leaf_predicted_values (@ex5_reg Q _) = [[[4];[4];[4]]; [[1];[7];[7]]]%Q.
Proof. vm_compute. reflexivity. Qed.
Lemma ex5_depth : tree_depth (@ex5_reg R _) 2.
Proof. apply L_Depth.tree_depth_iff; reflexivity. Qed.
Example C37_ex_hyp : wf_tree (@ex5_reg R _) /\ nth 1 (nth 1 (leaf_predicted_values (@ex5_reg R _)) []) [] = nth 2 (t_value (@ex5_reg R _)) [].
Proof.
  split; [reflexivity|]. destruct (C37_truncated_values ex5_reg 2 ltac:(reflexivity) ex5_depth) as (_&H).
  destruct (H 1%nat ltac:(lia)) as (_&H1). destruct (H1 1%nat ltac:(cbn; lia)) as (a&C&E). rewrite E.
  assert (C2 : cut_node (@ex5_reg R _) 1 (leaf_id (@ex5_reg R _) 1) 2).
  { assert (D2 : depth_of (@ex5_reg R _) 2 1) by (apply (TreeSpec.depth_step _ 0 2 0); [apply depth_root|right; reflexivity]).
    assert (D3 : depth_of (@ex5_reg R _) 3 2) by (apply (TreeSpec.depth_step _ 2 3 1); [exact D2|left; reflexivity]).
    exists 2%nat. split; [exact D3|]. split; [|exact D2].
    eapply anc_step; [apply anc_refl; cbn; lia|left; reflexivity]. }
  destruct (C37_cut_unique ex5_reg 1 (leaf_id (@ex5_reg R _) 1) ltac:(reflexivity) ltac:(cbn; lia)) as (b&_&U).
  rewrite (U _ C), (U _ C2). reflexivity.
Qed.

(** ** C38: the chosen depth *)

(** C38: for a non-empty forest of trees with splits and usable tuning data depth_tune returns; the recorded loss of depth k is the sum over the trees of their loss on their own tuning data when cut at depth k, but at most at one less than their depth; the returned trees are cut this way at the first depth of minimal loss. *)
Theorem C38_best_depth : forall kd ts (o : depth_opts R) rd M, tunable kd ts o rd -> is_max_depth ts M ->
  exists ts' fl best, depth_tune (Forest kd ts) o rd = Ok (ts', fl) /\ length ts' = length ts /\ length fl = M /\
    (best < M)%nat /\ (forall k, (k < M)%nat -> nth best fl 0 <= nth k fl 0) /\
    (forall k, (k < best)%nat -> nth best fl 0 < nth k fl 0) /\
    (forall k, (k < M)%nat -> exists ls, nth k fl 0 = sumto (length ts) (fun q => nth q ls 0) /\
       forall q t d X y, nth_error ts q = Some t -> tree_depth t d -> depth_rows o rd q X y ->
         cut_loss kd t (Nat.min k (d - 1)) X y (nth q ls 0)) /\
    (forall q t d, nth_error ts q = Some t -> tree_depth t d -> exists t',
       nth_error ts' q = Some t' /\ cut_tree t (Nat.min best (d - 1)) t').
Proof. exact p_C38. Qed.
Print Assumptions C38_best_depth.

(** ... so the uncut tree is never a candidate: in every result the deepest leaves have the value of a proper ancestor. *)
Theorem C38_never_full : forall kd ts (o : depth_opts R) rd ts' fl q t d p v, Forall wf_tree ts ->
  depth_tune (Forest kd ts) o rd = Ok (ts', fl) -> nth_error ts q = Some t -> tree_depth t d ->
  depth_of t v d -> child t p v ->
  exists t' a, nth_error ts' q = Some t' /\ anc t a p /\ nth v (t_value t') [] = nth a (t_value t) [].
Proof. exact p_C38_never_full. Qed.
Print Assumptions C38_never_full.

(** ... even when it has the smaller loss. *)
Definition d_opts {T} {NT : Num T} (y : list T) : depth_opts T :=
  {| d_X_trained := None; d_y_trained := None; d_X_tune := Some exX; d_y_tune := Some y; d_resample := false |}.
Theorem C38_full_better_refuted : exists (t : tree Q) (y : list Q) ts' fl, wf_tree t /\
  depth_tune (Forest Reg [t]) (d_opts y) (ex_rand []) = Ok (ts', fl) /\
  data_loss Reg t exX y = Ok 0%Q /\ map Qred fl = [35; 8]%Q.
Proof.
  exists ex5_reg, [1;5;9]%Q. eexists. eexists. split; [reflexivity|].
  split; [vm_compute; reflexivity|]. split; vm_compute; reflexivity.
Qed.
Print Assumptions C38_full_better_refuted.

(** A forest containing a tree without a split always raises; so does a missing training set, and anything that is no forest. *)
Theorem C38_single_leaf_raises : forall kd ts (o : depth_opts R) rd t, wf_tree t -> In t ts -> size t = 1%nat ->
  exists e, depth_tune (Forest kd ts) o rd = Err e.
Proof. exact p_C38_single. Qed.
Print Assumptions C38_single_leaf_raises.
Theorem C38_missing_training : forall kd ts (o : depth_opts R) rd,
  (d_resample o = true \/ d_X_tune o = None \/ d_y_tune o = None) ->
  (d_X_trained o = None \/ d_y_trained o = None) -> depth_tune (Forest kd ts) o rd = Err TypeError.
Proof. exact p_C38_missing. Qed.
Print Assumptions C38_missing_training.
Theorem C38_not_a_forest : forall (o : depth_opts R) rd, depth_tune OtherObject o rd = Err ValueError.
Proof. exact p_C38_other. Qed.
Print Assumptions C38_not_a_forest.

(** the forest [ex5; ex3]: the two-leaf tree counts with its depth 0 for both depths; depth 1 wins *)
Example C38_ex : exists ts' fl, depth_tune (Forest Reg [ex5_reg; ex3_reg]) (d_opts [2;4;8]%Q) (ex_rand []) = Ok (ts', fl) /\
  map Qred fl = [20 + 1259; 11 + 1259]%Q /\
  map (@t_value Q) ts' = [[[4];[1];[7];[7];[7]]; [[25];[25];[25]]]%Q.
Proof. eexists. eexists. split; [vm_compute; reflexivity|]. split; vm_compute; reflexivity. Qed.
(** out-of-bag rows of the training data, and a classification forest *)
Definition d_opts_oob {T} {NT : Num T} (y : list T) : depth_opts T :=
  {| d_X_trained := Some exX; d_y_trained := Some y; d_X_tune := None; d_y_tune := None; d_resample := false |}.
Definition oob_rand : randomness := {| r_oob := fun q => match q with O => [2;0] | _ => [1] end; r_boot := fun _ => []; r_draws := [] |}%nat.
Example C38_ex_oob : exists ts' fl, depth_tune (Forest (Class 2) [ex5_class; ex5_class]) (d_opts_oob [0;1;1]%Q) oob_rand = Ok (ts', fl) /\
  map Qred fl = [2; 2]%Q /\ map (@t_value Q) ts' = repeat (repeat [3;1] 2 ++ [[1;1];[3;1];[3;1]])%Q 2.
Proof. eexists. eexists. split; [vm_compute; reflexivity|]. split; vm_compute; reflexivity. Qed.
Example C38_ex_hyp : tunable Reg [ex5_reg; ex3_reg] (d_opts [2;4;8]) (ex_rand []) /\ is_max_depth [@ex5_reg R _; ex3_reg] 2.
Proof.
  split.
  - split; [discriminate|]. split; [repeat constructor|]. split.
    + intros t [<-|[<-|[]]]; cbn [ex5_reg ex3_reg SpecSmooth.ex5 t_value t_left size length map]; (split; [lia|]);
        intros v Hv; repeat (destruct v as [|v]; [discriminate|]); lia.
    + intros q _. exists exX, [2;4;8]. split; [|split; [discriminate|reflexivity]]. apply dr_given; reflexivity.
  - destruct (calc_depth_attained [@ex5_reg R _; ex3_reg]) as (t&v&I&D); [repeat constructor|discriminate|].
    change 2%nat with (snd (calc_depth_for_forest [@ex5_reg R _; ex3_reg])). split; [|exists t, v; auto].
    intros. eapply calc_depth_upper; eauto. repeat constructor.
Qed.
Example C38_ex_hyp_use : exists ts' fl, depth_tune (Forest Reg [ex5_reg; ex3_reg]) (d_opts [2;4;8]) (ex_rand []) = Ok (ts', fl) /\ length fl = 2%nat.
Proof.
  destruct C38_ex_hyp as [A B]. destruct (C38_best_depth _ _ _ _ _ A B) as (ts'&fl&best&E&_&L&_). exists ts', fl. auto.
Qed.

(** ** C39: only leaf values change *)

(** C39: whenever depth_tune returns, every returned tree has the structure and the internal values of the given one, and the value of every leaf is that of one of its ancestors (or its own). *)
Theorem C39_leaf_values_only : forall kd ts (o : depth_opts R) rd ts' fl, Forall wf_tree ts -> depth_tune (Forest kd ts) o rd = Ok (ts', fl) ->
  length ts' = length ts /\
  forall q t, nth_error ts q = Some t -> exists t', nth_error ts' q = Some t' /\ same_but_leaf_values t t' /\
    forall v, (v < size t)%nat -> is_leafb t v = true ->
      exists a, anc t a v /\ nth v (t_value t') [] = nth a (t_value t) [].
Proof. exact p_C39. Qed.
Print Assumptions C39_leaf_values_only.
