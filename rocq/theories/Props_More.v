(** Props_More: property theorems about the expanded leaf features (smooth_base.py:1840-2330). *)
From Verif Require Import Base TreeSpec Spec M_Tree M_Gamma M_More SpecDepth SpecSmooth.
From Verif Require Import L_Base L_Tree L_Dist L_More.
From Coq Require Import Reals Lra Lia QArith.
Local Open Scope R_scope.

(** ** C51: expanded leaf features *)

(** C51: create_Gamma_eta_tree_more_per returns Gamma and eta of create_Gamma_eta_tree and, per leaf, its weight, depth and impurity and the depths and impurities of its ancestors up to the tree's depth, provided the largest leaf distance is the tree's depth; otherwise it raises ValueError. *)
Theorem C51_more_per : forall (t : tree R) (kd : kind) (pa : bool) (s : dstyle) d, wf_tree t -> tree_depth t d ->
  (is_max_dist t s d -> exists out,
     create_Gamma_eta_tree_more_per kd pa s t = Ok out /\
     create_Gamma_eta_tree kd pa s t = Ok (mo_Gamma out, mo_eta out) /\
     length (mo_n out) = n_leaves t /\ length (mo_depth out) = n_leaves t /\ length (mo_imp out) = n_leaves t /\
     length (mo_depth_full out) = n_leaves t /\ length (mo_imp_full out) = n_leaves t /\
     forall i, (i < n_leaves t)%nat ->
       nth i (mo_n out) 0 = leaf_w t i /\ depth_of t (leaf_id t i) (nth i (mo_depth out) 0%nat) /\
       nth i (mo_imp out) 0 = nth (leaf_id t i) (t_imp t) 0 /\
       length (nth i (mo_depth_full out) []) = S d /\ length (nth i (mo_imp_full out) []) = S d /\
       forall k a, (k <= d)%nat -> upk t k (leaf_id t i) a ->
         depth_of t a (nth k (nth i (mo_depth_full out) []) 0%nat) /\
         nth k (nth i (mo_imp_full out) []) 0 = nth a (t_imp t) 0) /\
  (~ is_max_dist t s d -> create_Gamma_eta_tree_more_per kd pa s t = Err ValueError).
Proof. exact p_C51. Qed.
Print Assumptions C51_more_per.

(** ... the distances 'standard' and 'max' always reach the tree's depth, so it never raises for them; *)
Theorem C51_reach : forall (t : tree R) s d, wf_tree t -> tree_depth t d -> s <> MinStyle -> is_max_dist t s d.
Proof. exact p_C51_reach. Qed.
Print Assumptions C51_reach.

(** ... create_Gamma_eta_tree_more always returns the leaves' weights, depths and impurities. *)
Theorem C51_more : forall (t : tree R) kd pa s, wf_tree t -> exists G E ns ds is_,
  create_Gamma_eta_tree_more kd pa s t = Ok (G, E, ns, ds, is_) /\ create_Gamma_eta_tree kd pa s t = Ok (G, E) /\
  length ns = n_leaves t /\ length ds = n_leaves t /\ length is_ = n_leaves t /\
  forall i, (i < n_leaves t)%nat -> nth i ns 0 = leaf_w t i /\ depth_of t (leaf_id t i) (nth i ds 0%nat) /\
    nth i is_ 0 = nth (leaf_id t i) (t_imp t) 0.
Proof. exact p_C51_more. Qed.
Print Assumptions C51_more.

(** ... for 'min' it does raise on some trees. *)
Theorem C51_min_refuted : exists t : tree R, wf_tree t /\ create_Gamma_eta_tree_more_per Reg false MinStyle t = Err ValueError.
Proof. exact p_C51_min. Qed.
Print Assumptions C51_min_refuted.

Example C51_ex : exists G E, create_Gamma_eta_tree_more_per Reg false Standard (@ex5_reg Q _) =
    Ok {| mo_Gamma := G; mo_eta := E; mo_n := [2;1;1]%Q; mo_depth := [1;2;2]%nat; mo_imp := [0;0;0]%Q;
          mo_depth_full := [[1;0;0];[2;1;0];[2;1;0]]%nat; mo_imp_full := [[0;10;10];[0;4;10];[0;4;10]]%Q |} /\
  wf_tree (@ex5_reg R _) /\ tree_depth (@ex5_reg R _) 2 /\ is_max_dist (@ex5_reg R _) Standard 2.
Proof.
  eexists. eexists. split; [vm_compute; reflexivity|]. assert (W : wf_tree (@ex5_reg R _)) by reflexivity.
  assert (D : tree_depth (@ex5_reg R _) 2) by (apply (L_Depth.tree_depth_iff _ W); reflexivity).
  split; auto. split; auto. apply C51_reach; auto. discriminate.
Qed.

(** ** C52: forest padding *)

(** C52: for the distances 'standard' and 'max' create_Gamma_eta_forest_more returns Gamma, eta and t_idx of create_Gamma_eta_forest and, in the same row order, the features of every leaf; the depth features are those of the ancestors for all levels, but beyond the depth of its own tree a leaf's impurity features are the impurity of the tree's first leaf. *)
Theorem C52_forest_more : forall ts (kd : kind) (pa : bool) (s : dstyle) M, Forall (@wf_tree R) ts -> ts <> [] -> s <> MinStyle -> is_max_depth ts M ->
  exists out ti, create_Gamma_eta_forest_more kd pa s ts = Ok (out, ti) /\
  create_Gamma_eta_forest kd pa s ts = Ok (mo_Gamma out, mo_eta out, ti) /\
  forall q t d, nth_error ts q = Some t -> tree_depth t d -> forall i, (i < n_leaves t)%nat ->
    let r := (offset ts q + i)%nat in
    nth r (mo_n out) 0 = leaf_w t i /\ depth_of t (leaf_id t i) (nth r (mo_depth out) 0%nat) /\
    nth r (mo_imp out) 0 = nth (leaf_id t i) (t_imp t) 0 /\
    length (nth r (mo_depth_full out) []) = S M /\ length (nth r (mo_imp_full out) []) = S M /\
    forall k a, (k <= M)%nat -> upk t k (leaf_id t i) a ->
      depth_of t a (nth k (nth r (mo_depth_full out) []) 0%nat) /\
      ((k <= d)%nat -> nth k (nth r (mo_imp_full out) []) 0 = nth a (t_imp t) 0) /\
      ((d < k)%nat -> a = 0%nat /\ nth k (nth r (mo_imp_full out) []) 0 = nth (leaf_id t 0) (t_imp t) 0).
Proof. exact p_C52. Qed.
Print Assumptions C52_forest_more.

(** ... so beyond the tree's depth the impurity feature is that of the ancestor (the root) exactly when the first leaf has the root's impurity; *)
Theorem C52_padding_iff : forall ts (kd : kind) (pa : bool) (s : dstyle) M out ti q t d i k, Forall (@wf_tree R) ts -> s <> MinStyle -> is_max_depth ts M ->
  create_Gamma_eta_forest_more kd pa s ts = Ok (out, ti) -> nth_error ts q = Some t -> tree_depth t d -> (i < n_leaves t)%nat ->
  (d < k <= M)%nat ->
  (nth k (nth (offset ts q + i) (mo_imp_full out) []) 0 = nth 0 (t_imp t) 0 <-> nth (leaf_id t 0) (t_imp t) 0 = nth 0 (t_imp t) 0).
Proof. exact p_C52_iff. Qed.
Print Assumptions C52_padding_iff.

(** ... which fails for some forests. *)
Theorem C52_padding_refuted : exists (ts : list (tree R)) out ti t k, Forall (@wf_tree R) ts /\ nth_error ts 0 = Some t /\
  create_Gamma_eta_forest_more Reg false Standard ts = Ok (out, ti) /\
  is_max_depth ts k /\ upk t k (leaf_id t 0) 0 /\ nth k (nth 0 (mo_imp_full out) []) 0 <> nth 0 (t_imp t) 0.
Proof. exact p_C52_refuted. Qed.
Print Assumptions C52_padding_refuted.

Example C52_ex : exists G E, create_Gamma_eta_forest_more Reg false Standard [@ex3_reg Q _; ex5_reg] =
    Ok ({| mo_Gamma := G; mo_eta := E; mo_n := [2;2;2;1;1]%Q; mo_depth := [1;1;1;2;2]%nat; mo_imp := [0;0;0;0;0]%Q;
          mo_depth_full := [[1;0;0];[1;0;0];[1;0;0];[2;1;0];[2;1;0]]%nat;
          mo_imp_full := [[0;3;0];[0;3;0];[0;10;10];[0;4;10];[0;4;10]]%Q |}, [0;0;1;1;1]%nat) /\
  Forall (@wf_tree R) [ex3_reg; ex5_reg] /\ is_max_depth [@ex3_reg R _; ex5_reg] 2.
Proof.
  eexists. eexists. split; [vm_compute; reflexivity|]. split; [repeat constructor|exact ex35_depth].
Qed.
