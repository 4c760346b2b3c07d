(** Props_Prune: property theorems about cost-complexity pruning (tune_prune.py). *)
From Verif Require Import Base TreeSpec Spec M_Tree M_Prune SpecPrune.
From Verif Require Import L_Base L_Prune4.
From Coq Require Import Reals Lra Lia QArith.
Local Open Scope R_scope.

(** ** C40: parents *)

(** C40: calc_parent gives -1 for the root and the one parent of every other node. *)
Theorem C40_calc_parent : forall t : tree R, wf_tree t -> length (calc_parent t) = size t /\ nth 0 (calc_parent t) (-1)%Z = (-1)%Z /\
  forall v, (0 < v < size t)%nat -> exists p, child t p v /\ nth v (calc_parent t) (-1)%Z = Z.of_nat p /\ forall q, child t q v -> q = p.
Proof. exact p_C40. Qed.
Print Assumptions C40_calc_parent.

Example C40_ex : wf_tree (@prune7 R _) /\ calc_parent (@prune7 R _) = [-1;0;0;2;2;4;4]%Z.
Proof. split; reflexivity. Qed.

(** ** C47: risk of a node *)

(** C47: for classification the risk of a node is the share of its weight outside a majority class m, lies in [0,1), and is 0 exactly when all weight is in one class. *)
Theorem C47_class_risk : forall nc k (t : tree R), wf_tree t -> (0 < k)%nat -> class_tree t k -> (forall v, (v < size t)%nat -> 0 < node_w t v) ->
  exists l, r_single_t (TreeObj (Class nc) t) = Ok l /\ length l = size t /\
  forall v, (v < size t)%nat ->
    (exists m, (m < k)%nat /\ (forall c, (c < k)%nat -> node_v t c v <= node_v t m v) /\
       nth v l 0 = sum_sel k (fun c => negb (Nat.eqb c m)) (fun c => node_v t c v) / node_w t v) /\
    0 <= nth v l 0 < 1 /\
    (nth v l 0 = 0 <-> exists m, (m < k)%nat /\ forall c, (c < k)%nat -> c <> m -> node_v t c v = 0).
Proof. exact p_C47. Qed.
Print Assumptions C47_class_risk.

(** ... for regression it is the impurity, and other objects are rejected. *)
Theorem C47_other : (forall t, r_single_t (TreeObj Reg t) = Ok (@t_imp R t)) /\ forall t : tree R, r_single_t (OtherTree t) = Err ValueError.
Proof. exact p_C47_other. Qed.
Print Assumptions C47_other.

Example C47_ex : r_single_t (TreeObj (Class 2) (@prune7 Q _)) = Ok [13 # 34; 1 # 2; 1 # 3; 0; 7 # 15; 1 # 8; 0]%Q.
Proof. vm_compute. reflexivity. Qed.
Example C47_ex_hyp : exists l, r_single_t (TreeObj (Class 2) (@prune7 R _)) = Ok l /\ 0 <= nth 4 l 0 < 1.
Proof.
  destruct prune7_ok as (WF&(PW&_)&CT&_). destruct (C47_class_risk 2 2 prune7 WF ltac:(lia) CT PW) as (l&E&_&H).
  exists l. split; auto. apply (H 4%nat). cbn. lia.
Qed.

(** ** C41: the table before any prune *)

(** C41: the initial table exists and describes the whole tree: |T_t| counts the leaves below t, R(T_t) is their mean risk weighted by n_obs, and g1 = (R({t})-R(T_t))/(|T_t|-1) (NaN at leaves). *)
Theorem C41_initial_table : forall kd (t : tree R), wf_tree t -> good_weights t -> forall rs, risk_of (TreeObj kd t) rs ->
  exists df, initialize_prune_df (TreeObj kd t) = Ok df /\ describes t rs [] df.
Proof. exact p_C41. Qed.
Print Assumptions C41_initial_table.

(** the table of the repository's own example *)
Definition g1_col {T} (df : list (prow T)) : list (gval T) := map (@pr_g1 T) df.
Definition qg (g : gval Q) : gval Q := match g with GFin x => GFin (Qred x) | _ => g end.
Example C41_ex : exists df, initialize_prune_df (TreeObj (Class 2) (@prune7 Q _)) = Ok df /\
  map (@pr_nl Q) df = [4;1;3;1;2;1;1]%nat /\ map (fun r => Qred (pr_sub r)) df = [3 # 17; 1 # 2; 1 # 24; 0; 1 # 15; 1 # 8; 0]%Q /\
  map qg (g1_col df) = [GFin (7 # 102); GNaN; GFin (7 # 48); GNaN; GFin (2 # 5); GNaN; GNaN].
Proof. eexists. split; [vm_compute; reflexivity|]. vm_compute. auto. Qed.
Example C41_ex_hyp : exists rs df, risk_of (TreeObj (Class 2) (@prune7 R _)) rs /\
  initialize_prune_df (TreeObj (Class 2) (@prune7 R _)) = Ok df /\ describes prune7 rs [] df.
Proof.
  destruct prune7_ok as (WF&GW&_&_).
  assert (exists rs, risk_of (TreeObj (Class 2) (@prune7 R _)) rs) as (rs&RO) by (eexists; eexists; split; [reflexivity|intros; reflexivity]).
  destruct (C41_initial_table (Class 2) prune7 WF GW rs RO) as (df&H). exists rs, df. tauto.
Qed.

(** ** C42: any sequence of prunes *)

(** C42: every table reached by successful prunes describes the tree cut at the pruned nodes. *)
Theorem C42_reachable_describes : forall kd (t : tree R), wf_tree t -> good_weights t ->
  forall rs prunes df, risk_of (TreeObj kd t) rs -> reachable (TreeObj kd t) prunes df ->
  exists P, prunes = map Z.of_nat P /\ describes t rs P df.
Proof. exact p_C42. Qed.
Print Assumptions C42_reachable_describes.

(** ** C43: when a prune succeeds *)

(** C43: pruning fails with ValueError exactly at leaves and removed nodes of the current tree (IndexError outside the table) ... *)
Theorem C43_rejects : forall kd (t : tree R), wf_tree t -> good_weights t -> forall P df, reachable (TreeObj kd t) (map Z.of_nat P) df ->
  (forall v, (v < size t)%nat -> (inner_prune df (Z.of_nat v) = Err ValueError <-> now_leaf t P v \/ removed t P v)) /\
  (forall z, (z < 0)%Z \/ (Z.of_nat (size t) <= z)%Z -> inner_prune df z = Err IndexError).
Proof. exact p_C43_error. Qed.
Print Assumptions C43_rejects.

(** ... and succeeds at every internal node: the node is a leaf, the tree has fewer leaves, unrelated rows are untouched. *)
Theorem C43_succeeds : forall kd (t : tree R), wf_tree t -> good_weights t ->
  forall P df v, reachable (TreeObj kd t) (map Z.of_nat P) df -> now_internal t P v ->
  exists df', inner_prune df (Z.of_nat v) = Ok df' /\
    (exists r, nth_error df' v = Some r /\ pr_cl r = (-1)%Z /\ pr_cr r = (-1)%Z /\ pr_nl r = 1%nat) /\
    (forall r r', nth_error df 0 = Some r -> nth_error df' 0 = Some r' -> (pr_nl r' < pr_nl r)%nat) /\
    (forall u, (u < size t)%nat -> ~ anc t v u -> ~ anc t u v -> nth_error df' u = nth_error df u).
Proof. exact p_C43_ok. Qed.
Print Assumptions C43_succeeds.

(** pruning nodes 4 and then 2 of the example: the table describes the tree cut at 4 and 2; pruning 4 again is a ValueError *)
Example C43_ex : exists df0 df, initialize_prune_df (TreeObj (Class 2) (@prune7 Q _)) = Ok df0 /\
  foldM inner_prune [4;2]%Z df0 = Ok df /\ map (@pr_cl Q) df = [1;-1;-1;-2;-2;-2;-2]%Z /\ map (@pr_nl Q) df = [2;1;1;0;0;0;0]%nat /\
  inner_prune df 4 = Err ValueError /\ inner_prune df 2 = Err ValueError /\ inner_prune df 7 = Err IndexError.
Proof. do 2 eexists. split; [vm_compute; reflexivity|]. split; [vm_compute; reflexivity|]. vm_compute. auto. Qed.
Lemma reach42 : exists df, reachable (TreeObj (Class 2) (@prune7 R _)) (map Z.of_nat [4;2]%nat) df.
Proof.
  destruct prune7_ok as (WF&GW&_&_). destruct C41_ex_hyp as (rs&d0&_&I0&_).
  assert (L : forall v, (1 <= v)%nat -> ~ anc (@prune7 R _) v 0).
  { intros v Hv A. apply (L_Tree.anc_zero _ WF) in A. lia. }
  assert (R0 : reachable (TreeObj (Class 2) (@prune7 R _)) (map Z.of_nat []) d0) by (exists d0; split; auto).
  destruct (C43_succeeds (Class 2) prune7 WF GW [] d0 4 R0) as (d1&E1&_).
  { split; [cbn; lia|]. split; [intros (a&[]&_)|]. split; [reflexivity|intros []]. }
  assert (R1 : reachable (TreeObj (Class 2) (@prune7 R _)) (map Z.of_nat [4]%nat) d1).
  { exists d0. split; auto. cbn [map foldM]. rewrite E1. reflexivity. }
  destruct (C43_succeeds (Class 2) prune7 WF GW [4]%nat d1 2 R1) as (d2&E2&_).
  { split; [cbn; lia|]. split; [|split; [reflexivity|cbn; lia]]. intros (a&[<-|[]]&A&NE). apply (L_Tree.anc_lt _ WF) in A. lia. }
  exists d2, d0. split; auto. cbn [map foldM]. rewrite E1. cbn [bind]. rewrite E2. reflexivity.
Qed.
Example C42_ex_hyp : exists rs df, risk_of (TreeObj (Class 2) (@prune7 R _)) rs /\
  reachable (TreeObj (Class 2) (@prune7 R _)) [4;2]%Z df /\ describes prune7 rs [4;2]%nat df.
Proof.
  destruct prune7_ok as (WF&GW&_&_). destruct C41_ex_hyp as (rs&_&RO&_). destruct reach42 as (df&RE). exists rs, df.
  split; auto. split; auto. destruct (C42_reachable_describes (Class 2) prune7 WF GW rs _ df RO RE) as (P&E&D).
  apply map_of_nat_inj in E. subst P. auto.
Qed.

(** ** C44: g1 after a prune *)

(** C44: after a prune g1 is right at the internal nodes and NaN at removed ones, but the pruned node - now a leaf - still has the finite value it had before. *)
Theorem C44_stale_g1 : forall kd (t : tree R), wf_tree t -> good_weights t ->
  forall rs P df v df', risk_of (TreeObj kd t) rs -> reachable (TreeObj kd t) (map Z.of_nat P) df -> inner_prune df (Z.of_nat v) = Ok df' ->
  (forall u r, nth_error df' u = Some r ->
     (now_internal t (v :: P) u -> exists sel, leaves_below t (v :: P) u sel /\
        pr_g1 r = GFin ((rs u - mean_risk t rs sel) / (INR (count_sel t sel) - 1))) /\
     (removed t (v :: P) u -> pr_g1 r = GNaN)) /\
  exists r r' x, nth_error df v = Some r /\ nth_error df' v = Some r' /\ now_leaf t (v :: P) v /\ pr_g1 r = GFin x /\ pr_g1 r' = GFin x.
Proof. exact p_C44. Qed.
Print Assumptions C44_stale_g1.

(** ... hence the rule "prune the node with the smallest g1" cannot be iterated: the node just pruned is still a minimum (the only one if it was the only one), and pruning it again raises ValueError. *)
Theorem C44_weakest_link_stuck : forall kd (t : tree R), wf_tree t -> good_weights t ->
  forall rs P df v df', risk_of (TreeObj kd t) rs -> risk_nonincreasing t rs -> reachable (TreeObj kd t) (map Z.of_nat P) df ->
  inner_prune df (Z.of_nat v) = Ok df' ->
  (minimal_g1 df v -> minimal_g1 df' v) /\ (strictly_minimal_g1 df v -> strictly_minimal_g1 df' v) /\
  inner_prune df' (Z.of_nat v) = Err ValueError.
Proof. exact p_C44_stuck. Qed.
Print Assumptions C44_weakest_link_stuck.

(** in the first example node 0 has the smallest g1; with other counts it is node 4 (g1 = 0), which stays the smallest after it has been pruned *)
Definition weak7 {T} {NT : Num T} : tree T :=
  mkTree (t_left (@prune7 T _)) (t_right (@prune7 T _)) (t_feature (@prune7 T _)) (t_thresh (@prune7 T _))
    (map SpecSmooth.exrow [[21;13];[5;0];[16;13];[0;10];[16;3];[13;2];[3;1]]%Z) (SpecSmooth.exrow [34;5;29;10;19;15;4]%Z) (t_imp (@prune7 T _)).
Example C44_ex : exists df0 df, initialize_prune_df (TreeObj (Class 2) (@weak7 Q _)) = Ok df0 /\ inner_prune df0 4 = Ok df /\
  map qg (g1_col df0) = [GFin (5 # 51); GNaN; GFin (5 # 29); GNaN; GFin 0; GNaN; GNaN]%Q /\
  map qg (g1_col df) = [GFin (5 # 34); GNaN; GFin (10 # 29); GNaN; GFin 0; GNaN; GNaN]%Q /\ map (@pr_nl Q) df = [3;1;2;1;1;0;0]%nat /\
  inner_prune df 4 = Err ValueError.
Proof. do 2 eexists. split; [vm_compute; reflexivity|]. split; [vm_compute; reflexivity|]. vm_compute. auto 10. Qed.
Example C44_ex_hyp : exists rs df df', risk_of (TreeObj (Class 2) (@prune7 R _)) rs /\ risk_nonincreasing prune7 rs /\
  reachable (TreeObj (Class 2) (@prune7 R _)) (map Z.of_nat [4]%nat) df /\ inner_prune df 2 = Ok df'.
Proof.
  destruct prune7_ok as (WF&GW&CT&AV). destruct C41_ex_hyp as (rs&_&RO&_). destruct reach42 as (df&d0&I0&F).
  cbn [map foldM] in F. destruct (inner_prune d0 (Z.of_nat 4)) as [d1|e] eqn:E; [|discriminate]. cbn [bind] in F.
  destruct (inner_prune d1 (Z.of_nat 2)) as [d2|e] eqn:E2; [|discriminate].
  exists rs, d1, d2. split; auto. split; [apply (p_C46_class 2 2 prune7 rs WF ltac:(lia) CT GW AV RO)|].
  split; auto. exists d0. split; auto. cbn [map foldM]. rewrite E. reflexivity.
Qed.

(** ** C45: order of prunes *)

(** C45: pruning v and then its ancestor a gives the table of pruning a alone, except for the stale g1 of a itself ... *)
Theorem C45_absorb : forall kd (t : tree R), wf_tree t -> good_weights t ->
  forall P df v a d1 d2 d3, reachable (TreeObj kd t) (map Z.of_nat P) df -> anc t a v -> a <> v ->
  inner_prune df (Z.of_nat v) = Ok d1 -> inner_prune d1 (Z.of_nat a) = Ok d2 -> inner_prune df (Z.of_nat a) = Ok d3 ->
  forall u r r', nth_error d2 u = Some r -> nth_error d3 u = Some r' -> (u <> a -> r = r') /\ same_but_g1 r r'.
Proof. exact p_C45_absorb. Qed.
Print Assumptions C45_absorb.

(** ... where all three prunes succeed whenever v is an internal node ... *)
Theorem C45_absorb_succeeds : forall kd (t : tree R), wf_tree t -> good_weights t ->
  forall P df v a, reachable (TreeObj kd t) (map Z.of_nat P) df -> anc t a v -> a <> v -> now_internal t P v ->
  exists d1 d2 d3, inner_prune df (Z.of_nat v) = Ok d1 /\ inner_prune d1 (Z.of_nat a) = Ok d2 /\ inner_prune df (Z.of_nat a) = Ok d3.
Proof. exact p_C45_absorb_ok. Qed.
Print Assumptions C45_absorb_succeeds.

(** ... and prunes of two unrelated internal nodes commute exactly. *)
Theorem C45_commute : forall kd (t : tree R), wf_tree t -> good_weights t ->
  forall P df v w, reachable (TreeObj kd t) (map Z.of_nat P) df -> now_internal t P v -> now_internal t P w ->
  ~ anc t v w -> ~ anc t w v ->
  exists d, (do d1 <- inner_prune df (Z.of_nat v); inner_prune d1 (Z.of_nat w)) = Ok d /\
            (do d1 <- inner_prune df (Z.of_nat w); inner_prune d1 (Z.of_nat v)) = Ok d.
Proof. exact p_C45_commute. Qed.
Print Assumptions C45_commute.

(** the stale g1 of the ancestor does differ: 7/48 when 2 is pruned alone, 1/24 after pruning 4 first *)
Example C45_ex : exists df0 d2 d3, initialize_prune_df (TreeObj (Class 2) (@prune7 Q _)) = Ok df0 /\
  foldM inner_prune [4;2]%Z df0 = Ok d2 /\ foldM inner_prune [2]%Z df0 = Ok d3 /\
  map qg (g1_col d2) = [GFin (0 # 1); GNaN; GFin (1 # 24); GNaN; GNaN; GNaN; GNaN] /\
  map qg (g1_col d3) = [GFin (0 # 1); GNaN; GFin (7 # 48); GNaN; GNaN; GNaN; GNaN].
Proof. do 3 eexists. split; [vm_compute; reflexivity|]. split; [vm_compute; reflexivity|]. split; [vm_compute; reflexivity|]. vm_compute. auto. Qed.
Example C45_ex_hyp : exists df d, reachable (TreeObj (Class 2) (@full7 R _)) [] df /\
  (do d1 <- inner_prune df 1; inner_prune d1 2) = Ok d /\ (do d1 <- inner_prune df 2; inner_prune d1 1) = Ok d.
Proof.
  destruct full7_ok as (WF&GW&_&_).
  assert (exists rs, risk_of (TreeObj (Class 2) (@full7 R _)) rs) as (rs&RO) by (eexists; eexists; split; [reflexivity|intros; reflexivity]).
  destruct (C41_initial_table (Class 2) full7 WF GW rs RO) as (df&I0&_).
  assert (R0 : reachable (TreeObj (Class 2) (@full7 R _)) (map Z.of_nat []) df) by (exists df; split; auto).
  assert (N1 : now_internal (@full7 R _) [] 1 /\ now_internal (@full7 R _) [] 2).
  { split; (split; [cbn; lia|]; split; [intros (a&[]&_)|]; split; [reflexivity|intros []]). }
  destruct (C45_commute (Class 2) full7 WF GW [] df 1 2 R0 (proj1 N1) (proj2 N1)) as (d&D1&D2).
  - intros A. inversion A as [|? p ? A' C]; subst. assert (p = 0%nat) by (pose proof (L_Tree.child_lt _ WF _ _ C); apply (L_Tree.anc_lt _ WF) in A'; destruct C as [C|C]; destruct p as [|[|p]]; cbn in C; try lia). subst p. apply (L_Tree.anc_zero _ WF) in A'. lia.
  - intros A. apply (L_Tree.anc_lt _ WF) in A. lia.
  - exists df, d. split; auto.
Qed.

(** ** C46: risk and size along any sequence of prunes *)

(** C46: after any further prunes the root has at least as many leaves fewer as there were prunes, never fewer than one, and if splitting never increases the weighted risk then R(T_root) has not decreased. *)
Theorem C46_monotone : forall kd (t : tree R), wf_tree t -> good_weights t ->
  forall P df more df' r r', reachable (TreeObj kd t) (map Z.of_nat P) df -> foldM inner_prune more df = Ok df' ->
  nth_error df 0 = Some r -> nth_error df' 0 = Some r' ->
  (pr_nl r' + length more <= pr_nl r)%nat /\ (1 <= pr_nl r')%nat /\
  forall rs, risk_of (TreeObj kd t) rs -> risk_nonincreasing t rs -> pr_sub r <= pr_sub r'.
Proof. exact p_C46. Qed.
Print Assumptions C46_monotone.

(** ... which holds for every classification tree whose class counts add up over the children. *)
Theorem C46_class_risk : forall nc k (t : tree R) rs, wf_tree t -> (0 < k)%nat -> class_tree t k -> good_weights t ->
  (forall c, (c < k)%nat -> additive t (node_v t c)) -> risk_of (TreeObj (Class nc) t) rs -> risk_nonincreasing t rs.
Proof. exact p_C46_class. Qed.
Print Assumptions C46_class_risk.

Example C46_ex : exists df0 d1 d2, initialize_prune_df (TreeObj (Class 2) (@prune7 Q _)) = Ok df0 /\
  inner_prune df0 4 = Ok d1 /\ inner_prune d1 0 = Ok d2 /\
  map (fun d => (hd 0%nat (map (@pr_nl Q) d), Qred (hd 0%Q (map (@pr_sub Q) d)))) [df0; d1; d2] = [(4%nat, 3 # 17); (3%nat, 6 # 17); (1%nat, 13 # 34)]%Q.
Proof. do 3 eexists. split; [vm_compute; reflexivity|]. split; [vm_compute; reflexivity|]. split; [vm_compute; reflexivity|]. vm_compute. auto. Qed.
Example C46_ex_hyp : exists rs, risk_of (TreeObj (Class 2) (@full7 R _)) rs /\ risk_nonincreasing full7 rs.
Proof.
  destruct full7_ok as (WF&GW&CT&AV).
  assert (exists rs, risk_of (TreeObj (Class 2) (@full7 R _)) rs) as (rs&RO) by (eexists; eexists; split; [reflexivity|intros; reflexivity]).
  exists rs. split; auto. apply (C46_class_risk 2 2 full7 rs WF ltac:(lia) CT GW AV RO).
Qed.

(** ** C48: prune_tree *)

(** C48: prune_tree raises NameError on every tree, and never returns. *)
Theorem C48_prune_tree : forall kd (t : tree R), wf_tree t -> good_weights t -> prune_tree (TreeObj kd t) = Err NameError.
Proof. exact p_C48. Qed.
Print Assumptions C48_prune_tree.
Theorem C48_never_returns : forall o d, @prune_tree R _ o <> Ok d.
Proof. exact p_C48_any. Qed.
Print Assumptions C48_never_returns.
Example C48_ex : prune_tree (TreeObj (Class 2) (@prune7 Q _)) = Err NameError.
Proof. vm_compute. reflexivity. Qed.

(** ** C67: the scale of g1 *)

(** C67: at every internal node, g1 is CART's critical value divided by the node's own weight (instead of the common total) ... *)
Theorem C67_g1_scale : forall kd (t : tree R) P df v r, wf_tree t -> good_weights t -> reachable (TreeObj kd t) (map Z.of_nat P) df ->
  now_internal t P v -> nth_error df v = Some r -> pr_g1 r = GFin (cart_g r / node_w t v).
Proof. exact p_C67. Qed.
Print Assumptions C67_g1_scale.

(** ... so the smallest g1 need not be CART's weakest link: here g1 selects the root (1/9), CART node 1. *)
Theorem C67_weakest_link_refuted : exists (t : tree Q) df, wf_tree t /\ initialize_prune_df (TreeObj (Class 2) t) = Ok df /\
  map (@pr_nl Q) df = [4;2;2;1;1;1;1]%nat /\
  map qg (g1_col df) = [GFin (1 # 9); GFin (1 # 2); GFin (3 # 10); GNaN; GNaN; GNaN; GNaN] /\
  map (fun r => Qred (cart_g r)) (firstn 3 df) = [4 # 3; 1; 3]%Q.
Proof. exists full7. eexists. split; [reflexivity|]. split; [vm_compute; reflexivity|]. vm_compute. auto. Qed.
Print Assumptions C67_weakest_link_refuted.
