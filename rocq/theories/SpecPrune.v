(** SpecPrune: vocabulary of the property statements about pruning. *)
From Verif Require Import Base TreeSpec Spec SpecSmooth M_Prune.
From Coq Require Import Reals.
Local Open Scope R_scope.

Section Spec.
Variable t : tree R.

(** what is left of the tree after the nodes of [P] have been turned into leaves:
    a node is gone when a proper ancestor is in P ... *)
Definition removed (P : list nat) (v : nat) : Prop := exists a, In a P /\ anc t a v /\ a <> v.
(** ... it is a leaf when it is not gone and was a leaf or is in P ... *)
Definition now_leaf (P : list nat) (v : nat) : Prop :=
  (v < size t)%nat /\ ~ removed P v /\ (is_leafb t v = true \/ In v P).
(** ... and an internal node otherwise *)
Definition now_internal (P : list nat) (v : nat) : Prop :=
  (v < size t)%nat /\ ~ removed P v /\ is_leafb t v = false /\ ~ In v P.

(** [sel] picks the remaining leaves at or below v *)
Definition leaves_below (P : list nat) (v : nat) (sel : nat -> bool) : Prop :=
  forall u, (u < size t)%nat -> (sel u = true <-> now_leaf P u /\ anc t v u).
Definition count_sel (sel : nat -> bool) : nat := length (filter sel (seq 0 (size t))).

(** positive training weights that add up over children *)
Definition good_weights : Prop :=
  (forall v, (v < size t)%nat -> 0 < node_w t v) /\ additive t (node_w t).

(** splitting a node never increases the weighted risk *)
Definition risk_nonincreasing (rs : nat -> R) : Prop :=
  forall v l r, lc t v = Z.of_nat l -> rc t v = Z.of_nat r ->
    node_w t l * rs l + node_w t r * rs r <= node_w t v * rs v.

(** k classes; the values of a node are its class counts *)
Definition class_tree (k : nat) : Prop :=
  forall v, (v < size t)%nat -> length (nth v (t_value t) []) = k /\
    (forall c, (c < k)%nat -> 0 <= node_v t c v) /\ sumto k (fun c => node_v t c v) = node_w t v.

(** average risk of the selected leaves, weighted by their training weight *)
Definition mean_risk (rs : nat -> R) (sel : nat -> bool) : R :=
  sum_sel (size t) sel (fun u => node_w t u * rs u) / sum_sel (size t) sel (node_w t).

(** the row of node v describes the tree cut at P, with node risks [rs] *)
Record row_describes (rs : nat -> R) (P : list nat) (v : nat) (r : prow R) : Prop := {
  rd_single : pr_single r = rs v;
  rd_n : pr_n r = node_w t v;
  rd_parent : (v = 0%nat /\ pr_par r = (-1)%Z) \/ (exists p, child t p v /\ pr_par r = Z.of_nat p);
  rd_removed : removed P v -> pr_cl r = (-2)%Z /\ pr_cr r = (-2)%Z /\ pr_nl r = 0%nat /\ pr_sub r = rs v /\ pr_g1 r = GNaN;
  rd_leaf : now_leaf P v -> pr_cl r = (-1)%Z /\ pr_cr r = (-1)%Z /\ pr_nl r = 1%nat /\ pr_sub r = rs v /\
              (is_leafb t v = true -> pr_g1 r = GNaN);
  rd_internal : now_internal P v -> pr_cl r = lc t v /\ pr_cr r = rc t v /\
     exists sel, leaves_below P v sel /\ pr_nl r = count_sel sel /\ (2 <= pr_nl r)%nat /\ pr_sub r = mean_risk rs sel /\
       pr_g1 r = GFin ((rs v - pr_sub r) / (INR (pr_nl r) - 1))
}.
Definition describes (rs : nat -> R) (P : list nat) (df : list (prow R)) : Prop :=
  length df = size t /\ forall v r, nth_error df v = Some r -> row_describes rs P v r.
End Spec.

(** the tables that arise from a tree by successful prunes, with the nodes pruned *)
Definition reachable (o : tree_object R) (prunes : list Z) (df : list (prow R)) : Prop :=
  exists df0, initialize_prune_df o = Ok df0 /\ foldM inner_prune prunes df0 = Ok df.

(** the risks of the nodes, as a function *)
Definition risk_of (o : tree_object R) (rs : nat -> R) : Prop :=
  exists l, r_single_t o = Ok l /\ forall v, rs v = nth v l 0.

(** node v has the smallest g1 among all rows with a number in that column *)
Definition minimal_g1 (df : list (prow R)) (v : nat) : Prop :=
  exists r x, nth_error df v = Some r /\ pr_g1 r = GFin x /\
    forall u r' y, nth_error df u = Some r' -> pr_g1 r' = GFin y -> x <= y.
(** ... and no other row has it *)
Definition strictly_minimal_g1 (df : list (prow R)) (v : nat) : Prop :=
  exists r x, nth_error df v = Some r /\ pr_g1 r = GFin x /\
    forall u r' y, u <> v -> nth_error df u = Some r' -> pr_g1 r' = GFin y -> x < y.

(** two rows that agree except for g1 *)
Definition same_but_g1 (r r' : prow R) : Prop :=
  pr_single r = pr_single r' /\ pr_sub r = pr_sub r' /\ pr_cl r = pr_cl r' /\ pr_cr r = pr_cr r' /\
  pr_nl r = pr_nl r' /\ pr_par r = pr_par r' /\ pr_n r = pr_n r'.

(** the critical value of CART (Breiman et al., chapter 3) without the common factor 1/N:
    risks are weighted by the share of the data in the node *)
Definition cart_g {T} {NT : Num T} (r : prow T) : T :=
  ndiv (nmul (pr_n r) (nsub (pr_single r) (pr_sub r))) (nsub (nof (pr_nl r)) n1).

(** trees for the examples: the one in /repo tests (comb shape), and two internal nodes side by side *)
Definition prune7 {T} {NT : Num T} : tree T :=
  mkTree [1;-1;3;-1;5;-1;-1]%Z [2;-1;4;-1;6;-1;-1]%Z [0;0;0;0;0;0;0]%nat (exrow [0;0;0;0;0;0;0]%Z)
    (map exrow [[21;13];[5;5];[16;8];[9;0];[7;8];[7;1];[0;7]]%Z) (exrow [34;10;24;9;15;8;7]%Z) (exrow [0;0;0;0;0;0;0]%Z).
Definition full7 {T} {NT : Num T} : tree T :=
  mkTree [1;3;5;-1;-1;-1;-1]%Z [2;4;6;-1;-1;-1;-1]%Z [0;0;0;0;0;0;0]%nat (exrow [0;0;0;0;0;0;0]%Z)
    (map exrow [[8;4];[1;1];[7;3];[1;0];[0;1];[7;0];[0;3]]%Z) (exrow [12;2;10;1;1;7;3]%Z) (exrow [0;0;0;0;0;0;0]%Z).
