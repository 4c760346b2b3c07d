(** Props_Gamma: property theorems about the neighbour sums Gamma and eta. *)
From Verif Require Import Base TreeSpec Spec M_Tree M_Gamma L_Dist L_PropsTree.
From Coq Require Import Reals Lra QArith.
Local Open Scope R_scope.

(** the comb of the test-suite with 6,2,1,1 observations in its leaves *)
Example ex_comb : tree R := comb7 (map (fun x => [x]) [2;1;7/2;5;2;1;3]) [10;6;4;2;2;1;1] [0;0;0;0;0;0;0].
Example ex_comb_wf : wf_tree ex_comb.
Proof. reflexivity. Qed.
Example ex_combQ : tree Q := comb7 (map (fun x => [x]) [2;1;7#2;5;2;1;3]%Q) [10;6;4;2;2;1;1]%Q [0;0;0;0;0;0;0]%Q.

(** C07: entry (i,k) of eta / Gamma is the sum of the weights / weighted responses of the leaves at distance k (at most k when parents_all) from leaf i; there are (largest distance + 1) columns. *)
Theorem C07_Gamma_eta_tree : forall (t : tree R) (kd : kind) (pa : bool) (s : dstyle), wf_tree t ->
  exists m Gamma eta,
  create_Gamma_eta_tree kd pa s t = Ok (Gamma, eta) /\ is_max_dist t s m /\
  length eta = n_leaves t /\ length Gamma = n_gamma kd /\
  (forall i, (i < n_leaves t)%nat -> length (nth i eta []) = S m) /\
  (forall c, (c < n_gamma kd)%nat -> length (nth c Gamma []) = n_leaves t /\
     forall i, (i < n_leaves t)%nat -> length (nth i (nth c Gamma []) []) = S m) /\
  (forall i k, (i < n_leaves t)%nat -> (k <= m)%nat ->
    exists sel, selects t s pa i k sel /\
      nth k (nth i eta []) 0 = sum_sel (n_leaves t) sel (leaf_w t) /\
      forall c, (c < n_gamma kd)%nat ->
        nth k (nth i (nth c Gamma []) []) 0 = sum_sel (n_leaves t) sel (leaf_ny t kd c)).
Proof. exact p_C07. Qed.
Print Assumptions C07_Gamma_eta_tree.

Example C07_ex :
  create_Gamma_eta_tree Reg false Standard ex_combQ =
    Ok ([[[6;14;0;0];[10;4;6;0];[1;3;10;6];[3;1;10;6]]]%Q, [[6;4;0;0];[2;2;6;0];[1;1;2;6];[1;1;2;6]]%Q) /\
  wf_tree ex_combQ.
Proof. split; vm_compute; reflexivity. Qed.

(** C08: without parents_all every row of eta / Gamma adds up to the tree's total; ... *)
Theorem C08_row_sums : forall (t : tree R) (kd : kind) (s : dstyle), wf_tree t ->
  exists Gamma eta, create_Gamma_eta_tree kd false s t = Ok (Gamma, eta) /\
  forall i, (i < n_leaves t)%nat ->
    nsum (nth i eta []) = sumto (n_leaves t) (leaf_w t) /\
    forall c, (c < n_gamma kd)%nat -> nsum (nth i (nth c Gamma []) []) = sumto (n_leaves t) (leaf_ny t kd c).
Proof. exact p_C08a. Qed.
Print Assumptions C08_row_sums.

(** ... with parents_all row entries are the running sums, the last column is the total, and eta rows never decrease for nonnegative weights. *)
Theorem C08_parents_all_cumulative : forall (t : tree R) (kd : kind) (s : dstyle), wf_tree t ->
  exists m G0 E0 G1 E1,
  create_Gamma_eta_tree kd false s t = Ok (G0, E0) /\
  create_Gamma_eta_tree kd true s t = Ok (G1, E1) /\ is_max_dist t s m /\
  forall i, (i < n_leaves t)%nat ->
    (nth m (nth i E1 []) 0 = sumto (n_leaves t) (leaf_w t)) /\
    (forall c, (c < n_gamma kd)%nat -> nth m (nth i (nth c G1 []) []) 0 = sumto (n_leaves t) (leaf_ny t kd c)) /\
    (forall k, (k <= m)%nat ->
       nth k (nth i E1 []) 0 = sumto (S k) (fun k' => nth k' (nth i E0 []) 0) /\
       forall c, (c < n_gamma kd)%nat ->
         nth k (nth i (nth c G1 []) []) 0 = sumto (S k) (fun k' => nth k' (nth i (nth c G0 []) []) 0)) /\
    ((forall j, (j < n_leaves t)%nat -> 0 <= leaf_w t j) ->
     forall k k', (k <= k' <= m)%nat -> nth k (nth i E1 []) 0 <= nth k' (nth i E1 []) 0).
Proof. exact p_C08b. Qed.
Print Assumptions C08_parents_all_cumulative.

Example C08_ex : create_Gamma_eta_tree Reg true Standard ex_combQ =
    Ok ([[[6;20;20;20];[10;14;20;20];[1;4;14;20];[3;4;14;20]]]%Q, [[6;10;10;10];[2;4;10;10];[1;2;4;10];[1;2;4;10]]%Q).
Proof. vm_compute; reflexivity. Qed.
Example C08_ex_weights : forall j, (j < n_leaves ex_comb)%nat -> 0 <= leaf_w ex_comb j.
Proof.
  intros j H. unfold leaf_w, node_w, leaf_id, ex_comb.
  do 4 (destruct j; [cbn; lra|]). cbn in H. lia.
Qed.

(** C09: the forest arrays stack the trees' rows in order; every row has (largest depth + 1) columns, its sums come from its own tree only, and t_idx names that tree. *)
Theorem C09_Gamma_eta_forest : forall (kd : kind) (pa : bool) (s : dstyle) (ts : list (tree R)),
  Forall wf_tree ts -> ts <> [] ->
  exists m Gamma eta t_idx,
  create_Gamma_eta_forest kd pa s ts = Ok (Gamma, eta, t_idx) /\ is_max_depth ts m /\
  length Gamma = n_gamma kd /\ length eta = offset ts (length ts) /\ length t_idx = length eta /\
  (forall c, (c < n_gamma kd)%nat -> length (nth c Gamma []) = length eta) /\
  forall q t, nth_error ts q = Some t -> forall i, (i < n_leaves t)%nat ->
    let r := (offset ts q + i)%nat in
    (r < length eta)%nat /\ nth r t_idx 0%nat = q /\
    length (nth r eta []) = S m /\
    (forall c, (c < n_gamma kd)%nat -> length (nth r (nth c Gamma []) []) = S m) /\
    (forall k, (k <= m)%nat ->
      exists sel, selects t s pa i k sel /\
        nth k (nth r eta []) 0 = sum_sel (n_leaves t) sel (leaf_w t) /\
        forall c, (c < n_gamma kd)%nat ->
          nth k (nth r (nth c Gamma []) []) 0 = sum_sel (n_leaves t) sel (leaf_ny t kd c)).
Proof. exact p_C09. Qed.
Print Assumptions C09_Gamma_eta_forest.

Example C09_ex : let ts := [ex_combQ; ex_combQ] in Forall wf_tree ts /\ exists G E,
  create_Gamma_eta_forest Reg false MinStyle ts = Ok (G, E, [0;0;0;0;1;1;1;1]%nat) /\
  E = [[6;4;0;0];[2;8;0;0];[1;9;0;0];[1;9;0;0];[6;4;0;0];[2;8;0;0];[1;9;0;0];[1;9;0;0]]%Q.
Proof. split; [repeat constructor|]. eexists. eexists. split; vm_compute; reflexivity. Qed.

(** C10: with parents_all and the standard distance, column k of leaf i sums exactly the leaves under i's ancestor k levels up; if node statistics are additive these are that node's own weight and weighted response. *)
Theorem C10_ancestor_columns : forall (t : tree R) (kd : kind), wf_tree t ->
  exists m Gamma eta, create_Gamma_eta_tree kd true Standard t = Ok (Gamma, eta) /\ is_max_dist t Standard m /\
  forall i k a, (i < n_leaves t)%nat -> (k <= m)%nat -> upk t k (leaf_id t i) a ->
    (exists below, (forall j, (j < n_leaves t)%nat -> (below j = true <-> anc t a (leaf_id t j))) /\
       nth k (nth i eta []) 0 = sum_sel (n_leaves t) below (leaf_w t) /\
       forall c, (c < n_gamma kd)%nat ->
         nth k (nth i (nth c Gamma []) []) 0 = sum_sel (n_leaves t) below (leaf_ny t kd c)) /\
    (additive_stats t kd ->
       nth k (nth i eta []) 0 = node_w t a /\
       forall c, (c < n_gamma kd)%nat -> nth k (nth i (nth c Gamma []) []) 0 = node_ny t kd c a).
Proof. exact p_C10. Qed.
Print Assumptions C10_ancestor_columns.

Example C10_ex : additive_stats ex_comb Reg.
Proof.
  assert (X : forall f : nat -> R, f 0%nat = f 2%nat + f 1%nat -> f 2%nat = f 4%nat + f 3%nat -> f 4%nat = f 6%nat + f 5%nat -> additive ex_comb f).
  { intros f A B C p l r HL HR.
    destruct (Nat.lt_ge_cases p 7) as [Hp|Hp].
    - do 7 (destruct p as [|p]; [cbn in HL, HR; try lia;
        try (replace l with 2%nat by lia; replace r with 1%nat by lia; exact A);
        try (replace l with 4%nat by lia; replace r with 3%nat by lia; exact B);
        try (replace l with 6%nat by lia; replace r with 5%nat by lia; exact C)|]).
      lia.
    - unfold lc, ex_comb in HL. cbn [t_left comb7] in HL. rewrite nth_overflow in HL by (cbn; lia). lia. }
  split; [|intros c Hc]; apply X; unfold node_ny, node_w, node_v, ex_comb; cbn; lra.
Qed.
