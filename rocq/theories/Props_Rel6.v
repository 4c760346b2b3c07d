(** Props_Rel6: numbering of nodes, classes and features. *)
From Verif Require Import Base TreeSpec Spec M_Tree M_Gamma M_Levels M_Prox M_Grad M_Sgd M_Smooth M_Depth M_Main M_Predict SpecSmooth SpecRel SpecRel2.
From Verif Require Import L_Base L_Rel10 L_Rel11 L_Rel12 L_Rel13 Props_Smooth Props_Rel Props_Rel2.
From Coq Require Import Reals Lra QArith Permutation Sorted.
Local Open Scope R_scope.

(** ** C110: numbering of the nodes *)

(** C110: with depth distances the order in which a tree stores its nodes does not matter.  If the nodes of every tree are numbered in another order (the root stays first), smooth returns the same weights and costs, and the smoothed trees are again the same trees with their nodes numbered in that other order, for every kind of forest, loss, optimiser and option ... *)
Theorem C110_numbering : forall lg kd (o : smooth_opts R) pa sg ts ts' rd out, Forall wf_tree ts -> Forall wf_tree ts' -> ts <> [] -> o_dist o = DDepth pa ->
  all_renumbered sg ts ts' -> smooth lg (Forest kd ts) o rd = Ok out ->
  exists out', smooth lg (Forest kd ts') o rd = Ok out' /\ s_lamb out' = s_lamb out /\ s_lamb_last out' = s_lamb_last out /\ s_lamb2 out' = s_lamb2 out /\
    s_costs out' = s_costs out /\ all_renumbered sg (s_forest out) (s_forest out').
Proof. exact p_renumbered. Qed.
Print Assumptions C110_numbering.

(** ... so both forests predict the same, before and after smoothing ... *)
Theorem C110_predictions : forall lg kd (o : smooth_opts R) pa sg ts ts' rd out cls x, Forall wf_tree ts -> Forall wf_tree ts' -> ts <> [] -> o_dist o = DDepth pa ->
  all_renumbered sg ts ts' -> smooth lg (Forest kd ts) o rd = Ok out ->
  forest_predict kd cls ts' x = forest_predict kd cls ts x /\
  exists out', smooth lg (Forest kd ts') o rd = Ok out' /\ forest_predict kd cls (s_forest out') x = forest_predict kd cls (s_forest out) x /\
    forall nc, forest_proba nc (s_forest out') x = forest_proba nc (s_forest out) x.
Proof. exact p_renumbered_predict. Qed.
Print Assumptions C110_predictions.

(** the example tree with its nodes in another order: root, right child, its two children, left child *)
Definition ex_order (v : nat) : nat := nth v [0; 2; 3; 4; 1]%nat 0%nat.
Definition ex5_order {T} {NT : Num T} : tree T :=
  mkTree [4;2;-1;-1;-1]%Z [1;3;-1;-1;-1]%Z [0;1;0;0;0]%nat [n1;nadd n1 n1;n0;n0;n0] (map (fun z => [exz z]) [4;7;5;9;1]%Z) (exrow [4;2;1;1;2]%Z) (exrow [10;4;0;0;0]%Z).
Definition ex_sg (q : nat) : nat -> nat := match q with 0%nat => fun v => v | _ => ex_order end.
Lemma same_renumbered : forall {T} {NT : Num T} (t : tree T), Forall (fun v => is_leafb t v = true \/ (0 <= lc t v /\ 0 <= rc t v)%Z) (seq 0 (size t)) -> renumbered (fun v => v) t t.
Proof.
  intros T NT t F. split; [reflexivity|]. split; [rewrite map_id; apply Permutation_refl|]. split; [reflexivity|]. intros v Hv. split; [reflexivity|]. split; [|auto].
  rewrite Forall_forall in F. intros L. destruct (F v) as [F1|(F1&F2)]; [apply in_seq; lia|congruence|]. rewrite !Z2Nat.id by lia. auto.
Qed.
Lemma ex_renumbered : forall {T} {NT : Num T}, all_renumbered ex_sg [ex3_reg; ex5_reg] [ex3_reg; @ex5_order T NT].
Proof.
  intros T NT. split; [reflexivity|]. intros q t t' N N'. destruct q as [|[|q]]; cbn in N, N'; [| |destruct q; discriminate]; inversion N; inversion N'.
  - apply same_renumbered. change (seq 0 (size ex3_reg)) with [0;1;2]%nat. do 3 (constructor; [first [left; reflexivity|right; cbn; lia]|]). constructor.
  - split; [reflexivity|]. split.
    + cbn. apply perm_skip. apply (Permutation_app_comm [2;3;4]%nat [1]%nat).
    + split; [reflexivity|]. intros v Hv. cbn in Hv. do 5 (destruct v as [|v]; [repeat split; try reflexivity; discriminate|]). lia.
Qed.
Lemma ex_order_wf : Forall (@wf_tree R) [ex3_reg; ex5_reg] /\ Forall (@wf_tree R) [ex3_reg; ex5_order].
Proof. split; repeat constructor. Qed.

(** ... but the forest returned with the last weights does depend on the numbering: its second tree takes the leaf values of the first rows of the whole forest in the order of the leaves (the three leaves are node 1, 3, 4 in the first numbering and node 4, 2, 3 in the second) *)
Theorem C110_second_forest_refuted : exists sg (ts ts' : list (tree Q)) (o : smooth_opts Q) rd out out' a b,
  Forall (@wf_tree Q) ts /\ Forall (@wf_tree Q) ts' /\ o_dist o = DDepth true /\ all_renumbered sg ts ts' /\
  smooth (fun x => x) (Forest Reg ts) o rd = Ok out /\ smooth (fun x => x) (Forest Reg ts') o rd = Ok out' /\
  nth_error (s_forest2 out) 1 = Some a /\ nth_error (s_forest2 out') 1 = Some b /\
  map (fun v => nth v (t_value a) []) [1; 3; 4]%nat = [[20]; [30]; [1]]%Q /\ map (fun v => nth v (t_value b) []) [4; 2; 3]%nat = [[5]; [20]; [30]]%Q.
Proof.
  exists ex_sg, [ex3_reg; ex5_reg], [ex3_reg; ex5_order], (ex_small (DDepth true) (1#20)%Q None), (ex_rand []). do 4 eexists.
  split; [repeat constructor|]. split; [repeat constructor|]. split; [reflexivity|]. split; [apply ex_renumbered|].
  split; [vm_compute; reflexivity|]. split; [vm_compute; reflexivity|]. split; [reflexivity|]. split; [reflexivity|]. split; vm_compute; reflexivity.
Qed.
Print Assumptions C110_second_forest_refuted.

Example C110_ex : forall lg (t : R) out, smooth lg (Forest Reg [ex3_reg; ex5_reg]) (ex_small (DDepth true) t None) (ex_rand [0;1;0]%nat) = Ok out ->
  exists out', smooth lg (Forest Reg [ex3_reg; ex5_order]) (ex_small (DDepth true) t None) (ex_rand [0;1;0]%nat) = Ok out' /\
  s_lamb out' = s_lamb out /\ s_costs out' = s_costs out /\ all_renumbered ex_sg (s_forest out) (s_forest out').
Proof.
  intros lg t out H. destruct ex_order_wf as (A&B).
  destruct (C110_numbering lg Reg (ex_small (DDepth true) t None) true ex_sg [ex3_reg; ex5_reg] [ex3_reg; ex5_order] (ex_rand [0;1;0]%nat) out A B ltac:(discriminate) eq_refl ex_renumbered H) as (out'&H1&H2&_&_&H3&H4).
  exists out'. auto.
Qed.
(** the hypothesis of the example holds, and the numbering really changes the arrays: a run with three steps *)
Example C110_ex_run : exists out out', smooth (fun x => x) (Forest Reg [ex3_reg; ex5_reg]) (ex_small (DDepth true) (1#20)%Q None) (ex_rand [0;1;0]%nat) = Ok out /\
  smooth (fun x => x) (Forest Reg [ex3_reg; ex5_order]) (ex_small (DDepth true) (1#20)%Q None) (ex_rand [0;1;0]%nat) = Ok out' /\
  s_lamb out' = s_lamb out /\ length (s_costs out) = 4%nat /\ map (fun v => nth v (t_value (nth 1 (s_forest out') ex3_reg)) []) (seq 0 5) =
    map (fun v => nth (ex_order v) (t_value (nth 1 (s_forest out) ex3_reg)) []) (seq 0 5).
Proof. do 2 eexists. split; [vm_compute; reflexivity|]. split; [vm_compute; reflexivity|]. split; [vm_compute; reflexivity|]. split; vm_compute; reflexivity. Qed.

(** ** C111: order of the classes *)

(** C111: the order in which the classes are listed does not matter.  If the classes are numbered in another order (class c is the former class tau c) in the value rows of every tree and in the tuning rows, and the training labels are renamed by phi so that the sorted labels come in that order, smooth returns the same weights and costs and both forests with the entries of every value row in the new order, for every distance, loss, optimiser and option. *)
Theorem C111_class_order : forall nc tau, Permutation (map tau (seq 0 nc)) (seq 0 nc) ->
  forall lg (o : smooth_opts R) phi cs cs' ts rd out, Forall wf_tree ts -> ts <> [] ->
  relabels nc tau phi cs cs' -> (forall y, o_y_trained o = Some y -> incl y cs) ->
  smooth lg (Forest (Class nc) ts) o rd = Ok out ->
  smooth lg (Forest (Class nc) (map (class_tree nc tau) ts)) (class_opts nc tau phi o) rd = Ok (on_trees (class_tree nc tau) out).
Proof. exact p_classes. Qed.
Print Assumptions C111_class_order.

(** ... and the class probabilities that the smoothed forest predicts are the same in the new order *)
Theorem C111_predictions : forall nc tau lg (o : smooth_opts R) phi cs cs' ts rd out x, Permutation (map tau (seq 0 nc)) (seq 0 nc) -> Forall wf_tree ts -> ts <> [] ->
  relabels nc tau phi cs cs' -> (forall y, o_y_trained o = Some y -> incl y cs) ->
  smooth lg (Forest (Class nc) ts) o rd = Ok out ->
  exists out', smooth lg (Forest (Class nc) (map (class_tree nc tau) ts)) (class_opts nc tau phi o) rd = Ok out' /\
    forest_proba nc (s_forest out') x = class_row nc tau (forest_proba nc (s_forest out) x).
Proof. exact p_classes_predict. Qed.
Print Assumptions C111_predictions.

(** exchanging two classes: labels 0 and 1 become 1 and 0 *)
Definition ex_swap (c : nat) : nat := (1 - c)%nat.
Lemma ex_swap_ok : Permutation (map ex_swap (seq 0 2)) (seq 0 2).
Proof. apply perm_swap. Qed.
Lemma ex_relabels : relabels 2 ex_swap (fun v => 1 - v) [0; 1] [0; 1].
Proof.
  assert (S2 : StronglySorted Rlt [0; 1]) by (repeat constructor; lra).
  split; [exact S2|]. split; [exact S2|]. split; [reflexivity|]. split; [reflexivity|]. intros c Hc. do 2 (destruct c as [|c]; [cbn; lra|]). lia.
Qed.
Example C111_ex : forall lg (eps : R) l out, smooth lg (Forest (Class 2) [ex5_class]) (ex_opts exYc false (DDepth true) eps l) (ex_rand [0;0]%nat) = Ok out ->
  smooth lg (Forest (Class 2) (map (class_tree 2 ex_swap) [ex5_class])) (class_opts 2 ex_swap (fun v => 1 - v) (ex_opts exYc false (DDepth true) eps l)) (ex_rand [0;0]%nat)
    = Ok (on_trees (class_tree 2 ex_swap) out).
Proof.
  intros lg eps l out H. apply (C111_class_order 2 ex_swap ex_swap_ok lg _ _ [0; 1] [0; 1]); [repeat constructor|discriminate|apply ex_relabels|discriminate|exact H].
Qed.
(** the hypothesis of the example holds, and the exchange changes the rows *)
Example C111_ex_run : exists out, smooth (fun x => x) (Forest (Class 2) [ex5_class]) (ex_opts exYc false (DDepth true) (1#10)%Q L2) (ex_rand [0]%nat) = Ok out /\
  map t_value (map (class_tree 2 ex_swap) (s_forest out)) <> map t_value (s_forest out).
Proof. eexists. split; [vm_compute; reflexivity|vm_compute; discriminate]. Qed.
(** training labels: the sample of the tree holds both labels *)
Example C111_ex_labels : exists out,
  let o := {| o_X_trained := Some exX; o_y_trained := Some [0; 1; 0]%Q; o_X_tune := None; o_y_tune := None; o_no_constraint := false; o_sanity := false; o_resample := true;
     o_t_fix := (1#2)%Q; o_all_trees := false; o_lamb_draws := None; o_style := Standard; o_dist := DDepth true; o_class_eps := (1#10)%Q; o_class_loss := L2; o_adam := None |} in
  let rd := {| r_oob := fun _ => []; r_boot := fun _ => [0;1;1]%nat; r_draws := [0]%nat |} in
  smooth (fun x => x) (Forest (Class 2) [ex5_class]) o rd = Ok out /\
  rmap s_lamb (smooth (fun x => x) (Forest (Class 2) (map (class_tree 2 ex_swap) [ex5_class])) (class_opts 2 ex_swap (fun v => Qred (1 - v)) o) rd) = Ok (s_lamb out).
Proof. eexists. cbv zeta. split; vm_compute; reflexivity. Qed.

(** ** C112: numbering of the features *)

(** C112: the order of the columns of the data does not matter, nor do columns that no tree asks about.  If feature f of the p features is column pi f of the new data, and every tree asks about column pi f where it asked about f, smooth behaves as before: it raises the same exception or returns the same weights, costs and leaf values, for every kind of forest, distance, loss, optimiser and option ... *)
Theorem C112_feature_order : forall p pi lg kd ts (o : smooth_opts R) rd Xtr Xtu, Forall wf_tree ts ->
  (forall t v, In t ts -> (v < size t)%nat -> is_leafb t v = false -> (nth v (t_feature t) 0 < p)%nat) ->
  both (feature_rows p pi) (o_X_trained o) Xtr -> both (feature_rows p pi) (o_X_tune o) Xtu ->
  smooth lg (Forest kd (map (feature_tree pi) ts)) (with_X o Xtr Xtu) rd = rmap (on_trees (feature_tree pi)) (smooth lg (Forest kd ts) o rd).
Proof. exact p_features. Qed.
Print Assumptions C112_feature_order.

(** ... and the predictions for an observation in the new columns are the same *)
Theorem C112_predictions : forall p pi kd cls (ts : list (tree R)) x x', Forall wf_tree ts ->
  (forall t v, In t ts -> (v < size t)%nat -> is_leafb t v = false -> (nth v (t_feature t) 0 < p)%nat) ->
  (forall f, (f < p)%nat -> nth (pi f) x' 0 = nth f x 0) ->
  forest_predict kd cls (map (feature_tree pi) ts) x' = forest_predict kd cls ts x /\ forall nc, forest_proba nc (map (feature_tree pi) ts) x' = forest_proba nc ts x.
Proof. exact p_features_predict. Qed.
Print Assumptions C112_predictions.

(** the two columns of the example exchanged, and a column put between them *)
Definition ex_pi (f : nat) : nat := (2 - 2 * f)%nat.
Definition exX_pi {T} {NT : Num T} : mat T := map exrow [[0;7;0];[1;8;3];[5;9;3]]%Z.
Lemma ex_pi_rows : feature_rows 2 ex_pi exX exX_pi.
Proof. split; [reflexivity|]. intros o f Ho Hf. cbn in Ho. do 3 (destruct o as [|o]; [do 2 (destruct f as [|f]; [reflexivity|]); lia|]). lia. Qed.
Example C112_ex : forall lg (t : R) rd, smooth lg (Forest Reg (map (feature_tree ex_pi) [ex5_reg; ex3_reg])) (with_X (ex_small (DDepth true) t None) None (Some exX_pi)) rd =
  rmap (on_trees (feature_tree ex_pi)) (smooth lg (Forest Reg [ex5_reg; ex3_reg]) (ex_small (DDepth true) t None) rd).
Proof.
  intros. apply (C112_feature_order 2 ex_pi); [repeat constructor| |exact I|apply ex_pi_rows].
  intros u v [<-|[<-|[]]] Hv L; cbn in Hv; do 5 (destruct v as [|v]; [cbn; lia|]); lia.
Qed.
(** leaving the trees as they are while the columns move changes the result: the questions have to move with the columns *)
Example C112_ex_moved : exists out out', smooth (fun x => x) (Forest Reg [ex5_reg; ex3_reg]) (ex_small (DDepth true) (1#20)%Q None) (ex_rand [0;1]%nat) = Ok out /\
  smooth (fun x => x) (Forest Reg [ex5_reg; ex3_reg]) {| o_X_trained := None; o_y_trained := None; o_X_tune := Some exX_pi; o_y_tune := Some exYr;
     o_no_constraint := false; o_sanity := false; o_resample := false; o_t_fix := (1#20)%Q; o_all_trees := false;
     o_lamb_draws := None; o_style := Standard; o_dist := DDepth true; o_class_eps := 0%Q; o_class_loss := L2; o_adam := None |} (ex_rand [0;1]%nat) = Ok out' /\
  s_costs out <> s_costs out'.
Proof. do 2 eexists. split; [vm_compute; reflexivity|]. split; [vm_compute; reflexivity|]. vm_compute. discriminate. Qed.
