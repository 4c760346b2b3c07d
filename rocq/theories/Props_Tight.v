(** Props_Tight: property theorems about refused arguments and overwritten entries; they complete C27,
    C38, C54, C57, C62, C68, C69, C77 and C80. *)
From Coq Require Import Reals Lra Lia QArith.
From Verif Require Import Base TreeSpec Spec SpecSmooth SpecTune SpecDepth SpecBox SpecTorch SpecTight M_Tree M_Gamma M_Levels M_Prox M_Grad M_Sgd M_Smooth M_Box M_More M_Torch M_Pytorch M_Clean M_Level M_Prune M_Oob.
From Verif Require Import L_Base L_Tree L_Gamma2 L_More L_Torch3 L_Torch4 L_Torch8 L_Tight Props_Torch.
Local Open Scope R_scope.

(** C62 (errors): on two vectors of different lengths, neither of length 1, the torch version of the weighted error raises RuntimeError and the two numpy versions raise ValueError. *)
Theorem C62_mismatch : forall (y p : list R) (w : tensor R), length y <> length p -> length y <> 1%nat -> length p <> 1%nat ->
  weighted_l2 (of_list y) (of_list p) w = Err RuntimeError /\ weighted_l2_np (of_list y) (of_list p) w = Err ValueError /\
  l2_np (of_list y) (of_list p) = Err ValueError.
Proof. intros y p w N A B. unfold weighted_l2, weighted_l2_np, weighted_l2_gen, l2_np. rewrite !bop_mismatch by auto. auto. Qed.
Print Assumptions C62_mismatch.

(** ... and so do the weights of another length. *)
Theorem C62_mismatch_weights : forall (y p w : list R), length y = length p -> length w <> length y -> length w <> 1%nat -> length y <> 1%nat ->
  weighted_l2 (of_list y) (of_list p) (of_list w) = Err RuntimeError /\ weighted_l2_np (of_list y) (of_list p) (of_list w) = Err ValueError.
Proof.
  intros y p w E N A B. unfold weighted_l2, weighted_l2_np, weighted_l2_gen. rewrite !bop_list by auto. cbn [bind].
  change (tmap (fun x => nmul x x) (of_list (map2 nsub y p))) with (mkTensor [length (map2 nsub y p)] (map (fun x : R => nmul x x) (map2 nsub y p))).
  assert (X : mkTensor [length (map2 nsub y p)] (map (fun x : R => nmul x x) (map2 nsub y p)) = of_list (map (fun x : R => nmul x x) (map2 nsub y p))) by (unfold of_list; rewrite map_length; reflexivity).
  rewrite X, !bop_mismatch; auto; rewrite map_length, map2_length; lia.
Qed.
Print Assumptions C62_mismatch_weights.

Example C62_mismatch_ex : weighted_l2_np (of_list [1;2]) (of_list [1;2;3]) (of_list [1;1]) = Err ValueError /\
  weighted_l2 (of_list [1;2]) (of_list [1;3]) (of_list [1;1;1]) = Err RuntimeError.
Proof. split; [apply C62_mismatch|apply C62_mismatch_weights]; cbn; lia. Qed.

(** C68 (start): the descent of smooth_clean raises TypeError for a start of the wrong length and, with the constraint, for one with a negative entry or a sum further than 1e-8 + 1e-5 from 1, whatever the number of steps; *)
Theorem C68_start_refused : forall (P : clean_problem R) init n_obs full t cons ad draws, ~ start_fine (ncols (c_Gamma P)) cons init ->
  stocastic_grad_descent_clean P init n_obs full t cons ad draws = Err TypeError.
Proof. exact p_start_refused. Qed.
Print Assumptions C68_start_refused.

(** ... and takes every other one: without steps it returns it. *)
Theorem C68_start_taken : forall (P : clean_problem R) init n_obs t cons ad, start_fine (ncols (c_Gamma P)) cons init ->
  stocastic_grad_descent_clean P init n_obs false t cons ad [] = Ok (init, init, []).
Proof. exact p_start_taken. Qed.
Print Assumptions C68_start_taken.

Example C68_start_ex : ~ start_fine 2 true [1 / 2; 1 / 4] /\ ~ start_fine 2 true [1 / 2; 3 / 4] /\ ~ start_fine 2 true [- 1; 2] /\ ~ start_fine 3 false [1; 0] /\
  start_fine 2 true [1 / 2; 1 / 2 + / 1000000] /\ start_fine 2 false [- 1; 3].
Proof.
  assert (S2 : forall a b : R, nsum [a; b] = a + b) by (intros a b; rewrite !nsum_cons, nsum_nil; ring).
  assert (AB : forall x, - x <= Rabs x) by (intros x; rewrite <- Rabs_Ropp; apply Rle_abs).
  split. { intros [_ H]. destruct (H eq_refl) as [A _]. rewrite S2 in A. pose proof (AB (1 / 2 + 1 / 4 - 1)). lra. }
  split. { intros [_ H]. destruct (H eq_refl) as [A _]. rewrite S2 in A. pose proof (Rle_abs (1 / 2 + 3 / 4 - 1)). lra. }
  split. { intros [_ H]. destruct (H eq_refl) as [_ A]. specialize (A (- 1) (or_introl eq_refl)). lra. }
  split. { intros [H _]. discriminate. }
  split; [|split; [reflexivity|discriminate]].
  split; [reflexivity|]. intros _. rewrite S2. split; [apply Rabs_le; lra|]. intros x [<-|[<-|[]]]; lra.
Qed.

(** C69 (depths): a dictionary of depths without an entry for every tree makes make_Vt_mat fail; the empty one with KeyError. *)
Theorem C69_missing_depths : forall (ts : list (tree R)) X,
  (forall dd, (length dd < length ts)%nat -> forall V, make_Vt_mat ts X (Some dd) <> Ok V) /\
  (ts <> [] -> make_Vt_mat ts X (Some []) = Err KeyError).
Proof. intros ts X. split; [intros dd; apply p_missing_depths|apply p_no_depths]. Qed.
Print Assumptions C69_missing_depths.

Example C69_missing_ex : make_Vt_mat [@ex5_reg R _; ex3_reg] exX (Some []) = Err KeyError /\
  forall V, make_Vt_mat [@ex5_reg R _; ex3_reg] exX (Some [[0;1;1;2;2]%nat]) <> Ok V.
Proof. split; [apply C69_missing_depths; discriminate|apply C69_missing_depths; cbn; lia]. Qed.

(** C77 (overwriting): dictionaries that already hold centers, of other data for instance, hold the new centers afterwards, and the other entries as before. *)
Theorem C77_overwrite : forall ts p X M (d1 : list (key * list R)) (d2 : list (key * list (list R))), Forall (@wf_tree R) ts -> ts <> [] ->
  Forall (features_ok p) ts -> data_ok p X -> is_max_depth ts M -> NoDup (map fst d1) -> NoDup (map fst d2) ->
  exists d1' d2', node_spatial_structure_update ts X (Some d1) (Some d2) = Ok (Some d1', Some d2') /\
    overwritten p (leaf_centers p ts X) d1 d1' /\ overwritten p (path_centers p ts X M) d2 d2'.
Proof. exact p_overwrite. Qed.
Print Assumptions C77_overwrite.

Example C77_overwrite_ex : (node_spatial_structure_update (@ex_ts2 Q _) exX (Some [(Center 1, [7]); (Leaf_n, [1]); (Center 5, [6])]) None =
  Ok (Some [(Center 1, [5#2;5#2;5#2;1;7#2]); (Leaf_n, [1]); (Center 5, [6]); (Center 0, [1#2;2;1#2;2;2])], None))%Q.
Proof. vm_compute. reflexivity. Qed.
Example C77_overwrite_ex_hyp : NoDup (map fst [(Center 1, [7]); (Leaf_n, [1]); (Center 5, [6])]).
Proof. cbn. repeat constructor; cbn; intuition discriminate. Qed.

(** C80 (errors): an object that is no tree, or no out-of-bag row (the arrays then are empty): ValueError; a row index outside the data: IndexError. *)
Theorem C80_errors : forall df kd (t : tree R) X y oob,
  (forall b, append_oob_values df (OtherTree b) X y oob = Err ValueError) /\
  append_oob_values df (TreeObj kd t) X y [] = Err ValueError /\
  ((exists i, In i oob /\ (length X <= i \/ length y <= i)%nat) -> append_oob_values df (TreeObj kd t) X y oob = Err IndexError).
Proof.
  intros df kd t X y oob. split; [reflexivity|]. split; [reflexivity|]. intros (i&Hi&L). unfold append_oob_values.
  destruct (take_rows X oob) as [Xt|e] eqn:E1.
  - cbn [bind]. destruct L as [L|L].
    + rewrite take_rows_err in E1 by eauto. discriminate.
    + rewrite take_rows_err by eauto. reflexivity.
  - cbn [bind]. assert (e = IndexError); [|congruence]. clear -E1. unfold take_rows in E1. revert e E1.
    induction oob as [|j oob IH]; intros e E1; [discriminate|]. cbn [mapM] in E1. destruct (nth_error X j); cbn in E1; [|congruence].
    match type of E1 with bind ?m _ = _ => destruct m eqn:EE; cbn in E1; [discriminate|] end. apply IH. congruence.
Qed.
Print Assumptions C80_errors.

Example C80_errors_ex : append_oob_values [] (TreeObj Reg (@ex5_reg R _)) exX (exrow [2;4;8]%Z) [] = Err ValueError /\
  append_oob_values [] (TreeObj Reg (@ex5_reg R _)) exX (exrow [2;4;8]%Z) [0;3]%nat = Err IndexError.
Proof. split; [apply C80_errors; exact []|]. apply C80_errors. exists 3%nat. cbn. intuition. Qed.

(** C49 (errors): without rows the boxes cannot be started (ValueError); a tree that splits on a feature beyond the columns of the data: IndexError. *)
Theorem C49_errors : forall (t : tree R), bound_box_tree t [] = Err ValueError /\ center_tree t [] = Err ValueError /\
  forall p X, wf_tree t -> data_ok p X -> ~ features_ok p t -> bound_box_tree t X = Err IndexError /\ center_tree t X = Err IndexError.
Proof. intros t. split; [reflexivity|]. split; [reflexivity|]. exact (p_box_errors t). Qed.
Print Assumptions C49_errors.

Example C49_errors_ex : bound_box_tree (@ex5_reg R _) (map exrow [[0];[3]]%Z) = Err IndexError.
Proof.
  apply (C49_errors ex5_reg) with (p := 1%nat).
  - destruct ex_forest as (A&_). rewrite Forall_forall in A. apply A. cbn. auto.
  - split; [discriminate|]. intros r [<-|[<-|[]]]; reflexivity.
  - intros H. specialize (H 2%nat ltac:(cbn; lia) eq_refl). cbn in H. lia.
Qed.

(** C27 (errors): a tree accepts tuning data exactly when there is an observation and a response row of the right length for each; everything else is a ValueError. *)
Theorem C27_shapes : forall nc (t : tree R) X Y,
  let fits := X <> [] /\ length Y = length X /\ Forall (fun r : list R => length r = nc) Y in
  (fits -> exists yl w, leaf_targets nc t X Y = Ok (yl, w)) /\ (~ fits -> leaf_targets nc t X Y = Err ValueError).
Proof.
  intros nc t X Y fits. unfold leaf_targets, obs_V_leaf. destruct X as [|x X].
  - split; [intros (N&_); congruence|reflexivity].
  - cbn [bind]. destruct (Nat.eqb_spec (length Y) (length (x :: X))) as [L|L]; cbn [negb].
    + destruct (forallb (fun r => Nat.eqb (length r) nc) Y) eqn:F; cbn [negb].
      * split; [intros _; eexists; eexists; reflexivity|]. intros N. exfalso. apply N. split; [discriminate|]. split; auto.
        apply Forall_forall. intros r Hr. rewrite forallb_forall in F. apply Nat.eqb_eq. auto.
      * split; [|auto]. intros (_&_&G). exfalso. rewrite Forall_forall in G.
        assert (forallb (fun r => Nat.eqb (length r) nc) Y = true); [|congruence]. apply forallb_forall. intros r Hr. apply Nat.eqb_eq. auto.
    + split; [intros (_&L'&_); congruence|auto].
Qed.
Print Assumptions C27_shapes.
Example C27_shapes_ex : leaf_targets 1 (@ex5_reg R _) exX [[1]; [2]] = Err ValueError /\ leaf_targets 2 (@ex5_reg R _) exX [[1]; [2]; [3]] = Err ValueError.
Proof.
  split; apply C27_shapes; intros (_&L&F); [discriminate L|]. inversion F as [|r l L1 F1]. discriminate L1.
Qed.

(** C69 (two forests): with dictionaries of two forests, make_Ut_prime returns exactly when each of the first dictionaries has all depths below m of its partner; a missing one is a KeyError. *)
Theorem C69_partners : forall dn d (Vn V : list (M_Level.dict (list (list nat)))) m, length Vn = length V -> lookup 0 d <> None -> lookup 0 dn <> None ->
  let missing := exists l i a b, (l < m)%nat /\ nth_error (dn :: Vn) i = Some a /\ nth_error (d :: V) i = Some b /\ lookup l b <> None /\ lookup l a = None in
  (missing -> make_Ut_prime (dn :: Vn) (d :: V) (Some m) = Err KeyError) /\
  (~ missing -> exists U, make_Ut_prime (dn :: Vn) (d :: V) (Some m) = Ok U /\ map fst U = seq 0 m).
Proof. exact p_partners. Qed.
Print Assumptions C69_partners.
Example C69_partners_ex : exists Vn V, make_Vt_mat [@ex3_reg Q _] exX None = Ok Vn /\ make_Vt_mat [@ex5_reg Q _] exX None = Ok V /\
  make_Ut_prime Vn V (Some 3%nat) = Err KeyError /\ exists U, make_Ut_prime V Vn (Some 3%nat) = Ok U.
Proof. eexists. eexists. split; [vm_compute; reflexivity|]. split; [vm_compute; reflexivity|]. split; [vm_compute; reflexivity|]. eexists. vm_compute. reflexivity. Qed.

(** C57 (errors): tuning data without observations, or with another number of responses, are a ValueError. *)
Theorem C57_shapes : forall (t : tree R) eps X y, X = [] \/ length y <> length X -> process_tuning_leaf_attributes_tree t eps X y = Err ValueError.
Proof.
  intros t eps X y H. unfold process_tuning_leaf_attributes_tree, obs_V_leaf. destruct X as [|x X]; [reflexivity|]. cbn [bind].
  destruct (Nat.eqb_spec (length y) (length (x :: X))) as [E|E]; [|reflexivity]. destruct H as [H|H]; [discriminate|contradiction].
Qed.
Print Assumptions C57_shapes.
Example C57_shapes_ex : process_tuning_leaf_attributes_tree (@ex5_reg R _) 0 exX [1; 2] = Err ValueError /\ process_tuning_leaf_attributes_tree (@ex5_reg R _) 0 [] [] = Err ValueError.
Proof. split; apply C57_shapes; [right; discriminate|left; reflexivity]. Qed.

(** C54 (errors): max_depth_dist and min_depth_dist want a kernel or a distance matrix; a kernel is turned into distances first, a given distance matrix is used whatever the kernel. *)
Theorem C54_arguments : forall (f : option (list (list R)) -> option (list (list R)) -> result (list (list R))), f = max_depth_dist \/ f = min_depth_dist ->
  f None None = Err AssertionError /\
  (forall K, f (Some K) None = match depth_dist K with Ok D => f None (Some D) | Err e => Err e end) /\
  forall K D, f K (Some D) = f None (Some D).
Proof.
  intros f [-> | ->]; (split; [reflexivity|]); (split; [|reflexivity]); intros K; unfold max_depth_dist, min_depth_dist, sym_dist; destruct (depth_dist K); reflexivity.
Qed.
Print Assumptions C54_arguments.
Example C54_arguments_ex : max_depth_dist (Some [[2; 1]; [0; 3]]%Q) None = Ok [[0; 3]; [3; 0]]%Q /\ max_depth_dist (Some [[0; 1]; [0; 0]]%Q) None = Err AssertionError.
Proof. split; vm_compute; reflexivity. Qed.

From Verif Require Import M_Depth.
(** C38 (errors): if the trees are splits and every tree gets its data, a tree without a tuning observation (say, one that was grown on all of them) makes depth_tune a ValueError. *)
Theorem C38_no_observations : forall kd ts (o : depth_opts R) rd q, Forall wf_tree ts -> (forall t, In t ts -> (1 < size t)%nat) ->
  (forall p, (p < length ts)%nat -> exists X y, depth_rows o rd p X y) -> (q < length ts)%nat -> (exists y, depth_rows o rd q [] y) ->
  depth_tune (Forest kd ts) o rd = Err ValueError.
Proof. exact p_no_observations. Qed.
Print Assumptions C38_no_observations.
Example C38_no_observations_ex : let o := {| d_X_trained := None; d_y_trained := None; d_X_tune := Some []; d_y_tune := Some []; d_resample := false |} in
  depth_tune (Forest Reg [@ex5_reg R _; ex3_reg]) o (ex_rand []) = Err ValueError.
Proof.
  intros o. assert (D : forall p, depth_rows o (ex_rand []) p [] []) by (intros p; apply L_Depth2.rows_data; reflexivity).
  apply (C38_no_observations Reg _ o (ex_rand []) 1).
  - repeat constructor.
  - intros t [<-|[<-|[]]]; cbn; lia.
  - intros p _. exists [], []. apply D.
  - cbn. lia.
  - exists []. apply D.
Qed.
