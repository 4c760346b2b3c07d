(** C131: Gamma and eta from a given matrix of distances. *)
From Verif Require Import Base TreeSpec Spec M_Tree M_Gamma M_Levels M_Analysis M_Named M_Given SpecSmooth SpecNamed.
From Verif Require Import L_Given.
From Coq Require Import Reals Lra Lia QArith.
From Coq Require Strings.String.
Import Coq.Strings.String.StringSyntax.
Local Open Scope string_scope.
Local Open Scope list_scope.
Local Open Scope R_scope.

(** C131: given a matrix of distances with a column for every leaf (and any number of rows), create_Gamma_eta_tree adds up, for every row and every distance up to the largest one, the leaves at this distance (parents_all: at most at this distance), whatever the names and levels are. *)
Theorem C131_given : forall (t : tree R) kd pa D style dist levels, wf_tree t -> D <> [] ->
  (forall i, (i < length D)%nat -> length (nth i D []) = n_leaves t) ->
  (forall i j, (i < length D)%nat -> (j < n_leaves t)%nat -> (0 <= nth j (nth i D []) 0)%Z) ->
  exists G E m, create_Gamma_eta_tree_named kd pa (Some D) style dist levels t = Ok (G, E) /\
  (forall i j, (i < length D)%nat -> (j < n_leaves t)%nat -> (nth j (nth i D []) 0 <= Z.of_nat m)%Z) /\
  (exists i j, (i < length D)%nat /\ (j < n_leaves t)%nat /\ nth j (nth i D []) 0%Z = Z.of_nat m) /\
  length G = n_gamma kd /\ length E = length D /\
  (forall i, (i < length D)%nat -> length (nth i E []) = S m) /\
  (forall c, (c < n_gamma kd)%nat -> length (nth c G []) = length D /\
     forall i, (i < length D)%nat -> length (nth i (nth c G []) []) = S m) /\
  forall i k, (i < length D)%nat -> (k <= m)%nat ->
     let sel j := if pa then Z.leb (nth j (nth i D []) 0%Z) (Z.of_nat k) else Z.eqb (nth j (nth i D []) 0%Z) (Z.of_nat k) in
     nth k (nth i E []) 0 = sum_sel (n_leaves t) sel (leaf_w t) /\
     forall c, (c < n_gamma kd)%nat -> nth k (nth i (nth c G []) []) 0 = sum_sel (n_leaves t) sel (leaf_ny t kd c).
Proof. intros t kd pa D style dist levels. exact (p_given t kd pa D). Qed.
Print Assumptions C131_given.

(** No weight is lost or counted twice: a row of eta adds up to the weight of all leaves (parents_all: its last entry is this weight). *)
Theorem C131_mass : forall (t : tree R) kd D style dist levels G E, wf_tree t -> D <> [] ->
  (forall i, (i < length D)%nat -> length (nth i D []) = n_leaves t) ->
  (forall i j, (i < length D)%nat -> (j < n_leaves t)%nat -> (0 <= nth j (nth i D []) 0)%Z) -> forall i, (i < length D)%nat ->
  (create_Gamma_eta_tree_named kd false (Some D) style dist levels t = Ok (G, E) ->
     sumto (length (nth i E [])) (fun k => nth k (nth i E []) 0) = sumto (n_leaves t) (leaf_w t)) /\
  (create_Gamma_eta_tree_named kd true (Some D) style dist levels t = Ok (G, E) ->
     nth (length (nth i E []) - 1) (nth i E []) 0 = sumto (n_leaves t) (leaf_w t)).
Proof. intros t kd D style dist levels. exact (p_given_mass t kd D). Qed.
Print Assumptions C131_mass.
(** three leaves of weights 2, 1, 1 and two rows of distances *)
Example C131_ex : let t := @ex5_reg Q _ in let run pa := create_Gamma_eta_tree_named Reg pa (Some [[0;2;2];[1;0;2]]%Z) (One (lit "?")) (Many []) None t in
  wf_tree t /\ n_leaf_original t = [2;1;1]%Q /\
  (exists G, run false = Ok (G, [[2;0;2];[1;2;1]]%Q)) /\ exists G, run true = Ok (G, [[2;2;4];[1;3;4]]%Q).
Proof. cbv zeta. split; [reflexivity|]. split; [reflexivity|]. split; eexists; vm_compute; reflexivity. Qed.

(** The tree's own distances, or levels of impurity distances, give what the tree alone gives: the number of levels passed along without a matrix makes no difference. *)
Theorem C131_own : forall (t : tree R) kd pa s style dist levels, wf_tree t -> stands_for dist (lit "depth") -> stands_for style (style_name s) ->
  create_Gamma_eta_tree_named kd pa None style dist levels t = create_Gamma_eta_tree kd pa s t /\
  forall style' dist' levels', create_Gamma_eta_tree_named kd pa (Some (depth_dist_leaves s t)) style' dist' levels' t = create_Gamma_eta_tree kd pa s t.
Proof. exact p_given_depth. Qed.
Print Assumptions C131_own.
Theorem C131_own_levels : forall (t : tree R) kd s lv style dist D e, wf_tree t -> stands_for dist (lit "impurity") -> stands_for style (style_name s) ->
  impurity_levels s lv t = Ok (D, e) ->
  forall style' dist' levels', create_Gamma_eta_tree_named kd false None style dist (Some lv) t = create_Gamma_eta_tree_named kd false (Some D) style' dist' levels' t.
Proof. exact p_given_levels. Qed.
Print Assumptions C131_own_levels.
Example C131_own_ex : let t := @ex5_reg Q _ in impurity_levels Standard (LInt 4) t = Ok ([[0;2;2];[2;0;1];[2;1;0]]%Z, 4%nat) /\
  exists G, create_Gamma_eta_tree_named Reg false None (One (lit "standard")) (One (lit "impurity")) (Some (LInt 4)) t = Ok (G, [[2;0;2];[1;1;2];[1;1;2]]%Q) /\
    create_Gamma_eta_tree_named Reg false (Some [[0;2;2];[2;0;1];[2;1;0]]%Z) default_style default_dist None t = Ok (G, [[2;0;2];[1;1;2];[1;1;2]]%Q).
Proof. cbv zeta. split; [vm_compute; reflexivity|]. eexists. split; vm_compute; reflexivity. Qed.

(** A row that does not have an entry for every leaf is a ValueError; without a matrix so are unknown names and the impurity without levels. *)
Theorem C131_errors : forall (t : tree R) kd pa style dist levels,
  (forall D r, In r D -> length r <> n_leaves t -> create_Gamma_eta_tree_named kd pa (Some D) style dist levels t = Err ValueError) /\
  (~ stands_for dist (lit "depth") -> ~ stands_for dist (lit "impurity") -> create_Gamma_eta_tree_named kd pa None style dist levels t = Err ValueError) /\
  (stands_for dist (lit "impurity") -> create_Gamma_eta_tree_named kd pa None style dist None t = Err ValueError) /\
  (stands_for dist (lit "depth") -> (forall s, ~ stands_for style (style_name s)) -> create_Gamma_eta_tree_named kd pa None style dist levels t = Err ValueError).
Proof. exact p_given_errors. Qed.
Print Assumptions C131_errors.
Example C131_errors_ex : create_Gamma_eta_tree_named Reg false (Some [[0;1]]%Z) default_style default_dist None (@ex5_reg Q _) = Err ValueError /\
  create_Gamma_eta_tree_named Reg false None (Many [lit "max"]) default_dist None (@ex5_reg Q _) = Err ValueError.
Proof. split; reflexivity. Qed.
