(** Props_Tight3: statements added to earlier properties: C38 (which error), C81 (lengths), C55 (lengths and missing depth 0), C30 (the descent for cross-entropy). *)
From Coq Require Import Reals Lra Lia QArith.
From Verif Require Import Base TreeSpec Spec SpecSmooth SpecTune SpecDepth M_Tree M_Gamma M_Levels M_Prox M_Grad M_Sgd M_Smooth M_Depth M_Null M_Level.
From Verif Require Import L_Base L_Depth2 L_Tight3.
Local Open Scope R_scope.

(** C38: with tuning data for every tree, a first tree without a split gives an UnboundLocalError (no depth was tried yet), a later one a ValueError (it has no predictions to choose from). *)
Theorem C38_single_error : forall kd t0 ts (o : depth_opts R) rd, Forall wf_tree (t0 :: ts) ->
  (forall q, (q <= length ts)%nat -> exists X y, depth_rows o rd q X y) ->
  (size t0 = 1%nat -> depth_tune (Forest kd (t0 :: ts)) o rd = Err UnboundLocalError) /\
  ((1 < size t0)%nat -> (exists t, In t ts /\ size t = 1%nat) -> depth_tune (Forest kd (t0 :: ts)) o rd = Err ValueError).
Proof. exact p_single_error. Qed.
Print Assumptions C38_single_error.
Definition ex1_reg : tree R := mkTree [-1]%Z [-1]%Z [0]%nat [0] [[5]] [4] [0].
Example C38_single_error_ex : let o := {| d_X_trained := None; d_y_trained := None; d_X_tune := Some exX; d_y_tune := Some (exrow [2;4;8]%Z); d_resample := false |} in
  depth_tune (Forest Reg [ex1_reg; ex3_reg]) o (ex_rand []) = Err UnboundLocalError /\
  depth_tune (Forest Reg [ex3_reg; ex1_reg]) o (ex_rand []) = Err ValueError.
Proof.
  intros o. split; apply C38_single_error; try reflexivity; try (repeat constructor); try (intros; do 2 eexists; apply dr_given; reflexivity).
  exists ex1_reg. split; [left; auto|reflexivity].
Qed.

(** C81: a vector that has not as many entries as the null space's vectors is a ValueError, unless the null space is 0. *)
Theorem C81_length : forall null_space matrix_rank (G : mat R) v m, null_space G <> [] -> (forall b, In b (null_space G) -> length b = m) -> length v <> m ->
  forall tol, check_in_null null_space matrix_rank G v tol = Err ValueError.
Proof. exact p_null_length. Qed.
Print Assumptions C81_length.
Example C81_length_ex : forall mr tol, check_in_null (fun _ => [[1;-1]]) mr [[1;1];[1;1]] [1;-1;0] tol = Err ValueError.
Proof. intros. apply (C81_length _ _ _ _ 2); try discriminate. intros b [<-|[]]; reflexivity. Qed.

(** C55: dictionaries of unequally many trees, a dictionary without depth 0 and weights that are not as many as the depths are AssertionErrors; dictionaries of no tree and a depth vector of another length than the tree are IndexErrors; a first dictionary without depth 0 is a KeyError. *)
Theorem C55_errors :
  (forall Vn V md, length Vn <> length V -> make_Ut_prime Vn V md = Err AssertionError) /\
  (forall (U : M_Level.dict (list (list (list nat)))), (forall k m, In (k, m) U -> k <> 0%nat) -> remove_0 U = Err AssertionError) /\
  (forall (U : M_Level.dict (list (list (list nat)))) (lamb : list R), length lamb <> length U -> make_kernel U (Some lamb) = Err AssertionError) /\
  (forall md, make_Ut_prime [] [] md = Err IndexError) /\
  (forall (t : tree R) x X dv, length dv <> size t -> make_Vt_mat_tree t (x :: X) (Some dv) = Err IndexError) /\
  (forall dn Vn d V md, length Vn = length V -> (forall m, ~ In (0%nat, m) d) \/ (forall m, ~ In (0%nat, m) dn) -> make_Ut_prime (dn :: Vn) (d :: V) md = Err KeyError).
Proof. exact p_kernel_errors. Qed.
Print Assumptions C55_errors.
Example C55_errors_ex : make_Ut_prime [[(0%nat, [[1%nat]])]] [] None = Err AssertionError /\ remove_0 [(1, [[[1]]]); (2, [[[1]]])]%nat = Err AssertionError /\
  make_kernel [(0, [[[1]]]); (1, [[[1]]])]%nat (Some [1; 1; 1]) = Err AssertionError /\
  make_Vt_mat_tree (@ex3_reg R _) exX (Some [0; 1]%nat) = Err IndexError /\
  make_Ut_prime [[(1, [[1]])]]%nat [[(0, [[1]])]]%nat None = Err KeyError.
Proof.
  destruct C55_errors as (A & B & C & _ & D & E0). split; [apply A|split; [apply B|split; [apply C|split; [apply D|apply E0; auto]]]]; try discriminate.
  - intros k m [E|[E|[]]]; injection E as <- <-; discriminate.
  - right. intros m [E|[]]. discriminate.
Qed.

(** C30 (descent level): the cross-entropy descent raises TypeError exactly when the start has not as many entries as Gamma has columns; it does not look at the simplex. *)
Theorem C30_sgd_ce_typeerror : forall (lg : R -> R) (P : problem R) init t cons eps ad draws,
  stocastic_grad_descent_ce lg P init t cons eps ad draws = Err TypeError <-> ncols (p_Gamma P) <> length init.
Proof. exact p_ce_typeerror. Qed.
Print Assumptions C30_sgd_ce_typeerror.
Example C30_sgd_ce_ex : let P := {| p_y := [1]; p_w := [1]; p_Gamma := [[1; 1]]; p_eta := [[1; 1]]; p_tidx := [0%nat] |}%Q in
  stocastic_grad_descent_ce (fun x => x) P [1]%Q 1%Q false (1#10)%Q None [] = Err TypeError /\
  exists r, stocastic_grad_descent_ce (fun x => x) P [3; -1]%Q 1%Q true (1#10)%Q None [] = Ok r.
Proof. split; [vm_compute; reflexivity|]. eexists. vm_compute. reflexivity. Qed.
