(** Props_Question: what the smoothing functions see of the observations and of the questions of the trees. *)
From Coq Require Import Reals Lra Lia QArith.
From Verif Require Import Base TreeSpec Spec M_Tree M_Gamma M_Levels M_Prox M_Grad M_Sgd M_Smooth M_Clean M_Level M_Null M_Torch M_Pytorch
  SpecSmooth SpecRel SpecRel2 SpecQuestion L_Base L_Gamma L_Gamma2 L_Question Props_Smooth Props_Clean Props_Level Props_Torch.
Local Open Scope R_scope.

(** ** C124: only the leaves the observations fall into count *)

(** C124: two forests whose trees differ only in features and thresholds, and data that fall into the same leaves: smooth_clean ends alike, with the same weights, costs and node values (for every start, step size, descent, distance and sampling); *)
Theorem C124_clean : forall ts ts' (o : clean_opts R) X' oob draws, Forall wf_tree ts -> Forall wf_tree ts' -> Forall2 same_but_questions ts ts' ->
  same_leaves ts ts' (k_X o) X' ->
  rrel same_clean (smooth_clean (Forest Reg ts) o oob draws) (smooth_clean (Forest Reg ts') (clean_with_X o X') oob draws).
Proof. exact p_route_clean. Qed.
Print Assumptions C124_clean.

(** ... so does smooth_all, whatever the solver and the null space routines do, ... *)
Theorem C124_all : forall fuel feps solve null_space matrix_rank ts ts' (o : all_opts R) X' Xt' sanity oob boot, Forall wf_tree ts -> Forall wf_tree ts' ->
  Forall2 same_but_questions ts ts' -> same_leaves ts ts' (a_X o) X' -> both (same_leaves ts ts') (a_X_tune o) Xt' ->
  rrel same_all (smooth_all_call fuel feps solve null_space matrix_rank o sanity oob boot ts)
                (smooth_all_call fuel feps solve null_space matrix_rank (all_with_X o X' Xt') sanity oob boot ts').
Proof. exact p_route_all_call. Qed.
Print Assumptions C124_all.

(** ... smooth_pytorch, whatever the optimiser does, as long as no centers are asked for, ... *)
Theorem C124_torch : forall {St} ex (opt : St -> list (list R * R) -> item -> St * list (list R * R)) opt0 kd ts ts' (o : torch_opts (T := R)) X' rd draw,
  Forall wf_tree ts -> Forall wf_tree ts' -> Forall2 same_but_questions ts ts' -> same_leaves ts ts' (to_X_trained o) X' -> to_x_one o = false -> to_x_two o = false ->
  rrel same_torch (smooth_pytorch ex opt opt0 (Forest kd ts) o rd draw) (smooth_pytorch ex opt opt0 (Forest kd ts') (torch_with_X o X') rd draw).
Proof. exact @p_route_torch. Qed.
Print Assumptions C124_torch.

(** ... and smooth. *)
Theorem C124_smooth : forall lg kd ts ts' (o : smooth_opts R) rd Xtr Xtu, Forall wf_tree ts -> Forall wf_tree ts' ->
  Forall2 same_but_questions ts ts' -> both (same_leaves ts ts') (o_X_trained o) Xtr -> both (same_leaves ts ts') (o_X_tune o) Xtu ->
  rrel same_smooth (smooth lg (Forest kd ts) o rd) (smooth lg (Forest kd ts') (with_X o Xtr Xtu) rd).
Proof. exact p_route_smooth. Qed.
Print Assumptions C124_smooth.

(** An increasing change of scale of every feature, made in the data and in the thresholds, is such a pair of forests, ... *)
Theorem C124_rescaled : forall phi (ts : list (tree R)) X, (forall f a b, a < b -> phi f a < phi f b) -> Forall wf_tree ts ->
  (forall t x v, In t ts -> In x X -> (v < size t)%nat -> is_leafb t v = false -> (nth v (t_feature t) 0 < length x)%nat) ->
  Forall wf_tree (map (rescaled_tree phi) ts) /\ Forall2 same_but_questions ts (map (rescaled_tree phi) ts) /\
  same_leaves ts (map (rescaled_tree phi) ts) X (map (rescaled_obs phi) X).
Proof. exact p_rescaled_leaves. Qed.
Print Assumptions C124_rescaled.

(** ... and so is another numbering of the columns. *)
Theorem C124_columns : forall p pi (ts : list (tree R)) X X', Forall wf_tree ts ->
  (forall t v, In t ts -> (v < size t)%nat -> is_leafb t v = false -> (nth v (t_feature t) 0 < p)%nat) -> feature_rows p pi X X' ->
  Forall wf_tree (map (feature_tree pi) ts) /\ Forall2 same_but_questions ts (map (feature_tree pi) ts) /\
  same_leaves ts (map (feature_tree pi) ts) X X'.
Proof. exact p_renamed_leaves. Qed.
Print Assumptions C124_columns.

Lemma ex_rescaled : Forall wf_tree (map (rescaled_tree (fun f x => INR (S f) * x + 1)) ex_ts) /\
  Forall2 same_but_questions ex_ts (map (rescaled_tree (fun f x => INR (S f) * x + 1)) ex_ts) /\
  same_leaves ex_ts (map (rescaled_tree (fun f x => INR (S f) * x + 1)) ex_ts) exX (map (rescaled_obs (fun f x => INR (S f) * x + 1)) exX).
Proof.
  apply C124_rescaled.
  - intros f a b H. apply Rplus_lt_compat_r, Rmult_lt_compat_l; auto. apply lt_0_INR. lia.
  - apply ex_ok.
  - intros t x v Ht Hx Hv L. assert (length x = 2%nat) as -> by (cbn in Hx; intuition (subst; reflexivity)).
    destruct Ht as [<-|[<-|[]]]; cbn in Hv; do 5 (destruct v as [|v]; [cbn; lia|]); lia.
Qed.
Example C124_ex : forall san full (t : R) draws,
  rrel same_clean (smooth_clean (Forest Reg ex_ts) (ex_clean san full t) ex_oob draws)
    (smooth_clean (Forest Reg (map (rescaled_tree (fun f x => INR (S f) * x + 1)) ex_ts)) (clean_with_X (ex_clean san full t) (map (rescaled_obs (fun f x => INR (S f) * x + 1)) exX)) ex_oob draws).
Proof. intros. destruct ex_rescaled as (A&B&C). apply C124_clean; auto. apply ex_ok. Qed.
Example C124_ex_all : forall fuel feps solve ns mr sa, exists ts' X',
  rrel same_all (smooth_all_call fuel feps solve ns mr (ex_all [2;4;8]%Z false false true) sa (fun _ => []) (fun _ => []) ex_ts)
    (smooth_all_call fuel feps solve ns mr (all_with_X (ex_all [2;4;8]%Z false false true) X' (Some X')) sa (fun _ => []) (fun _ => []) ts').
Proof. intros. destruct ex_rescaled as (A&B&C). do 2 eexists. apply C124_all; eauto. apply ex_ok. Qed.

(** With centers the scale counts: twice the units in data and thresholds, the same leaves, and another loss. *)
Definition twice (t : tree Q) : tree Q := mkTree (t_left t) (t_right t) (t_feature t) (map (Qmult 2) (t_thresh t)) (t_value t) (t_weight t) (t_imp t).
Definition ex_xopts (x1 : bool) (X : mat Q) : torch_opts (T := Q) :=
  {| to_X_trained := X; to_y_trained := exrow [2;4;8]%Z; to_X_tune := None; to_y_tune := None; to_resample := false; to_sgd_max_num := 2;
     to_all_trees := false; to_parents_all := false; to_style := Standard; to_which_one := negb x1; to_which_two := false;
     to_x_one := x1; to_x_two := false; to_init := InitScalar 1%Q |}.
Definition ex_loss (x1 : bool) (ts : list (tree Q)) (X : mat Q) : result Q :=
  do out <- smooth_pytorch (fun x => 1 + x * x)%Q (fun (s : nat) par (x : item) => (s, [([1;0],0);([0;1],1);([0;1],2)]%Q)) 0%nat (Forest Reg ts) (ex_xopts x1 X) ex_trows (fun e i => (e + i)%nat);
  Ok (Qred (so_loss_min out)).
Theorem C124_centers_refuted : exists (ts : list (tree Q)) (X : mat Q) l l', Forall (@wf_tree Q) ts /\
  map (fun t => map (leaf_number t) X) ts = map (fun t => map (leaf_number (twice t)) (map (map (Qmult 2)) X)) ts /\
  ex_loss true ts X = Ok l /\ ex_loss true (map twice ts) (map (map (Qmult 2)) X) = Ok l' /\ l <> l'.
Proof.
  exists ex_ts2, exX. do 2 eexists. split; [repeat constructor|]. split; [vm_compute; reflexivity|].
  split; [vm_compute; reflexivity|]. split; [vm_compute; reflexivity|]. discriminate.
Qed.
Print Assumptions C124_centers_refuted.
