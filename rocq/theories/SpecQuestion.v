(** SpecQuestion: two forests that differ only in the questions their nodes ask, and data that fall into the
    same leaves. *)
From Verif Require Import Base TreeSpec Spec M_Tree M_Gamma M_Levels M_Grad M_Sgd M_Smooth M_Clean M_Level M_Pytorch SpecSmooth SpecRel.
From Coq Require Import Reals.

(** the same children, values, weights and impurities; features and thresholds may differ *)
Definition same_but_questions (t t' : tree R) : Prop :=
  t_left t' = t_left t /\ t_right t' = t_right t /\ t_value t' = t_value t /\ t_weight t' = t_weight t /\ t_imp t' = t_imp t.

(** as many observations, and in every tree observation [o] falls into the same leaf *)
Definition same_leaves (ts ts' : list (tree R)) (X X' : mat R) : Prop :=
  length X' = length X /\
  forall q t t' o i, nth_error ts q = Some t -> nth_error ts' q = Some t' -> (o < length X)%nat ->
  leaf_of t (nth o X []) i -> leaf_of t' (nth o X' []) i.

(** the arguments with other observations *)
Definition clean_with_X (o : clean_opts R) (X : mat R) : clean_opts R :=
  {| k_X := X; k_y := k_y o; k_no_constraint := k_no_constraint o; k_sanity := k_sanity o; k_t_fix := k_t_fix o;
     k_all_obs := k_all_obs o; k_use_full := k_use_full o; k_n_obs := k_n_obs o; k_lamb_draws := k_lamb_draws o;
     k_style := k_style o; k_dist := k_dist o; k_adam := k_adam o |}.
Definition all_with_X (o : all_opts R) (X : mat R) (Xt : option (mat R)) : all_opts R :=
  {| a_X := X; a_y := a_y o; a_X_tune := Xt; a_y_tune := a_y_tune o; a_no_constraint := a_no_constraint o;
     a_sanity := a_sanity o; a_resample := a_resample o; a_parents_all := a_parents_all o; a_inner_assess := a_inner_assess o |}.
Definition torch_with_X (o : torch_opts (T := R)) (X : mat R) : torch_opts :=
  {| to_X_trained := X; to_y_trained := to_y_trained o; to_X_tune := to_X_tune o; to_y_tune := to_y_tune o;
     to_resample := to_resample o; to_sgd_max_num := to_sgd_max_num o; to_all_trees := to_all_trees o;
     to_parents_all := to_parents_all o; to_style := to_style o; to_which_one := to_which_one o; to_which_two := to_which_two o;
     to_x_one := to_x_one o; to_x_two := to_x_two o; to_init := to_init o |}.

(** the same results, up to the questions of the trees *)
Definition same_clean (a b : list (tree R) * list R * list R) : Prop :=
  Forall2 same_but_questions (fst (fst a)) (fst (fst b)) /\ snd (fst b) = snd (fst a) /\ snd b = snd a.
Definition same_all (a b : list (tree R) * list R) : Prop :=
  Forall2 same_but_questions (fst a) (fst b) /\ snd b = snd a.
Definition same_torch (a b : torch_out (T := R)) : Prop :=
  Forall2 same_but_questions (so_forest a) (so_forest b) /\ so_losses b = so_losses a /\ so_loss_min b = so_loss_min a /\
  so_params_min b = so_params_min a /\ so_best b = so_best a /\ so_model b = so_model a.
Definition same_smooth (a b : smooth_out R) : Prop :=
  Forall2 same_but_questions (s_forest a) (s_forest b) /\ s_lamb b = s_lamb a /\
  Forall2 same_but_questions (s_forest2 a) (s_forest2 b) /\ s_lamb2 b = s_lamb2 a /\ s_lamb_last b = s_lamb_last a /\
  s_costs b = s_costs a.
