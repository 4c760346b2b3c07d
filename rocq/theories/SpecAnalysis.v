(** SpecAnalysis: the jobs of the analysis scripts and what a dictionary holds. *)
From Coq Require Import Ascii.
From Coq Require Strings.String.
From Verif Require Import Base TreeSpec M_Tree M_Gamma M_Levels M_Grad M_Sgd M_Smooth M_Clean M_Analysis.
Import Coq.Strings.String.StringSyntax.
Local Open Scope string_scope.
Local Open Scope list_scope.

(** a dictionary with one entry for [k], which is [v] *)
Definition holds {A} (d : list (str * A)) (k : str) (v : A) : Prop := forall v', In (k, v') d <-> v' = v.

(** [fs] prints the floats of [l] differently, without a comma and without an underscore *)
Definition prints {T} (fs : T -> str) (l : list T) : Prop :=
  (forall x, In x l -> ~ In ","%char (fs x) /\ ~ In "_"%char (fs x)) /\
  (forall x y, In x l -> In y l -> fs x = fs y -> x = y).

(** the same job but for the loss *)
Definition same_but_loss {T} (p q : params T) : Prop :=
  p_style p = p_style q /\ p_inner p = p_inner q /\ p_parents p = p_parents q /\ p_nocons p = p_nocons q /\
  p_lamb p = p_lamb q /\ p_adam p = p_adam q.

(** four values of the lists *)
Definition adam_in {T} (al b1 b0 ep : list T) (a : option (T * T * T * T)) : Prop :=
  exists x y z w, a = Some (x, y, z, w) /\ In x al /\ In y b1 /\ In z b0 /\ In w ep.

(** what all three scripts go through: two distance styles ([st] lists them), three ways to make the
    distance symmetric, both values of parents_all, no_constraint=True for regression only, the random
    start and the forest's own *)
Definition common_job {T} (kd : kind) (st : list str) (seed : nat) (p : params T) : Prop :=
  In (p_style p) st /\ (p_inner p = lit "standard" \/ p_inner p = lit "max" \/ p_inner p = lit "min") /\
  (p_nocons p = true -> kd = Reg) /\ (p_lamb p = Some seed \/ p_lamb p = None).
(** the clean script: always the squared error, without or with Adam *)
Definition clean_job {T} kd seed (al b1 b0 ep : list T) (p : params T) : Prop :=
  common_job kd [lit "depth"; lit "impurity"] seed p /\ p_loss p = L2 /\ (p_adam p = None \/ adam_in al b1 b0 ep (p_adam p)).
(** the older scripts: for classification both losses, and Adam *)
Definition old_job {T} kd st seed (al b1 b0 ep : list T) (p : params T) : Prop :=
  common_job kd st seed p /\ (p_loss p = CE -> kd <> Reg) /\ adam_in al b1 b0 ep (p_adam p).

(** the job with the squared error *)
Definition with_l2 {T} (p : params T) : params T :=
  {| p_style := p_style p; p_inner := p_inner p; p_parents := p_parents p; p_nocons := p_nocons p;
     p_lamb := p_lamb p; p_loss := L2; p_adam := p_adam p |}.

(** number of values of no_constraint *)
Definition n_nocons (kd : kind) : nat := match kd with Reg => 2 | Class _ => 1 end.

(** the style lists of the older scripts: analysis.py one style, analysis_both.py styles without commas *)
Definition styles_fine (both : bool) (st : list str) : Prop :=
  if both then NoDup st /\ forall s, In s st -> ~ In ","%char s else exists s, st = [s].

(** the same job with the other value of parents_all *)
Definition other_parents {T} (p : params T) : params T :=
  {| p_style := p_style p; p_inner := p_inner p; p_parents := negb (p_parents p); p_nocons := p_nocons p;
     p_lamb := p_lamb p; p_loss := p_loss p; p_adam := p_adam p |}.

(** entries of the dictionaries before the jobs *)
Definition n_start (kd : kind) : nat := match kd with Reg => 6 | Class _ => 2 end.

(** the jobs of the clean script that are modelled *)
Definition modelled {T} (p : params T) : Prop := p_style p = lit "depth" \/ p_parents p = false.

(** what the strings of a job mean: the way to make distances symmetric, the distance *)
Definition inner_means (s : str) (d : dstyle) : Prop :=
  (s = lit "standard" /\ d = Standard) \/ (s = lit "max" /\ d = MaxStyle) \/ (s = lit "min" /\ d = MinStyle).
Definition dist_means {T} (s : str) (pa : bool) (levels : option nat) (d : dist_choice T) : Prop :=
  (s = lit "depth" /\ d = DDepth pa) \/ (s = lit "impurity" /\ exists n, levels = Some n /\ d = DImp (LInt n)).
Definition adam_means {T} (a : option (T * T * T * T)) (q : option (adam_par T)) : Prop :=
  match a, q with
  | None, None => True
  | Some (x, y, z, w), Some q => ad_alpha q = x /\ ad_b1 q = y /\ ad_b2 q = z /\ ad_eps q = w
  | _, _ => False
  end.

(** the call of smooth_clean a job asks for *)
Definition asks_clean {T} {NT : Num T} X (y : list T) levels (rng : nat -> nat -> T) (p : params T) (o : clean_opts T) : Prop :=
  k_X o = X /\ k_y o = y /\ k_no_constraint o = p_nocons p /\ k_sanity o = false /\ k_t_fix o = n1 /\ k_all_obs o = false /\ k_use_full o = true /\ k_n_obs o = 40 /\
  match p_lamb p, k_lamb_draws o with None, None => True | Some s, Some u => forall i, u i = rng s i | _, _ => False end /\
  inner_means (p_inner p) (k_style o) /\ dist_means (p_style p) (p_parents p) levels (k_dist o) /\ adam_means (p_adam p) (k_adam o).

(** the call of smooth a job of the older scripts makes: without tuning data, and parents_all=False whatever the job *)
Definition asks_old {T} {NT : Num T} X (y : list T) levels (rng : nat -> nat -> T) (p : params T) (o : smooth_opts T) : Prop :=
  o_X_trained o = Some X /\ o_y_trained o = Some y /\ o_X_tune o = None /\ o_y_tune o = None /\ o_no_constraint o = p_nocons p /\ o_sanity o = false /\
  o_resample o = false /\ o_all_trees o = false /\ o_class_eps o = npow (ndiv n1 (nof 10)) 4 /\ o_class_loss o = p_loss p /\
  match p_lamb p, o_lamb_draws o with None, None => True | Some s, Some u => forall i, u i = rng s i | _, _ => False end /\
  inner_means (p_inner p) (o_style o) /\ dist_means (p_style p) false levels (o_dist o) /\ adam_means (p_adam p) (o_adam o).
