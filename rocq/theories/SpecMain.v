(** SpecMain: vocabulary for the experiment scripts (real numbers). *)
From Verif Require Import Base TreeSpec M_Tree M_Gamma M_Levels M_Prox M_Grad M_Sgd M_Smooth M_Main Spec.
From Coq Require Import Reals.
Local Open Scope R_scope.

(** [d] is the first member of [range] with the smallest value of [f] *)
Definition first_best (f : nat -> R) (range : list nat) (d : nat) : Prop :=
  exists before after, range = before ++ d :: after /\
    (forall x, In x before -> f d < f x) /\ (forall x, In x after -> f d <= f x).

(** average of f 0, ..., f (n-1) *)
Definition average (n : nat) (f : nat -> R) : R := sumto n f / INR n.
(** [s] is their standard deviation (with divisor n) *)
Definition spread (n : nat) (f : nat -> R) (s : R) : Prop :=
  0 <= s /\ s * s = average n (fun i => (f i - average n f) * (f i - average n f)).

(** observation [x] falls into a leaf [d] edges below the root *)
Definition falls {T} {NT : Num T} (t : tree T) (x : list T) (d : nat) : Prop :=
  exists v, reaches t x v /\ is_leafb t v = true /\ depth_of t v d.

(** the data of one pass: training, tuning (if any), test; generated responses are moved up by 100 *)
Definition moved (d d' : mat R * list R) : Prop := fst d' = fst d /\ snd d' = map (fun v => v + 100) (snd d).
Definition pass_data (w : grow_args R) (x : cell R) (train : mat R * list R) (tune : option (mat R * list R)) (test : mat R * list R) : Prop :=
  match w_data w with
  | SplitData => train = fst (x_split x) /\ test = snd (x_split x) /\ tune = None
  | Generated => moved (x_gen x) train /\ moved (x_gen_test x) test /\
      match w_tuning w with
      | TuneOracle => exists u, tune = Some u /\ moved (x_gen_tune x) u
      | _ => tune = None
      end
  | OtherData => False
  end.

(** what the script asks smooth for *)
Definition pass_call (w : grow_args R) (x : cell R) (train : mat R * list R) (tune : option (mat R * list R))
    (o : smooth_opts R) (rd : randomness) : Prop :=
  o_X_trained o = Some (fst train) /\ o_y_trained o = Some (snd train) /\
  match tune with
  | None => o_X_tune o = None /\ o_y_tune o = None
  | Some u => o_X_tune o = Some (fst u) /\ o_y_tune o = Some (map (fun v => [v]) (snd u))
  end /\
  (o_no_constraint o = true <-> w_constrained w = false) /\
  (o_resample o = true <-> w_tuning w = TuneResample) /\
  (o_all_trees o = true <-> w_batch w = AllTrees) /\
  (o_lamb_draws o = None <-> w_init w = RfInit) /\
  o_t_fix o = w_t w /\ o_style o = Standard /\ o_dist o = DDepth (w_parents w) /\ o_sanity o = false /\
  o_class_eps o = / 10000 /\ o_class_loss o = CE /\
  (exists p, o_adam o = Some p /\ ad_alpha p = / 1000 /\ ad_b1 p = 9 / 10 /\ ad_b2 p = 999 / 1000 /\ ad_eps p = / 100000000) /\
  length (r_draws rd) = w_max_iter w /\ r_oob rd = x_oob x /\ r_boot rd = x_boot x.
