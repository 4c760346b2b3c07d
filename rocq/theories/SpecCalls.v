(** SpecCalls: what it means for the arguments of a call to be bound. *)
From Coq Require Strings.String.
From Verif Require Import Base M_Analysis M_Calls.
Import Coq.Strings.String.StringSyntax.
Local Open Scope string_scope.
Local Open Scope list_scope.

Section Spec.
Context {V : Type}.

(** the arguments [vs], one per parameter: the positional ones first, then those named, then default values; every name is that of a
    parameter that is not among the positional ones, and is given once *)
Definition bound (params : list (str * option V)) (pos : list V) (kw : list (str * V)) (vs : list V) : Prop :=
  length pos <= length params /\ NoDup (map fst kw) /\
  (forall n, In n (map fst kw) -> exists i d, length pos <= i /\ nth_error params i = Some (n, d)) /\
  length vs = length params /\
  forall i n d v, nth_error params i = Some (n, d) -> nth_error vs i = Some v ->
    (i < length pos /\ nth_error pos i = Some v) \/
    (length pos <= i /\ In (n, v) kw) \/
    (length pos <= i /\ ~ In n (map fst kw) /\ d = Some v).
End Spec.

(** the arguments the functions cannot do without *)
Definition needed : list (signature * list String.string) :=
  [(sig_depth_tune, ["random_forest"]); (sig_generate_data, []); (sig_generate_data_knn, []); (sig_l2_np, ["y"; "y_pred"]);
   (sig_smooth, ["random_forest"]); (sig_smooth_all, ["random_forest"; "X_trained"; "y_trained"]);
   (sig_smooth_clean, ["random_forest"; "X_trained"; "y_trained"]); (sig_smooth_pytorch, ["random_forest"; "X_trained"; "y_trained"]); (sig_spirals, [])].
