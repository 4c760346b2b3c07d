(** Props_Calls: C119, the calls of the package in the scripts. *)
From Coq Require Strings.String.
From Verif Require Import Base M_Analysis M_Calls SpecCalls L_Calls.
From Coq Require Import Lia.
Import Coq.Strings.String.StringSyntax.
Local Open Scope string_scope.
Local Open Scope list_scope.

(** A call binds [vs] to the parameters exactly when these are the positional arguments, the named ones and the default values, each name being
    known, not among the positional ones and given once; every other call is a TypeError. *)
Theorem C119_binding : forall {V} (params : list (str * option V)) pos kw, NoDup (map fst params) ->
  (forall vs, bind_args params pos kw = Ok vs <-> bound params pos kw vs) /\ (forall e, bind_args params pos kw = Err e -> e = TypeError).
Proof. intros V params pos kw ND. split; [intros; apply p_bind; auto|apply p_err]. Qed.
Print Assumptions C119_binding.

(** The calls of the scripts with names the functions know are accepted, whatever the values ... *)
Theorem C119_accepted : forall {V} (dflt : str -> V) c pos kw, In c accepted_calls -> length pos = cl_pos c -> map fst kw = cl_kw c ->
  exists vs, bind_args (with_defaults dflt (cl_sig c)) pos kw = Ok vs /\ length vs = length (cl_sig c).
Proof.
  intros V dflt c pos kw IN LP EK. assert (F : forallb (fun c => nodupb (map fst (cl_sig c)) && nodupb (cl_kw c) && fits c)%bool accepted_calls = true) by (vm_compute; reflexivity).
  rewrite forallb_forall in F. specialize (F c IN). apply Bool.andb_true_iff in F. destruct F as [F F3]. apply Bool.andb_true_iff in F. destruct F as [F1 F2]. apply nodupb_ok in F1, F2.
  destruct (fits_bound dflt c pos kw F1 F2 F3 LP EK) as (vs&B). exists vs. split; [apply p_bind; [rewrite defaults_names|]; auto|].
  destruct B as (_&_&_&L&_). rewrite L. unfold with_defaults. apply map_length.
Qed.
Print Assumptions C119_accepted.

(** ... and the calls of smooth in depth_run, depth_run_class and understanding_smoothing_* (main_old), which give subgrad_max_num and subgrad_t_fix, are a TypeError. *)
Theorem C119_stale : forall {V} (dflt : str -> V) c pos kw, In c stale_calls -> map fst kw = cl_kw c ->
  bind_args (with_defaults dflt (cl_sig c)) pos kw = Err TypeError.
Proof.
  intros V dflt c pos kw IN EK. assert (F : forallb (fun c => nodupb (map fst (cl_sig c)) && existsb (str_eqb (lit "subgrad_max_num")) (cl_kw c) && negb (existsb (str_eqb (lit "subgrad_max_num")) (map fst (cl_sig c))))%bool stale_calls = true) by (vm_compute; reflexivity).
  rewrite forallb_forall in F. specialize (F c IN). apply Bool.andb_true_iff in F. destruct F as [F F3]. apply Bool.andb_true_iff in F. destruct F as [F1 F2].
  apply unknown_keyword with (n := lit "subgrad_max_num").
  - rewrite defaults_names. apply nodupb_ok; auto.
  - rewrite EK. apply existsb_exists in F2. destruct F2 as (x&IX&EX). apply str_eqb_spec in EX. subst x. auto.
  - rewrite defaults_names. intros H. apply Bool.negb_true_iff in F3. assert (existsb (str_eqb (lit "subgrad_max_num")) (map fst (cl_sig c)) = true); [|congruence].
    apply existsb_exists. eexists. split; [exact H|]. apply str_eqb_spec. auto.
Qed.
Print Assumptions C119_stale.

(** A call by names only is accepted exactly when every name is that of a parameter, none is given twice, and those the function cannot do without are there. *)
Theorem C119_needed : forall {V} (dflt : str -> V) s req kw, In (s, req) needed ->
  ((exists vs, bind_args (with_defaults dflt s) [] kw = Ok vs) <->
   NoDup (map fst kw) /\ (forall n, In n (map fst kw) -> In n (map fst s)) /\ forall n, In n req -> In (lit n) (map fst kw)).
Proof.
  intros V dflt s req kw IN.
  assert (F : forallb (fun x : signature * list String.string => (nodupb (map fst (fst x)) && if list_eq_dec str_eq_dec (map lit (snd x)) (map fst (filter (fun p : str * bool => negb (snd p)) (fst x))) then true else false)%bool) needed = true) by (vm_compute; reflexivity).
  rewrite forallb_forall in F. specialize (F _ IN). cbn [fst snd] in F. apply Bool.andb_true_iff in F. destruct F as [F1 F2]. apply nodupb_ok in F1.
  destruct (list_eq_dec str_eq_dec _ _) as [E|]; [|discriminate].
  assert (Q : (forall n, In (n, false) s -> In n (map fst kw)) <-> (forall n, In n req -> In (lit n) (map fst kw))).
  { split; intros H n Hn.
    - apply (in_map lit) in Hn. rewrite E in Hn. apply in_map_iff in Hn. destruct Hn as ([m d]&EM&Hm). cbn [fst] in EM. apply filter_In in Hm. destruct Hm as [Hm D]. destruct d; [discriminate|]. rewrite <- EM. auto.
    - assert (Hm : In n (map lit req)) by (rewrite E; apply in_map_iff; exists (n, false); split; [auto|apply filter_In; auto]).
      apply in_map_iff in Hm. destruct Hm as (m&<-&Hm). auto. }
  rewrite <- Q. apply by_name; auto.
Qed.
Print Assumptions C119_needed.

(** main/pytorch_example.py:34 with the value 650; spirals with two names: n_classes and t_shift take their default values *)
Example C119_ex : bind_args (with_defaults (fun _ => 0) sig_generate_data) [650] [] = Ok [650] /\
  bind_args (with_defaults (fun n => length n) sig_spirals) [] [(lit "noise_sd", 1); (lit "n_total", 3000)] = Ok [3000; 9; 1; 7] /\
  bind_args (with_defaults (fun _ => 0) sig_smooth_all) [1] [(lit "random_forest", 1)] = Err TypeError /\
  bind_args (with_defaults (fun _ => 0) sig_smooth_all) [1] [(lit "X_trained", 1)] = Err TypeError.
Proof. repeat split; vm_compute; reflexivity. Qed.
Example C119_ex_calls : length accepted_calls = 44 /\ length stale_calls = 8.
Proof. split; reflexivity. Qed.
