(** L_Calls: lemmas about the binding of arguments. *)
From Verif Require Import Base M_Analysis M_Calls SpecCalls.
From Coq Require Import Lia.

Lemma str_eqb_spec : forall a b, str_eqb a b = true <-> a = b.
Proof. intros a b. unfold str_eqb. destruct (str_eq_dec a b); split; congruence. Qed.
Lemma place_some : forall n l i, place n l = Some i -> nth_error l i = Some n.
Proof.
  induction l as [|m l IH]; intros i H; cbn [place] in H; [discriminate|]. destruct (str_eqb n m) eqn:E.
  - apply str_eqb_spec in E. assert (X : i = 0) by congruence. subst. reflexivity.
  - destruct (place n l) as [j|]; [|discriminate]. assert (X : i = S j) by congruence. subst i. cbn [nth_error]. auto.
Qed.
Lemma place_none : forall n l, place n l = None -> ~ In n l.
Proof.
  induction l as [|m l IH]; intros H HI; [destruct HI|]. cbn [place] in H. destruct HI as [E|E].
  - subst. rewrite (proj2 (str_eqb_spec n n) eq_refl) in H. discriminate.
  - destruct (str_eqb n m); [discriminate|]. destruct (place n l); [discriminate|]. apply IH; auto.
Qed.

Section Bind.
Context {V : Type}.
Variable params : list (str * option V).
Hypothesis ND : NoDup (map fst params).

Lemma place_at : forall n d i, nth_error params i = Some (n, d) -> place n (map fst params) = Some i.
Proof.
  intros n d i H. assert (H' : nth_error (map fst params) i = Some n) by (rewrite nth_error_map, H; auto).
  destruct (place n (map fst params)) as [j|] eqn:E.
  - f_equal. apply place_some in E. apply (proj1 (NoDup_nth_error _) ND); [|congruence]. apply nth_error_Some. congruence.
  - exfalso. apply (place_none _ _ E). eapply nth_error_In; eauto.
Qed.
Lemma place_ex : forall n i, place n (map fst params) = Some i -> exists d, nth_error params i = Some (n, d).
Proof.
  intros n i H. apply place_some in H. rewrite nth_error_map in H. destruct (nth_error params i) as [[m d]|]; cbn [option_map fst] in H; [|discriminate].
  exists d. congruence.
Qed.

Lemma fill_len : forall (sl : list (option V)) i v, i < length sl -> length (fill_slot sl i v) = length sl.
Proof. intros sl i v H. unfold fill_slot. rewrite app_length. cbn [length]. rewrite firstn_length_le, skipn_length by lia. lia. Qed.
Lemma fill_at : forall (sl : list (option V)) i j v, i < length sl -> nth j (fill_slot sl i v) None = if Nat.eqb j i then Some v else nth j sl None.
Proof.
  intros sl i j v H. unfold fill_slot. assert (LF : length (firstn i sl) = i) by (apply firstn_length_le; lia). destruct (Nat.eqb_spec j i) as [->|N].
  - rewrite app_nth2 by lia. rewrite LF, Nat.sub_diag. auto.
  - destruct (Nat.lt_ge_cases j i).
    + rewrite app_nth1 by lia. rewrite <- (firstn_skipn i sl) at 2. rewrite app_nth1 by lia. auto.
    + rewrite app_nth2 by lia. rewrite LF. replace (j - i) with (S (j - S i)) by lia. cbn [nth].
      rewrite <- (firstn_skipn (S i) sl) at 2. rewrite app_nth2; rewrite firstn_length_le by lia; [f_equal; lia|lia].
Qed.

Let step (sl : list (option V)) (a : str * V) : result (list (option V)) :=
  match place (fst a) (map fst params) with
  | None => Err TypeError
  | Some i => match nth i sl None with Some _ => Err TypeError | None => Ok (fill_slot sl i (snd a)) end
  end.

(** what the slots are after some keywords *)
Definition slots_for (sl0 : list (option V)) (kw : list (str * V)) (sl : list (option V)) : Prop :=
  length sl = length params /\
  forall i n d, nth_error params i = Some (n, d) ->
    (forall v, In (n, v) kw -> nth i sl None = Some v) /\ (~ In n (map fst kw) -> nth i sl None = nth i sl0 None).

Lemma steps_ok : forall kw sl0, length sl0 = length params -> NoDup (map fst kw) ->
  (forall n, In n (map fst kw) -> exists i d, nth_error params i = Some (n, d) /\ nth i sl0 None = None) ->
  exists sl, foldM step kw sl0 = Ok sl /\ slots_for sl0 kw sl.
Proof.
  induction kw as [|[n v] kw IH]; intros sl0 L NK H; cbn [foldM].
  - exists sl0. split; [auto|]. split; [auto|]. intros i n d N. split; [intros v []|auto].
  - cbn [map fst] in NK. inversion NK as [|x l NI NK']. subst x l. destruct (H n (or_introl eq_refl)) as (i&d&N&E). unfold step at 1. cbn [fst snd].
    rewrite (place_at n d i N), E. cbn [bind]. assert (Hi : i < length sl0) by (rewrite L; apply nth_error_Some; congruence).
    destruct (IH (fill_slot sl0 i v)) as (sl&ES&LS&SS).
    + rewrite fill_len; auto.
    + auto.
    + intros m Hm. destruct (H m (or_intror Hm)) as (j&d'&N'&E'). exists j, d'. split; [auto|]. rewrite fill_at by auto. destruct (Nat.eqb_spec j i) as [->|]; [|auto].
      rewrite N in N'. assert (m = n) by congruence. subst. contradiction.
    + exists sl. split; [auto|]. split; [auto|]. intros j m d' N'. destruct (SS j m d' N') as [S1 S2]. split.
      * intros w [E'|IN]; [|auto]. assert (m = n /\ w = v) as [-> ->] by (split; congruence).
        assert (J : j = i) by (pose proof (place_at _ _ _ N'); pose proof (place_at _ _ _ N); congruence). subst j. rewrite S2 by auto. rewrite fill_at, Nat.eqb_refl; auto.
      * intros NM. cbn [map fst In] in NM. rewrite S2 by tauto. rewrite fill_at by auto. destruct (Nat.eqb_spec j i) as [->|]; [|auto].
        rewrite N in N'. exfalso. apply NM. left. congruence.
Qed.
Lemma steps_err : forall kw sl0 e, foldM step kw sl0 = Err e -> e = TypeError.
Proof.
  induction kw as [|[n v] kw IH]; intros sl0 e H; cbn [foldM] in H; [discriminate|]. unfold step at 1 in H. cbn [fst snd] in H.
  destruct (place n (map fst params)); [|cbn [bind] in H; congruence]. destruct (nth _ sl0 None); cbn [bind] in H; [congruence|eauto].
Qed.
Lemma steps_conv : forall kw sl0 sl, length sl0 = length params -> foldM step kw sl0 = Ok sl -> NoDup (map fst kw) /\
  (forall n, In n (map fst kw) -> exists i d, nth_error params i = Some (n, d) /\ nth i sl0 None = None).
Proof.
  induction kw as [|[n v] kw IH]; intros sl0 sl L H; cbn [foldM] in H; [split; [constructor|intros n []]|]. unfold step at 1 in H. cbn [fst snd] in H.
  destruct (place n (map fst params)) as [i|] eqn:EP; [|cbn [bind] in H; discriminate]. destruct (place_ex n i EP) as (d&N).
  assert (Hi : i < length sl0) by (rewrite L; apply nth_error_Some; congruence).
  destruct (nth i sl0 None) eqn:E; cbn [bind] in H; [discriminate|]. assert (LF : length (fill_slot sl0 i v) = length params) by (rewrite fill_len; auto). destruct (IH _ _ LF H) as [NK K]. split.
  - cbn [map fst]. constructor; [|auto]. intros IN. destruct (K n IN) as (j&d'&N'&E'). pose proof (place_at _ _ _ N') as P. rewrite EP in P. assert (j = i) by congruence. subst j.
    rewrite fill_at, Nat.eqb_refl in E' by auto. discriminate.
  - intros m [<-|IN]; [exists i, d; auto|]. destruct (K m IN) as (j&d'&N'&E'). exists j, d'. split; [auto|]. rewrite fill_at in E' by auto. destruct (Nat.eqb j i); [discriminate|auto].
Qed.

Let pickv (it : option V * (str * option V)) : result V :=
  match fst it with Some v => Ok v | None => match snd (snd it) with Some d => Ok d | None => Err TypeError end end.

Lemma bind_eq : forall pos kw, bind_args params pos kw = if Nat.ltb (length params) (length pos) then Err TypeError
  else do slots <- foldM step kw (map Some pos ++ repeat None (length params - length pos)); mapM pickv (combine slots params).
Proof. reflexivity. Qed.

Lemma picks_err : forall l e, mapM pickv l = Err e -> e = TypeError.
Proof.
  induction l as [|[o [n d]] l IH]; intros e H; cbn [mapM] in H; [discriminate|]. unfold pickv at 1 in H. cbn [fst snd] in H.
  destruct o; [|destruct d]; cbn [bind] in H; try (destruct (mapM pickv l) eqn:E; cbn [bind] in H; [discriminate|]; rewrite (IH _ eq_refl) in H; congruence). congruence.
Qed.
Lemma picks_ok : forall l vs, mapM pickv l = Ok vs <-> length vs = length l /\ forall i it, nth_error l i = Some it -> exists v, nth_error vs i = Some v /\ pickv it = Ok v.
Proof.
  induction l as [|it l IH]; intros vs; cbn [mapM].
  - split.
    + intros H. assert (vs = []) by congruence. subst. split; [auto|]. intros [|i] it H'; discriminate.
    + intros [L _]. destruct vs; [auto|discriminate].
  - split.
    + intros H. destruct (pickv it) as [v|e] eqn:E; cbn [bind] in H; [|discriminate]. destruct (mapM pickv l) as [r|e] eqn:ER; cbn [bind] in H; [|discriminate].
      assert (X : vs = v :: r) by congruence. subst vs. destruct (proj1 (IH r) eq_refl) as [L K]. split; [cbn [length]; lia|]. intros [|i] it' H'; cbn [nth_error] in *; [|auto].
      assert (it' = it) by congruence. subst. eauto.
    + intros [L K]. destruct vs as [|v r]; [discriminate|]. destruct (K 0 it eq_refl) as (v'&N&E). cbn [nth_error] in N. assert (v' = v) by congruence. subst v'. rewrite E. cbn [bind].
      rewrite (proj2 (IH r)); [auto|]. split; [cbn [length] in L; lia|]. intros i it' H'. apply (K (S i) it' H').
Qed.
Lemma p_err : forall pos kw e, bind_args params pos kw = Err e -> e = TypeError.
Proof.
  intros pos kw e H. rewrite bind_eq in H. destruct (Nat.ltb (length params) (length pos)); [congruence|].
  match type of H with bind ?x _ = _ => destruct x as [sl|e'] eqn:E end; cbn [bind] in H; [eapply picks_err; eauto|]. apply steps_err in E. congruence.
Qed.

Lemma slots0 : forall (pos : list V) i, length pos <= length params -> nth i (map Some pos ++ repeat None (length params - length pos)) None = nth_error pos i.
Proof.
  intros pos i L. destruct (Nat.lt_ge_cases i (length pos)) as [H|H].
  - rewrite app_nth1 by (rewrite map_length; auto). destruct (nth_error pos i) as [v|] eqn:E; [|apply nth_error_None in E; lia].
    apply nth_error_nth. rewrite nth_error_map, E. auto.
  - rewrite app_nth2 by (rewrite map_length; auto). rewrite (proj2 (nth_error_None pos i) H). clear. generalize (i - length (map Some pos)) (length params - length pos). intros a b. revert a. induction b; intros [|a]; cbn; auto.
Qed.
Lemma slots0_len : forall (pos : list V), length pos <= length params -> length (map Some pos ++ repeat None (length params - length pos)) = length params.
Proof. intros. rewrite app_length, map_length, repeat_length. lia. Qed.

Lemma combine_nth : forall (sl : list (option V)) i p, length sl = length params -> nth_error params i = Some p -> nth_error (combine sl params) i = Some (nth i sl None, p).
Proof.
  clear ND step pickv. intros sl. revert params. induction sl as [|o sl IH]; intros [|q ps] i p L N; cbn [length] in L; try discriminate.
  - destruct i; discriminate.
  - destruct i as [|i]; cbn [nth_error combine nth] in *; [congruence|]. apply IH; auto.
Qed.

Lemma p_bind : forall pos kw vs, bind_args params pos kw = Ok vs <-> bound params pos kw vs.
Proof.
  intros pos kw vs. rewrite bind_eq. split.
  - intros H. destruct (Nat.ltb_spec (length params) (length pos)) as [B|B]; [discriminate|]. set (sl0 := map Some pos ++ _) in *.
    pose proof (slots0_len pos B) as L0. fold sl0 in L0. destruct (foldM step kw sl0) as [sl|e] eqn:E; cbn [bind] in H; [|discriminate].
    destruct (steps_conv kw sl0 sl L0 E) as [NK K]. destruct (steps_ok kw sl0 L0 NK K) as (sl'&E'&LS&SS). rewrite E in E'. assert (sl' = sl) by congruence. subst sl'.
    apply picks_ok in H. destruct H as [LV P]. rewrite combine_length, LS, Nat.min_id in LV. split; [auto|]. split; [auto|].
    assert (K' : forall n, In n (map fst kw) -> exists i d, length pos <= i /\ nth_error params i = Some (n, d)).
    { intros n Hn. destruct (K n Hn) as (i&d&N&Z). exists i, d. split; [|auto]. unfold sl0 in Z. rewrite slots0 in Z by auto. apply nth_error_None. auto. }
    split; [auto|]. split; [auto|]. intros i n d v N NV. destruct (P i _ (combine_nth sl i (n, d) LS N)) as (v'&NV'&PV). rewrite NV in NV'. assert (v' = v) by congruence. subst v'.
    destruct (SS i n d N) as [S1 S2]. unfold pickv in PV. cbn [fst snd] in PV. destruct (in_dec str_eq_dec n (map fst kw)) as [IN|NI].
    + right. left. destruct (K' n IN) as (j&d'&Hj&N'). pose proof (place_at _ _ _ N) as Q. rewrite (place_at _ _ _ N') in Q. assert (j = i) by congruence. subst j. split; [auto|].
      apply in_map_iff in IN. destruct IN as ([m w]&E2&IN). cbn [fst] in E2. subst m. rewrite (S1 w IN) in PV. assert (w = v) by congruence. subst w. auto.
    + rewrite (S2 NI) in PV. unfold sl0 in PV. rewrite slots0 in PV by auto. destruct (nth_error pos i) as [w|] eqn:EW.
      * left. split; [apply nth_error_Some; congruence|]. congruence.
      * right. right. split; [apply nth_error_None; auto|]. split; [auto|]. destruct d; [congruence|discriminate].
  - intros (B&NK&K&LV&P). destruct (Nat.ltb_spec (length params) (length pos)) as [B'|_]; [lia|]. set (sl0 := map Some pos ++ _).
    pose proof (slots0_len pos B) as L0. fold sl0 in L0. destruct (steps_ok kw sl0 L0 NK) as (sl&E&LS&SS).
    { intros n Hn. destruct (K n Hn) as (i&d&Hi&N). exists i, d. split; [auto|]. unfold sl0. rewrite slots0 by auto. apply nth_error_None. auto. }
    rewrite E. cbn [bind]. apply picks_ok. rewrite combine_length, LS, Nat.min_id. split; [auto|]. intros i it NI.
    assert (Hi : i < length params) by (assert (i < length (combine sl params)) by (apply nth_error_Some; congruence); rewrite combine_length in *; lia).
    destruct (nth_error params i) as [[n d]|] eqn:N; [|apply nth_error_None in N; lia]. rewrite (combine_nth sl i _ LS N) in NI.
    destruct (nth_error vs i) as [v|] eqn:NV; [|apply nth_error_None in NV; lia]. exists v. split; [auto|]. assert (X : it = (nth i sl None, (n, d))) by congruence. subst it. unfold pickv. cbn [fst snd].
    destruct (SS i n d N) as [S1 S2]. assert (NOK : i < length pos -> ~ In n (map fst kw)).
    { intros Hp IN. destruct (K n IN) as (j&d'&Hj&N'). pose proof (place_at _ _ _ N) as Q. rewrite (place_at _ _ _ N') in Q. assert (j = i) by congruence. lia. }
    destruct (P i n d v N NV) as [[Hp EP]|[[Hp IN]|[Hp [NI' ->]]]].
    + rewrite (S2 (NOK Hp)). unfold sl0. rewrite slots0, EP by auto. auto.
    + rewrite (S1 v IN). auto.
    + rewrite (S2 NI'). unfold sl0. rewrite slots0 by auto. rewrite (proj2 (nth_error_None pos i) Hp). auto.
Qed.
End Bind.

(** ** Calls with given names *)
Definition fits (c : call_site) : bool :=
  Nat.leb (cl_pos c) (length (cl_sig c)) &&
  forallb (fun n => match place n (map fst (cl_sig c)) with Some i => Nat.leb (cl_pos c) i | None => false end) (cl_kw c) &&
  forallb (fun i => match nth_error (cl_sig c) i with Some (n, d) => Nat.ltb i (cl_pos c) || d || existsb (str_eqb n) (cl_kw c) | None => true end) (seq 0 (length (cl_sig c))).

Lemma defaults_names : forall {V} (dflt : str -> V) s, map fst (with_defaults dflt s) = map fst s.
Proof. intros. unfold with_defaults. rewrite map_map. apply map_ext. auto. Qed.
Lemma defaults_nth : forall {V} (dflt : str -> V) s i n (d : bool), nth_error s i = Some (n, d) -> nth_error (with_defaults dflt s) i = Some (n, if d then Some (dflt n) else None).
Proof. intros. unfold with_defaults. rewrite nth_error_map, H. auto. Qed.

Lemma unknown_keyword : forall {V} (params : list (str * option V)) pos kw n, NoDup (map fst params) -> In n (map fst kw) -> ~ In n (map fst params) -> bind_args params pos kw = Err TypeError.
Proof.
  intros V params pos kw n ND IN NI. destruct (bind_args params pos kw) as [vs|e] eqn:E; [|f_equal; eapply p_err; eauto].
  apply p_bind in E; auto. destruct E as (_&_&K&_). destruct (K n IN) as (i&d&_&N). exfalso. apply NI. apply nth_error_In in N. apply (in_map fst) in N. auto.
Qed.

Lemma seq_ex : forall {A} (P : nat -> A -> Prop) n, (forall i, i < n -> exists a, P i a) -> exists l, length l = n /\ forall i a, nth_error l i = Some a -> P i a.
Proof.
  induction n as [|n IH]; intros H.
  - exists []. split; [auto|]. intros [|i] a E; discriminate.
  - destruct IH as (l&L&K); [intros; apply H; lia|]. destruct (H n ltac:(lia)) as (a&Ha). exists (l ++ [a]). split; [rewrite app_length; cbn; lia|].
    intros i b E. destruct (Nat.lt_ge_cases i (length l)).
    + rewrite nth_error_app1 in E by auto. auto.
    + rewrite nth_error_app2 in E by auto. destruct (i - length l) as [|k] eqn:EK; cbn in E; [|destruct k; discriminate]. assert (b = a) by congruence. assert (i = n) by lia. subst. auto.
Qed.

Lemma fits_bound : forall {V} (dflt : str -> V) c pos kw, NoDup (map fst (cl_sig c)) -> NoDup (cl_kw c) -> fits c = true -> length pos = cl_pos c -> map fst kw = cl_kw c ->
  exists vs, bound (with_defaults dflt (cl_sig c)) pos kw vs.
Proof.
  intros V dflt c pos kw NS NK F LP EK. unfold fits in F. apply Bool.andb_true_iff in F. destruct F as [F F3]. apply Bool.andb_true_iff in F. destruct F as [F1 F2].
  apply Nat.leb_le in F1. rewrite forallb_forall in F2, F3. assert (LD : length (with_defaults dflt (cl_sig c)) = length (cl_sig c)) by (unfold with_defaults; apply map_length).
  assert (KW : forall n, In n (map fst kw) -> exists i d, length pos <= i /\ nth_error (with_defaults dflt (cl_sig c)) i = Some (n, d)).
  { intros n Hn. rewrite EK in Hn. specialize (F2 n Hn). destruct (place n (map fst (cl_sig c))) as [i|] eqn:E; [|discriminate]. apply Nat.leb_le in F2. apply place_some in E.
    rewrite nth_error_map in E. destruct (nth_error (cl_sig c) i) as [[m d]|] eqn:N; cbn [option_map fst] in E; [|discriminate]. assert (m = n) by congruence. subst m.
    exists i, (if d then Some (dflt n) else None). split; [lia|]. apply defaults_nth; auto. }
  destruct (seq_ex (fun i v => forall n d, nth_error (with_defaults dflt (cl_sig c)) i = Some (n, d) ->
      (i < length pos /\ nth_error pos i = Some v) \/ (length pos <= i /\ In (n, v) kw) \/ (length pos <= i /\ ~ In n (map fst kw) /\ d = Some v)) (length (cl_sig c))) as (vs&LV&PV).
  { intros i Hi. destruct (nth_error (cl_sig c) i) as [[n d]|] eqn:N; [|apply nth_error_None in N; lia]. pose proof (defaults_nth dflt _ _ _ _ N) as ND'.
    destruct (Nat.lt_ge_cases i (length pos)) as [Hp|Hp].
    - destruct (nth_error pos i) as [v|] eqn:E; [|apply nth_error_None in E; lia]. exists v. intros; left; auto.
    - destruct (in_dec str_eq_dec n (map fst kw)) as [IN|NI].
      + pose proof IN as IN'. apply in_map_iff in IN'. destruct IN' as ([m w]&E&IN'). cbn [fst] in E. subst m. exists w. intros n' d' N'. rewrite ND' in N'. assert (n' = n) by congruence. subst. right. left. auto.
      + assert (IS : In i (seq 0 (length (cl_sig c)))) by (apply in_seq; lia). specialize (F3 i IS). rewrite N in F3. destruct d.
        * exists (dflt n). intros n' d' N'. rewrite ND' in N'. assert (n' = n /\ d' = Some (dflt n)) as [-> ->] by (split; congruence). right. right. auto.
        * exfalso. rewrite Bool.orb_false_r in F3. apply Bool.orb_true_iff in F3. destruct F3 as [F3|F3]; [apply Nat.ltb_lt in F3; lia|]. apply existsb_exists in F3. destruct F3 as (x&IX&EX). apply str_eqb_spec in EX. subst x. apply NI. rewrite EK. auto. }
  exists vs. split; [lia|]. split; [rewrite EK; auto|]. split; [auto|]. split; [lia|]. intros i n d v N NV. apply (PV i v NV n d N).
Qed.

(** deciding NoDup *)
Fixpoint nodupb (l : list str) : bool := match l with [] => true | x :: r => negb (existsb (str_eqb x) r) && nodupb r end.
Lemma nodupb_ok : forall l, nodupb l = true -> NoDup l.
Proof.
  induction l as [|x l IH]; intros H; [constructor|]. cbn [nodupb] in H. apply Bool.andb_true_iff in H. destruct H as [H1 H2]. constructor; [|auto].
  intros IN. apply Bool.negb_true_iff in H1. assert (existsb (str_eqb x) l = true); [|congruence]. apply existsb_exists. exists x. split; [auto|]. apply str_eqb_spec. auto.
Qed.

(** ** Calls by name only *)
Lemma by_name : forall {V} (dflt : str -> V) s kw, NoDup (map fst s) ->
  ((exists vs, bind_args (with_defaults dflt s) [] kw = Ok vs) <->
   NoDup (map fst kw) /\ (forall n, In n (map fst kw) -> In n (map fst s)) /\ forall n, In (n, false) s -> In n (map fst kw)).
Proof.
  intros V dflt s kw ND. assert (ND' : NoDup (map fst (with_defaults dflt s))) by (rewrite defaults_names; auto). split.
  - intros (vs&E). apply p_bind in E; auto. destruct E as (_&NK&K&L&P). split; auto. split.
    + intros n Hn. destruct (K n Hn) as (i&d&_&N). apply nth_error_In in N. apply (in_map fst) in N. rewrite defaults_names in N. auto.
    + intros n Hn. apply In_nth_error in Hn. destruct Hn as (i&N). pose proof (defaults_nth dflt _ _ _ _ N) as N'. cbn beta iota in N'.
      destruct (nth_error vs i) as [v|] eqn:NV; [|apply nth_error_None in NV; rewrite L in NV; assert (i < length (with_defaults dflt s)) by (apply nth_error_Some; congruence); lia].
      destruct (P i n None v N' NV) as [[Hp _]|[[_ H]|[_ [_ H]]]]; [cbn in Hp; lia|apply (in_map fst) in H; auto|discriminate].
  - intros (NK&K&Q).
    assert (F : fits {| cl_file := []; cl_line := 0; cl_sig := s; cl_pos := 0; cl_kw := map fst kw |} = true).
    { unfold fits. cbn [cl_sig cl_pos cl_kw]. apply Bool.andb_true_iff. split; [apply Bool.andb_true_iff; split; [reflexivity|]|].
      - apply forallb_forall. intros n Hn. destruct (place n (map fst s)) as [i|] eqn:EP; [reflexivity|]. exfalso. specialize (K n Hn).
        rewrite <- (defaults_names dflt) in K. apply in_map_iff in K. destruct K as ([m d]&E&IN). cbn [fst] in E. subst m. apply In_nth_error in IN. destruct IN as (i&N).
        pose proof (place_at _ ND' _ _ _ N) as PA. rewrite defaults_names in PA. congruence.
      - apply forallb_forall. intros i _. destruct (nth_error s i) as [[n [|]]|] eqn:N; auto.
        rewrite (proj2 (existsb_exists _ _)); [rewrite Bool.orb_true_r; auto|]. exists n. split; [apply Q; eapply nth_error_In; eauto|apply str_eqb_spec; auto]. }
    match type of F with fits ?c = _ => destruct (fits_bound dflt c [] kw ND NK F eq_refl eq_refl) as (vs&B) end. exists vs. apply p_bind; auto.
Qed.
