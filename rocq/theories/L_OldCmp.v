(** L_OldCmp: proofs for Props_OldCmp. *)
From Coq Require Import Ascii.
From Coq Require Strings.String.
From Verif Require Import Base TreeSpec Spec M_Tree M_Gamma M_Levels M_Prox M_Grad M_Sgd M_Smooth M_Analysis M_Main M_Predict M_Prelim M_Cmd M_OldCmp SpecMain.
From Verif Require Import L_Base L_Sgd L_Main.
From Coq Require Import Reals Lra Lia.
Import Coq.Strings.String.StringSyntax.
Local Open Scope string_scope.
Local Open Scope list_scope.
Local Open Scope R_scope.

Definition ext_of (b : option R) : ext R := match b with Some x => Fin x | None => PInf end.

Lemma old_fold_reg : forall (score : nat -> R) range bd bs c,
  fold_left (old_step score) range (bd, ext_of bs, c) =
  (let '(bd', bs', c') := fold_left (search_step score) range (bd, bs, c) in (bd', ext_of bs', c')).
Proof.
  intros score. induction range as [|d l IH]; intros bd bs c; cbn [fold_left]; [reflexivity|].
  unfold old_step at 2, search_step at 2. rewrite <- IH. f_equal. destruct bs as [b|]; cbn; [|reflexivity].
  match goal with |- context [if ?x then _ else _] => destruct x end; reflexivity.
Qed.

Lemma old_fold_ninf : forall (score : nat -> R) range bd c,
  fold_left (old_step score) range (bd, NInf, c) = (bd, NInf, c ++ map (fun d => 1 - score d) range).
Proof.
  intros score. induction range as [|d l IH]; intros bd c; cbn [fold_left map]; [now rewrite app_nil_r|].
  unfold old_step at 2. cbn [below]. rewrite IH, <- app_assoc. reflexivity.
Qed.

Lemma p_C129_reg : forall (score : rf_type -> nat -> R) range, exists bd bs,
  old_depth_search score TReg range = Ok (bd, bs, map (fun d => 1 - score TReg d) range, range) /\
  old_node_size_search score TReg range = Ok (bd, bs, map (fun d => 1 - score TReg d) range, range) /\
  match range with
  | [] => bd = None /\ bs = PInf
  | _ => exists d, bd = Some d /\ bs = Fin (1 - score TReg d) /\ first_best (fun d => 1 - score TReg d) range d
  end.
Proof.
  intros score range. destruct (p_C93 score TReg range ltac:(discriminate)) as (bd&bs&E&_&C).
  exists bd, (ext_of bs). assert (F : fold_left (search_step (score TReg)) range (None, None, []) = (bd, bs, map (fun d => 1 - score TReg d) range))
    by (assert (E0 : @Ok _ (fold_left (search_step (score TReg)) range (None, None, []), range) = Ok (bd, bs, map (fun d => 1 - score TReg d) range, range))
          by (destruct range; exact E); injection E0 as E0; exact E0).
  pose proof (old_fold_reg (score TReg) range None None []) as G. rewrite F in G. cbn [ext_of] in G.
  split; [unfold old_depth_search; cbn [old_start]; rewrite G; destruct range; reflexivity|].
  split; [unfold old_node_size_search; cbn [old_start]; rewrite G; destruct range; reflexivity|].
  destruct range; [destruct C as [-> ->]; auto|]. destruct C as (d&->& -> &F'). exists d. auto.
Qed.

Lemma p_C129_class : forall (score : rf_type -> nat -> R) range,
  old_depth_search score TClass range = Ok (None, NInf, map (fun d => 1 - score TClass d) range, range) /\
  old_node_size_search score TClass range = Ok (None, NInf, map (fun d => 1 - score TClass d) range, range).
Proof.
  intros score range. unfold old_depth_search, old_node_size_search. cbn [old_start].
  rewrite (old_fold_ninf (score TClass) range None []). destruct range; auto.
Qed.

Lemma first_best_unique : forall f range d d', first_best f range d -> first_best f range d' -> d = d'.
Proof.
  intros f range d d' (a&b&E&A&B) (a'&b'&E'&A'&B'). subst range. revert a' E' A A'.
  induction a as [|x a IH]; intros [|x' a'] E A A'; cbn in E; injection E; intros; subst; auto.
  - exfalso. assert (f d' < f x') by (apply A'; now left). assert (f x' <= f d') by (apply B; apply in_elt). lra.
  - exfalso. assert (f d < f d') by (apply A; now left). assert (f d' <= f d) by (apply B'; apply in_elt). lra.
  - apply (IH a'); auto; intros y Y; [apply A|apply A']; now right.
Qed.

Lemma old_search_best : forall (score : nat -> R) d, first_best (fun d => 1 - score d) cmd_depths d ->
  exists bs c, old_depth_search (fun _ => score) TReg cmd_depths = Ok (Some d, bs, c, cmd_depths) /\
    old_node_size_search (fun _ => score) TReg cmd_depths = Ok (Some d, bs, c, cmd_depths).
Proof.
  intros score d F. destruct (p_C129_reg (fun _ => score) cmd_depths) as (bd&bs&E1&E2&C).
  change (exists d0, bd = Some d0 /\ bs = Fin (1 - score d0) /\ first_best (fun d => 1 - score d) cmd_depths d0) in C.
  destruct C as (d0&->&_&F0). rewrite (first_best_unique _ _ _ _ F F0). eauto.
Qed.
Lemma old_search_some : forall (score : nat -> R), exists d, first_best (fun d => 1 - score d) cmd_depths d.
Proof.
  intros score. destruct (p_C129_reg (fun _ => score) cmd_depths) as (bd&bs&_&_&C).
  change (exists d0, bd = Some d0 /\ bs = Fin (1 - score d0) /\ first_best (fun d => 1 - score d) cmd_depths d0) in C.
  destruct C as (d&_&_&F). eauto.
Qed.

Section Script.
Variables (lg : R -> R) (ds : str) (u : outside R).

Lemma old_sim_err : forall train test d k,
  old_data ds u = Ok (train, test) -> fst test <> [] ->
  first_best (fun d => 1 - u_oob u (MaxDepth d)) cmd_depths d -> first_best (fun k => 1 - u_oob u (MinSplit k)) cmd_depths k ->
  old_sim lg ds u =
  match u_fit u (MaxDepth d) with
  | Err e => Err e
  | Ok _ => match u_fit u (MinSplit k) with Err e => Err e | Ok _ => match u_fit u NoPar with Err e => Err e | Ok _ => Err ValueError end end
  end.
Proof using Type.
  intros train test d k D N F1 F2. unfold old_sim. rewrite D. cbn [bind].
  destruct (old_search_best _ _ F1) as (b1&c1&E1&_). destruct (old_search_best _ _ F2) as (b2&c2&_&E2).
  rewrite E1. cbn [bind fst snd]. destruct (u_fit u (MaxDepth d)); cbn [bind]; [|reflexivity].
  destruct test as [X y]. cbn [fst snd] in *. destruct X as [|x0 X]; [congruence|]. cbn [predict_rows bind].
  rewrite E2. cbn [bind fst snd]. destruct (u_fit u (MinSplit k)); cbn [bind]; [|reflexivity].
  cbn [predict_rows bind]. destruct (u_fit u NoPar); cbn [bind]; [|reflexivity]. reflexivity.
Qed.

Lemma old_sim_never : exists e, old_sim lg ds u = Err e.
Proof using Type.
  destruct (old_data ds u) as [[train test]|e] eqn:D; [|exists e; unfold old_sim; rewrite D; reflexivity].
  destruct (old_search_some (fun d => u_oob u (MaxDepth d))) as (d&F1). destruct (old_search_some (fun d => u_oob u (MinSplit d))) as (k&F2).
  destruct test as [X y]. destruct X as [|x0 X].
  - unfold old_sim. rewrite D. cbn [bind]. destruct (old_search_best _ _ F1) as (b1&c1&E1&_). rewrite E1. cbn [bind fst snd].
    destruct (u_fit u (MaxDepth d)) as [ts|e]; cbn [bind]; [exists ValueError; reflexivity|exists e; reflexivity].
  - rewrite (old_sim_err _ _ d k D); auto; [|discriminate].
    destruct (u_fit u (MaxDepth d)); eauto. destruct (u_fit u (MinSplit k)); eauto. destruct (u_fit u NoPar); eauto.
Qed.
End Script.

Lemma old_compare_first : forall (lg : R -> R) news us argv ds, nth_error argv 1 = Some ds ->
  (ds = lit "online_news" -> news = Ok tt) ->
  old_compare lg news us argv = match old_sim lg ds (us 0%nat) with Ok _ => old_compare lg news us argv | Err e => Err e end.
Proof.
  intros lg news us argv ds A N. unfold old_compare, arg. rewrite A. cbn [bind].
  replace (if str_eqb ds (lit "online_news") then news else Ok tt) with (@Ok unit tt)
    by (unfold str_eqb; destruct (str_eq_dec _ _) as [E|]; [now rewrite N|reflexivity]).
  cbn [bind]. change (seq 0 20) with (0%nat :: seq 1 19). cbn [mapM]. destruct (old_sim lg ds (us 0%nat)); reflexivity.
Qed.

Lemma p_C129_never : forall (lg : R -> R) news us argv, exists e, old_compare lg news us argv = Err e.
Proof.
  intros lg news us argv. destruct (nth_error argv 1) as [ds|] eqn:A; [|exists IndexError; unfold old_compare, arg; now rewrite A].
  destruct (old_sim_never lg ds (us 0%nat)) as [e E].
  destruct (str_eq_dec ds (lit "online_news")) as [D|D].
  - destruct news as [[]|e'] eqn:N.
    + exists e. rewrite (old_compare_first lg (Ok tt) us argv ds A); auto. now rewrite E.
    + exists e'. unfold old_compare, arg. rewrite A, D. reflexivity.
  - exists e. rewrite (old_compare_first lg news us argv ds A); [|congruence]. now rewrite E.
Qed.

Lemma old_data_known : forall ds (u : outside R), ds = lit "online_news" \/ ds = lit "microsoft" -> exists train test, old_data ds u = Ok (train, test).
Proof. intros ds u [->| ->]; [destruct (u_split u) as [a b] eqn:E; exists a, b; cbn; now rewrite E|]. eexists. eexists. reflexivity. Qed.

Lemma p_C129_errors : forall (lg : R -> R) news us argv,
  ((length argv < 2)%nat -> old_compare lg news us argv = Err IndexError) /\
  (forall ds, nth_error argv 1 = Some ds -> ds <> lit "online_news" -> ds <> lit "microsoft" -> old_compare lg news us argv = Err NameError) /\
  (forall e, nth_error argv 1 = Some (lit "online_news") -> news = Err e -> old_compare lg news us argv = Err e) /\
  (forall ds, nth_error argv 1 = Some ds -> ds = lit "online_news" \/ ds = lit "microsoft" -> news = Ok tt ->
     (forall p, exists ts, u_fit (us 0%nat) p = Ok ts) -> old_compare lg news us argv = Err ValueError).
Proof.
  intros lg news us argv. split; [|split; [|split]].
  - intros L. unfold old_compare, arg. now rewrite (proj2 (nth_error_None argv 1)) by lia.
  - intros ds A N1 N2. rewrite (old_compare_first lg news us argv ds A) by congruence. unfold old_sim, old_data, str_eqb.
    destruct (str_eq_dec _ _); [congruence|]. destruct (str_eq_dec _ _); [congruence|]. reflexivity.
  - intros e A ->. unfold old_compare, arg. rewrite A. reflexivity.
  - intros ds A D N F. rewrite (old_compare_first lg news us argv ds A) by auto.
    destruct (old_data_known ds (us 0%nat) D) as (train&test&E).
    destruct (old_search_some (fun d => u_oob (us 0%nat) (MaxDepth d))) as (d&F1).
    destruct (old_search_some (fun d => u_oob (us 0%nat) (MinSplit d))) as (k&F2).
    destruct test as [X y]. destruct X as [|x0 X].
    + unfold old_sim. rewrite E. cbn [bind]. destruct (old_search_best _ _ F1) as (b1&c1&E1&_). rewrite E1. cbn [bind fst snd].
      destruct (F (MaxDepth d)) as [ts ->]. reflexivity.
    + rewrite (old_sim_err lg ds _ _ _ d k E); auto; [|discriminate].
      destruct (F (MaxDepth d)) as [? ->]. destruct (F (MinSplit k)) as [? ->]. destruct (F NoPar) as [? ->]. reflexivity.
Qed.

Lemma p_C129_fits : forall (lg : R -> R) news us argv ds train test d k e,
  nth_error argv 1 = Some ds -> news = Ok tt -> old_data ds (us 0%nat) = Ok (train, test) -> fst test <> [] ->
  first_best (fun d => 1 - u_oob (us 0%nat) (MaxDepth d)) cmd_depths d -> first_best (fun k => 1 - u_oob (us 0%nat) (MinSplit k)) cmd_depths k ->
  (u_fit (us 0%nat) (MaxDepth d) = Err e -> old_compare lg news us argv = Err e) /\
  (forall ts, u_fit (us 0%nat) (MaxDepth d) = Ok ts -> u_fit (us 0%nat) (MinSplit k) = Err e -> old_compare lg news us argv = Err e).
Proof.
  intros lg news us argv ds train test d k e A N E NE F1 F2. rewrite (old_compare_first lg news us argv ds A) by auto.
  rewrite (old_sim_err lg ds _ _ _ d k E); auto. split; [intros ->; reflexivity|intros ts -> ->; reflexivity].
Qed.
