(** L_Cmd2: further lemmas on the command lines of the depth scripts. *)
From Coq Require Import Ascii Lia.
From Coq Require Strings.String.
From Verif Require Import Base TreeSpec M_Tree M_Gamma M_Grad M_Sgd M_Smooth M_Analysis M_Main M_Cmd SpecCmd L_Base L_Cmd.
Import Coq.Strings.String.StringSyntax.
Local Open Scope nat_scope.
Local Open Scope string_scope.
Local Open Scope list_scope.

Section Cmd2.
Context {T : Type} {NT : Num T}.
Variables (int_of : str -> option nat) (float_of : str -> option T) (fs : T -> str) (lg : T -> T).
Variable score : kind -> list (tree T) -> mat T * list T -> T.
Variable level : mat T * list T -> option (mat T * list T) -> bool -> bool -> bool -> list (tree T) -> result (list (tree T)).
Variable cells : str -> nat -> nat -> nat -> cell T.
Notation run := (run_script int_of float_of fs lg score level cells).

Lemma run_read_err : forall sc argv e, read_args int_of float_of sc argv = Err e -> run sc argv = Err e.
Proof. intros sc argv e H. rewrite run_after, H. reflexivity. Qed.

Lemma p_number_trees : forall sc argv n, nth_error argv 2 = Some n -> int_of n = None -> run sc argv = Err ValueError.
Proof.
  intros sc argv n H E. apply run_read_err. unfold read_args, arg. destruct argv as [|a0 [|a1 [|a2 argv]]]; try discriminate.
  cbn [nth_error bind] in *. injection H as ->. rewrite E. reflexivity.
Qed.

(** the four arguments of "eb" *)
Definition eb_args (k : nat) (argv : list str) : result (str * str * nat * T) :=
  do i <- arg argv k; do b <- arg argv (k + 1); do m <- arg argv (k + 2);
  do mi <- match int_of m with Some n => Ok n | None => Err ValueError end;
  do t <- arg argv (k + 3); do tt <- match float_of t with Some x => Ok x | None => Err ValueError end; Ok (i, b, mi, tt).
Lemma read_eb : forall sc argv n trees, nth_error argv 2 = Some n -> int_of n = Some trees -> nth_error argv 5 = Some (lit "eb") ->
  let k := if has_loss sc then 9 else 8 in k <= length argv ->
  exists q0 : str * str * nat * T -> cmd T, (forall x, q_eb (q0 x) = Some x) /\ read_args int_of float_of sc argv = (do x <- eb_args k argv; Ok (q0 x)).
Proof.
  intros sc argv n trees H2 HI H5 k HK.
  assert (A : forall i, i < k -> exists s, arg argv i = Ok s).
  { intros i Hi. unfold arg. destruct (nth_error argv i) eqn:E; eauto. apply nth_error_None in E. lia. }
  assert (K8 : 8 <= k) by (unfold k; destruct (has_loss sc); lia).
  unfold read_args. fold k.
  destruct (A 1 ltac:(lia)) as (s1&E1). rewrite E1. unfold arg at 1. rewrite H2. cbn [bind]. rewrite HI. cbn [bind].
  destruct (A 3 ltac:(lia)) as (s3&E3). rewrite E3. destruct (A 4 ltac:(lia)) as (s4&E4). rewrite E4. cbn [bind].
  unfold arg at 1. rewrite H5. destruct (A 6 ltac:(lia)) as (s6&E6). rewrite E6. destruct (A 7 ltac:(lia)) as (s7&E7). rewrite E7. cbn [bind].
  assert (EL : exists lo, (if has_loss sc then arg argv 8 else Ok []) = Ok lo).
  { unfold k in HK. destruct (has_loss sc) eqn:EH; [|eauto]. apply A. unfold k. lia. }
  destruct EL as (lo&EL). rewrite EL. cbn [bind]. rewrite str_eqb_refl.
  exists (fun x => {| q_data := s1; q_trees := trees; q_tuning := s3; q_cin := s4; q_s := lit "eb"; q_d := s6; q_inner := s7; q_loss := lo; q_eb := Some x |}).
  split; [reflexivity|]. unfold eb_args.
  destruct (arg argv k); cbn [bind]; auto. destruct (arg argv (k + 1)); cbn [bind]; auto. destruct (arg argv (k + 2)) as [m|]; cbn [bind]; auto.
  destruct (int_of m); cbn [bind]; auto. destruct (arg argv (k + 3)) as [t|]; cbn [bind]; auto. destruct (float_of t); cbn [bind]; auto.
Qed.

Lemma p_number_steps : forall sc argv n trees m, nth_error argv 2 = Some n -> int_of n = Some trees -> nth_error argv 5 = Some (lit "eb") ->
  nth_error argv ((if has_loss sc then 9 else 8) + 2) = Some m -> int_of m = None -> run sc argv = Err ValueError.
Proof.
  intros sc argv n trees m H2 HI H5 HM HN. apply run_read_err.
  assert (L : (if has_loss sc then 9 else 8) + 2 < length argv) by (apply nth_error_Some; congruence).
  destruct (read_eb sc argv n trees H2 HI H5 ltac:(lia)) as (q0&_&->). unfold eb_args.
  set (k := if has_loss sc then 9 else 8) in *. 
  assert (A : forall i, i < length argv -> exists s, arg argv i = Ok s).
  { intros i Hi. unfold arg. destruct (nth_error argv i) eqn:E; eauto. apply nth_error_None in E. lia. }
  destruct (A k ltac:(lia)) as (s&->). destruct (A (k + 1) ltac:(lia)) as (s'&->). cbn [bind]. unfold arg at 1. rewrite HM. cbn [bind]. rewrite HN. reflexivity.
Qed.
Lemma p_number_size : forall sc argv n trees m mi t, nth_error argv 2 = Some n -> int_of n = Some trees -> nth_error argv 5 = Some (lit "eb") ->
  nth_error argv ((if has_loss sc then 9 else 8) + 2) = Some m -> int_of m = Some mi ->
  nth_error argv ((if has_loss sc then 9 else 8) + 3) = Some t -> float_of t = None -> run sc argv = Err ValueError.
Proof.
  intros sc argv n trees m mi t H2 HI H5 HM HN HT HF. apply run_read_err.
  assert (L : (if has_loss sc then 9 else 8) + 3 < length argv) by (apply nth_error_Some; congruence).
  destruct (read_eb sc argv n trees H2 HI H5 ltac:(lia)) as (q0&_&->). unfold eb_args.
  set (k := if has_loss sc then 9 else 8) in *. 
  assert (A : forall i, i < length argv -> exists s, arg argv i = Ok s).
  { intros i Hi. unfold arg. destruct (nth_error argv i) eqn:E; eauto. apply nth_error_None in E. lia. }
  destruct (A k ltac:(lia)) as (s&->). destruct (A (k + 1) ltac:(lia)) as (s'&->). cbn [bind]. unfold arg at 1. rewrite HM. cbn [bind]. rewrite HN.
  cbn [bind]. unfold arg. rewrite HT. cbn [bind]. rewrite HF. reflexivity.
Qed.

Lemma p_short_eb : forall sc argv, (forall i n, nth_error argv i = Some n -> i = 2 \/ i = (if has_loss sc then 9 else 8) + 2 -> int_of n <> None) ->
  nth_error argv 5 = Some (lit "eb") -> length argv <= (if has_loss sc then 9 else 8) + 3 -> run sc argv = Err IndexError.
Proof.
  intros sc argv HI H5 HL.
  destruct (le_lt_dec (if has_loss sc then 9 else 8) (length argv)) as [LK|LK].
  2:{ apply p_C121_short; [intros n Hn; apply (HI 2); auto|]. destruct (has_loss sc); lia. }
  assert (L2 : 2 < length argv) by (destruct (has_loss sc); lia).
  destruct (nth_error argv 2) as [n|] eqn:E2; [|apply nth_error_None in E2; lia].
  destruct (int_of n) as [trees|] eqn:EI; [|exfalso; apply (HI 2 n); auto].
  apply run_read_err. destruct (read_eb sc argv n trees E2 EI H5 LK) as (q0&_&->). unfold eb_args.
  set (k := if has_loss sc then 9 else 8) in *. unfold arg.
  destruct (nth_error argv k); cbn [bind]; auto. destruct (nth_error argv (k + 1)); cbn [bind]; auto.
  destruct (nth_error argv (k + 2)) as [m|] eqn:EM; cbn [bind]; auto.
  destruct (int_of m) eqn:EMI; [|exfalso; apply (HI (k + 2) m); auto]. cbn [bind].
  destruct (nth_error argv (k + 3)) eqn:ET; cbn [bind]; auto. exfalso. assert (k + 3 < length argv) by (apply nth_error_Some; congruence). lia.
Qed.

(** settings is a NameError or goes through *)
Lemma settings_name : forall sc (q : cmd T) i b mi t, q_eb q = Some (i, b, mi, t) -> (i <> lit "rf" /\ i <> lit "r") \/ (b <> lit "tree" /\ b <> lit "all") ->
  settings sc q = Err NameError.
Proof.
  intros sc q i b mi t E H. unfold settings.
  assert (F : forall s u, s <> u -> str_eqb s u = false) by (intros s u N; unfold str_eqb; destruct (str_eq_dec s u); congruence).
  assert (TY : cmd_type sc (q_data q) = Err NameError \/ exists ty, cmd_type sc (q_data q) = Ok ty).
  { unfold cmd_type. destruct sc; eauto; match goal with |- context [if ?b then _ else _] => destruct b end; eauto. }
  destruct TY as [-> |(ty&->)]; [reflexivity|]. cbn [bind].
  destruct (str_eqb (q_cin q) (lit "c")); [|destruct (str_eqb (q_cin q) (lit "nc")); [|reflexivity]]; cbn [bind];
  (destruct (str_eqb (q_s q) (lit "lb")); [|destruct (str_eqb (q_s q) (lit "eb")); [|reflexivity]]); cbn [bind];
  (destruct (str_eqb (q_d q) (lit "l")); [|destruct (str_eqb (q_d q) (lit "p")); [|reflexivity]]); cbn [bind]; rewrite E; cbn [bind];
  (destruct H as [(N1&N2)|(N1&N2)];
   [rewrite (F _ _ N1), (F _ _ N2); reflexivity
   |rewrite (F _ _ N1), (F _ _ N2); destruct (str_eqb i (lit "rf")); [|destruct (str_eqb i (lit "r"))]; reflexivity]).
Qed.
Lemma p_unknown_eb : forall sc argv q, read_args int_of float_of sc argv = Ok q -> nth_error argv 5 = Some (lit "eb") ->
  let k := if has_loss sc then 9 else 8 in
  (nth_error argv k <> Some (lit "rf") /\ nth_error argv k <> Some (lit "r")) \/
  (nth_error argv (k + 1) <> Some (lit "tree") /\ nth_error argv (k + 1) <> Some (lit "all")) -> run sc argv = Err NameError.
Proof.
  intros sc argv q HQ H5 k H.
  assert (R : exists n trees, nth_error argv 2 = Some n /\ int_of n = Some trees).
  { clear - HQ. unfold read_args, arg in HQ. destruct argv as [|a0 [|a1 [|a2 argv]]]; try discriminate. cbn [nth_error bind] in *.
    destruct (int_of a2) eqn:E; [|discriminate]. eauto. }
  destruct R as (n&trees&H2&HI).
  assert (LK : k <= length argv).
  { destruct (le_lt_dec k (length argv)) as [X|X]; auto. exfalso.
    assert (C : run sc argv = Err IndexError). { apply p_C121_short; [intros n' Hn; congruence|]. unfold k in X. destruct (has_loss sc); lia. }
    clear H. assert (C' : read_args int_of float_of sc argv = Err IndexError); [|congruence].
    unfold k in X. clear - HI H2 H5 X. unfold read_args, arg.
    destruct argv as [|a0 [|a1 [|a2 [|a3 [|a4 [|a5 [|a6 [|a7 [|a8 argv]]]]]]]]]; cbn [nth_error bind length] in *; try discriminate;
      injection H2 as ->; rewrite HI; cbn [bind]; try reflexivity; destruct (has_loss sc); cbn [bind]; try reflexivity; lia. }
  destruct (read_eb sc argv n trees H2 HI H5 LK) as (q0&Q0&ER). rewrite ER in HQ.
  fold k in ER, HQ. destruct (eb_args k argv) as [[[[i b] mi] t]|] eqn:EB; cbn [bind] in HQ; [|discriminate]. injection HQ as HQ. 
  rewrite run_after, ER. cbn [bind]. unfold after. rewrite (settings_name sc (q0 (i, b, mi, t)) i b mi t); [reflexivity|apply Q0|].
  unfold eb_args, arg in EB.
  destruct (nth_error argv k) as [i'|]; cbn [bind] in EB; [|discriminate].
  destruct (nth_error argv (k + 1)) as [b'|]; cbn [bind] in EB; [|discriminate].
  destruct (nth_error argv (k + 2)) as [m|]; cbn [bind] in EB; [|discriminate]. destruct (int_of m); cbn [bind] in EB; [|discriminate].
  destruct (nth_error argv (k + 3)) as [u|]; cbn [bind] in EB; [|discriminate]. destruct (float_of u); cbn [bind] in EB; [|discriminate].
  injection EB as <- <- _ _. destruct H as [(A&B)|(A&B)]; [left|right]; split; congruence.
Qed.

(** the names of one run *)
Lemma p_distinct : forall sc argv files, run sc argv = Ok files -> NoDup (map fst files).
Proof.
  intros sc argv files H. rewrite run_after in H. destruct (read_args int_of float_of sc argv) as [q|] eqn:E; cbn [bind] in H; [|discriminate].
  unfold after in H. destruct (settings sc q) as [w|]; cbn [bind] in H; [|discriminate].
  destruct (cmd_grow _ _ _ _ _ _) as [[Sm C]|]; cbn [bind] in H; [|discriminate].
  destruct (depth_error_vis _ _) as [tab|]; cbn [bind] in H; [|discriminate].
  destruct C as [c|].
  - destruct (cost_vis _ _) as [ctab|]; cbn [bind] in H; [|discriminate]. injection H as <-. cbn [map fst]. unfold file_name.
    repeat constructor; cbn [In]; intros X; repeat (destruct X as [X|X]); try contradiction; cbv [lit] in X; cbn in X; congruence.
  - injection H as <-. cbn [map fst]. unfold file_name.
    repeat constructor; cbn [In]; intros X; repeat (destruct X as [X|X]); try contradiction; cbv [lit] in X; cbn in X; congruence.
Qed.
End Cmd2.
