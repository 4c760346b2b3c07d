(** L_Cmd: command lines and files of the depth scripts (C121). *)
From Coq Require Import Ascii Lia Reals.
From Coq Require Strings.String.
From Verif Require Import Base TreeSpec Spec M_Tree M_Gamma M_Grad M_Sgd M_Smooth M_Analysis M_Main M_Cmd SpecAnalysis SpecMain SpecCmd L_Base L_Sgd L_Analysis L_Main L_Main2 L_Smooth3.
Import Coq.Strings.String.StringSyntax.
Local Open Scope string_scope.
Local Open Scope list_scope.

(** ** reading *)
Section Read.
Context {T : Type} {NT : Num T}.
Variables (int_of : str -> option nat) (float_of : str -> option T).

Definition q_of (g : choice T) : cmd T :=
  {| q_data := dset_str (g_data g); q_trees := g_trees g; q_tuning := tuning_str (g_tuning g); q_cin := if g_con g then lit "c" else lit "nc";
     q_s := match g_element g with None => lit "lb" | Some _ => lit "eb" end; q_d := if g_parents g then lit "p" else lit "l"; q_inner := inner_str (g_inner g);
     q_loss := match g_loss g with Some l => loss_str l | None => [] end;
     q_eb := match g_element g with None => None | Some b => Some (if b_random b then lit "r" else lit "rf", if b_all b then lit "all" else lit "tree", b_steps b, b_t b) end |}.
Lemma read_asks : forall sc argv g, asks int_of float_of sc argv g -> read_args int_of float_of sc argv = Ok (q_of g).
Proof.
  intros sc argv g (_&HL&s0&n&rest&En&->&HE). unfold read_args.
  assert (L : has_loss sc = match g_loss g with Some _ => true | None => false end).
  { unfold class_script in HL. destruct sc, (g_loss g) as [l|]; auto; exfalso;
      [destruct (proj1 HL) as [X|X]; discriminate|apply (proj2 HL); auto|destruct (proj1 HL) as [X|X]; discriminate|apply (proj2 HL); auto]. }
  rewrite L. unfold arg, q_of. destruct (g_loss g) as [l|], (g_element g) as [b|]; cbn [nth_error bind app Nat.add]; rewrite En; cbn [bind].
  - destruct HE as (m&t&rest'&->&Em&Et).
    change (str_eqb (lit "eb") (lit "eb")) with true. cbn [nth_error bind]. rewrite Em. cbn [bind]. rewrite Et. reflexivity.
  - reflexivity.
  - destruct HE as (m&t&rest'&->&Em&Et).
    change (str_eqb (lit "eb") (lit "eb")) with true. cbn [nth_error bind]. rewrite Em. cbn [bind]. rewrite Et. reflexivity.
  - reflexivity.
Qed.

Definition ty_of (sc : script) (d : dset) : rf_type :=
  match sc, d with Adam11, _ | Old11, _ | _, Splice => TClass | _, _ => TReg end.
Lemma type_ok : forall sc d, offers sc d -> cmd_type sc (dset_str d) = Ok (ty_of sc d).
Proof. intros [] []; cbn [offers In]; intros H; try reflexivity; exfalso; intuition discriminate. Qed.
Lemma data_ok : forall sc d, offers sc d -> cmd_data sc (dset_str d) = match d with OnlineNews | Splice | Prgeng | Titantic => SplitData | _ => Generated end.
Proof. intros [] []; cbn [offers In]; intros H; try reflexivity; exfalso; intuition discriminate. Qed.

Definition w_of (sc : script) (g : choice T) : grow_args T :=
  {| w_type := ty_of sc (g_data g); w_depths := cmd_depths; w_draws := 20;
     w_data := match g_data g with OnlineNews | Splice | Prgeng | Titantic => SplitData | _ => Generated end;
     w_tuning := g_tuning g; w_constrained := g_con g; w_style := match g_element g with None => LevelBase | Some _ => ElementBased end;
     w_parents := g_parents g; w_batch := match g_element g with None => OtherBatch | Some b => if b_all b then AllTrees else SingleTree end;
     w_init := match g_element g with None => OtherInit | Some b => if b_random b then RandomInit else RfInit end;
     w_max_iter := match g_element g with None => 0 | Some b => b_steps b end; w_t := match g_element g with None => n0 | Some b => b_t b end;
     w_loss := match g_loss g with Some L2 => L2 | _ => CE end |}.
Lemma settings_asks : forall sc g, offers sc (g_data g) -> settings sc (q_of g) = Ok (w_of sc g).
Proof.
  intros sc g O. unfold settings. cbn [q_of q_data q_trees q_tuning q_cin q_s q_d q_inner q_loss q_eb].
  rewrite type_ok, data_ok by auto. unfold w_of. cbn [bind].
  destruct (g_con g), (g_parents g), (g_tuning g), (g_loss g) as [[]|], (g_element g) as [[[] [] st tt]|]; reflexivity.
Qed.
Lemma stands : forall sc g, offers sc (g_data g) -> stands_for sc g (w_of sc g).
Proof.
  intros sc g O. unfold stands_for, w_of, is_class, class_script. cbn [w_type w_depths w_draws w_data w_tuning w_constrained w_parents w_style w_init w_batch w_max_iter w_t].
  split; [|split]; [destruct sc, (g_data g); cbn [ty_of]; split; intros H; auto; try discriminate; destruct H as [[H|H]|H]; discriminate| |].
  { destruct sc, (g_data g); cbn [ty_of]; split; intros H; auto; try discriminate; try (exfalso; apply H; auto; fail); intros [[K|K]|K]; discriminate. }
  split; [reflexivity|]. do 5 (split; [reflexivity|]). destruct (g_element g); auto 10.
Qed.

(** ** places without influence *)
Definition same {A B} (Q : A -> B -> Prop) (x : result A) (y : result B) : Prop :=
  match x, y with Ok a, Ok b => Q a b | Err e, Err f => e = f | _, _ => False end.
Lemma same_bind : forall {A B A' B'} (P : A -> A' -> Prop) (Q : B -> B' -> Prop) x y f g, same P x y -> (forall a b, P a b -> same Q (f a) (g b)) -> same Q (bind x f) (bind y g).
Proof. intros A B A' B' P Q [a|e] [b|e'] f g H K; cbn in *; auto; try contradiction. Qed.
Lemma same_refl : forall {A} (x : result A), same eq x x.
Proof. intros A []; cbn; auto. Qed.
Lemma same_but_arg : forall k a b i, same_but k a b -> i <> k -> arg a i = arg b i.
Proof. intros k a b i (_&H) N. unfold arg. rewrite (H i N). reflexivity. Qed.
Lemma same_but_at : forall k a b, same_but k a b -> same (fun _ _ => True) (arg a k) (arg b k).
Proof.
  intros k a b (L&_). unfold arg. destruct (nth_error a k) eqn:E, (nth_error b k) eqn:F; cbn; auto.
  - assert (k < length a) by (apply nth_error_Some; congruence). apply nth_error_None in F. lia.
  - assert (k < length b) by (apply nth_error_Some; congruence). apply nth_error_None in E. lia.
Qed.

Definition set_inner (q : cmd T) (s : str) : cmd T :=
  {| q_data := q_data q; q_trees := q_trees q; q_tuning := q_tuning q; q_cin := q_cin q; q_s := q_s q; q_d := q_d q; q_inner := s; q_loss := q_loss q; q_eb := q_eb q |}.
Definition set_loss (q : cmd T) (s : str) : cmd T :=
  {| q_data := q_data q; q_trees := q_trees q; q_tuning := q_tuning q; q_cin := q_cin q; q_s := q_s q; q_d := q_d q; q_inner := q_inner q; q_loss := s; q_eb := q_eb q |}.
Definition set_tuning (q : cmd T) (s : str) : cmd T :=
  {| q_data := q_data q; q_trees := q_trees q; q_tuning := s; q_cin := q_cin q; q_s := q_s q; q_d := q_d q; q_inner := q_inner q; q_loss := q_loss q; q_eb := q_eb q |}.

Ltac step := apply (same_bind eq); [apply same_refl|intros ? ? <-].
Lemma read_inner : forall sc a b, same_but 7 a b -> same (fun q q' => q' = set_inner q (q_inner q')) (read_args int_of float_of sc a) (read_args int_of float_of sc b).
Proof.
  intros sc a b H. unfold read_args.
  rewrite !(same_but_arg 7 a b _ H) by (destruct (has_loss sc); cbn; lia).
  step. step. step. step. step. step. step.
  apply (same_bind (fun _ _ => True)); [apply same_but_at; auto|intros i i' _].
  rewrite (same_but_arg 7 a b 8 H) by lia. step.
  rewrite (same_but_arg 7 a b (if has_loss sc then 9 else 8) H), (same_but_arg 7 a b ((if has_loss sc then 9 else 8) + 1) H),
    (same_but_arg 7 a b ((if has_loss sc then 9 else 8) + 2) H), (same_but_arg 7 a b ((if has_loss sc then 9 else 8) + 3) H) by (destruct (has_loss sc); cbn; lia).
  step. reflexivity.
Qed.
Lemma read_loss : forall sc a b, has_loss sc = true -> same_but 8 a b -> same (fun q q' => q' = set_loss q (q_loss q')) (read_args int_of float_of sc a) (read_args int_of float_of sc b).
Proof.
  intros sc a b HL H. unfold read_args. rewrite HL.
  rewrite (same_but_arg 8 a b 1 H), (same_but_arg 8 a b 2 H), (same_but_arg 8 a b 3 H), (same_but_arg 8 a b 4 H), (same_but_arg 8 a b 5 H), (same_but_arg 8 a b 6 H), (same_but_arg 8 a b 7 H),
    (same_but_arg 8 a b 9 H), (same_but_arg 8 a b (9 + 1) H), (same_but_arg 8 a b (9 + 2) H), (same_but_arg 8 a b (9 + 3) H) by lia.
  step. step. step. step. step. step. step. step.
  apply (same_bind (fun _ _ => True)); [apply same_but_at; auto|intros i i' _]. step. reflexivity.
Qed.
Lemma read_tuning : forall sc a b, same_but 3 a b -> same (fun q q' => q' = set_tuning q (q_tuning q') /\ arg a 3 = Ok (q_tuning q) /\ arg b 3 = Ok (q_tuning q')) (read_args int_of float_of sc a) (read_args int_of float_of sc b).
Proof.
  intros sc a b H. unfold read_args.
  rewrite (same_but_arg 3 a b 1 H), (same_but_arg 3 a b 2 H), (same_but_arg 3 a b 4 H), (same_but_arg 3 a b 5 H), (same_but_arg 3 a b 6 H), (same_but_arg 3 a b 7 H), (same_but_arg 3 a b 8 H),
   (same_but_arg 3 a b (if has_loss sc then 9 else 8) H), (same_but_arg 3 a b ((if has_loss sc then 9 else 8) + 1) H),
    (same_but_arg 3 a b ((if has_loss sc then 9 else 8) + 2) H), (same_but_arg 3 a b ((if has_loss sc then 9 else 8) + 3) H) by (destruct (has_loss sc); cbn; lia).
  step. step. step.
  pose proof (same_but_at 3 a b H) as A3. destruct (arg a 3) as [i|e], (arg b 3) as [i'|e']; cbn [same bind] in *; auto; try contradiction.
  step. step. step. step. step. step. cbn [same q_tuning]. auto.
Qed.
End Read.

(** ** files *)
Ltac step := apply (same_bind eq); [apply same_refl|intros ? ? <-].
Section Run.
Context {T : Type} {NT : Num T}.
Variables (int_of : str -> option nat) (float_of : str -> option T) (fs : T -> str) (lg : T -> T).
Variable score : kind -> list (tree T) -> mat T * list T -> T.
Variable level : mat T * list T -> option (mat T * list T) -> bool -> bool -> bool -> list (tree T) -> result (list (tree T)).
Variable cells : str -> nat -> nat -> nat -> cell T.
Notation run := (run_script int_of float_of fs lg score level cells).

(** what follows the reading *)
Definition after (sc : script) (q : cmd T) : result (list (str * file T)) :=
  do w <- settings sc q;
  do '(Sm, C) <- cmd_grow lg score level sc w (cells (q_data q) (q_trees q));
  do tab <- depth_error_vis Sm (Some cmd_depths);
  let name stem ext := file_name fs sc q (lit stem) (lit ext) in
  match C with
  | None => Ok [(name "data_vis_depth_" ".csv", ErrTable tab); (name "depth_vis_" ".pdf", ErrPlot tab)]
  | Some c =>
      do ctab <- cost_vis c (Some cmd_depths);
      Ok [(name "data_vis_depth_" ".csv", ErrTable tab); (name "depth_vis_" ".pdf", ErrPlot tab);
          (name "data_vis_cost_" ".csv", CostTable ctab); (name "cost_vis_" ".pdf", CostPlot ctab)]
  end.
Lemma run_after : forall sc argv, run sc argv = bind (read_args int_of float_of sc argv) (after sc).
Proof. reflexivity. Qed.
Lemma same_contents_eq : forall (x y : result (list (str * file T))), same_contents x y <-> same (fun l m => map snd l = map snd m) x y.
Proof. reflexivity. Qed.

Lemma after_same : forall sc q q', q_data q' = q_data q -> q_trees q' = q_trees q ->
  same (fun w w' => forall c, cmd_grow lg score level sc w c = cmd_grow lg score level sc w' c) (settings sc q) (settings sc q') ->
  same (fun l m => map snd l = map snd m) (after sc q) (after sc q').
Proof.
  intros sc q q' E1 E2 HS. unfold after. apply (same_bind _ _ _ _ _ _ HS). intros w w' K. rewrite E1, E2, K.
  apply (same_bind eq); [apply same_refl|intros [Sm C] ? <-]. apply (same_bind eq); [apply same_refl|intros tab ? <-].
  destruct C as [c|]; [|reflexivity]. apply (same_bind eq); [apply same_refl|intros ctab ? <-]. reflexivity.
Qed.

Lemma p_C121_inner : forall sc a b, same_but 7 a b -> same_contents (run sc a) (run sc b).
Proof.
  intros sc a b H. apply same_contents_eq. rewrite !run_after. apply (same_bind _ _ _ _ _ _ (read_inner int_of float_of sc a b H)).
  intros q q' ->. apply after_same; auto. change (settings sc (set_inner q (q_inner q'))) with (settings sc q).
  destruct (settings sc q); cbn; auto.
Qed.
Lemma p_C121_loss : forall sc a b, class_script sc -> same_but 8 a b -> same_contents (run sc a) (run sc b).
Proof.
  intros sc a b HC H. apply same_contents_eq. rewrite !run_after.
  assert (HL : has_loss sc = true) by (destruct HC as [-> | ->]; reflexivity).
  apply (same_bind _ _ _ _ _ _ (read_loss int_of float_of sc a b HL H)).
  intros q q' ->. apply after_same; auto. unfold settings. cbn [set_loss q_data q_trees q_tuning q_cin q_s q_d q_inner q_loss q_eb].
  step. step. step. step. apply (same_bind eq); [apply same_refl|intros [[[ini bat] mi] t] ? <-]. cbn [same]. intros c. reflexivity.
Qed.
Lemma p_C121_tuning : forall sc a b, same_but 3 a b -> (forall s, arg a 3 = Ok s -> s <> lit "resample" /\ s <> lit "oracle") ->
  (forall s, arg b 3 = Ok s -> s <> lit "resample" /\ s <> lit "oracle") -> same_contents (run sc a) (run sc b).
Proof.
  intros sc a b H Ha Hb. apply same_contents_eq. rewrite !run_after. apply (same_bind _ _ _ _ _ _ (read_tuning int_of float_of sc a b H)).
  intros q q' (->&A3&B3). apply after_same; auto. destruct (Ha _ A3) as (N1&N2). destruct (Hb _ B3) as (N1'&N2'). cbn [set_tuning q_tuning] in N1', N2'.
  assert (F : forall s u, s <> u -> str_eqb s u = false) by (intros s u N; unfold str_eqb; destruct (str_eq_dec s u); congruence).
  unfold settings. cbn [set_tuning q_data q_trees q_tuning q_cin q_s q_d q_inner q_loss q_eb].
  rewrite (F _ _ N1), (F _ _ N2), (F _ _ N1'), (F _ _ N2').
  step. step. step. step. apply (same_bind eq); [apply same_refl|intros [[[ini bat] mi] t] ? <-]. cbn [same]. auto.
Qed.

(** ** errors *)
Lemma read_s : forall sc argv q, read_args int_of float_of sc argv = Ok q -> arg argv 5 = Ok (q_s q) /\ arg argv 4 = Ok (q_cin q) /\ arg argv 6 = Ok (q_d q) /\ arg argv 1 = Ok (q_data q).
Proof.
  intros sc argv q H. unfold read_args in H.
  repeat (apply bind_ok in H; destruct H as (?&?&H)). injection H as <-. cbn [q_s q_cin q_d q_data]. auto.
Qed.
Lemma str_eqb_refl : forall s, str_eqb s s = true.
Proof. intros s. unfold str_eqb. destruct (str_eq_dec s s); congruence. Qed.
Lemma str_eqb_true : forall s u, str_eqb s u = true -> s = u.
Proof. intros s u. unfold str_eqb. destruct (str_eq_dec s u); congruence. Qed.

Lemma settings_style : forall sc q (w : grow_args T), settings sc q = Ok w ->
  (q_s q = lit "lb" /\ w_style w = LevelBase \/ q_s q = lit "eb" /\ w_style w = ElementBased) /\ (q_cin q = lit "c" \/ q_cin q = lit "nc") /\ (q_d q = lit "l" \/ q_d q = lit "p").
Proof.
  intros sc q w H. unfold settings in H.
  repeat (apply bind_ok in H; destruct H as (?&?&H)). destruct x3 as [[[ini bat] mi] t]. injection H as <-. cbn [w_style].
  split; [|split].
  - destruct (str_eqb (q_s q) (lit "lb")) eqn:E; [left; split; [apply str_eqb_true; auto|congruence]|].
    destruct (str_eqb (q_s q) (lit "eb")) eqn:F; [right; split; [apply str_eqb_true; auto|congruence]|discriminate].
  - destruct (str_eqb (q_cin q) (lit "c")) eqn:E; [left; apply str_eqb_true; auto|].
    destruct (str_eqb (q_cin q) (lit "nc")) eqn:F; [right; apply str_eqb_true; auto|discriminate].
  - destruct (str_eqb (q_d q) (lit "l")) eqn:E; [left; apply str_eqb_true; auto|].
    destruct (str_eqb (q_d q) (lit "p")) eqn:F; [right; apply str_eqb_true; auto|discriminate].
Qed.

Lemma p_C121_old_eb : forall sc argv, old_script sc -> nth_error argv 5 = Some (lit "eb") -> exists e, run sc argv = Err e.
Proof.
  intros sc argv HO H5. rewrite run_after. destruct (read_args int_of float_of sc argv) as [q|e] eqn:ER; cbn [bind]; [|eauto].
  destruct (read_s _ _ _ ER) as (S5&_). unfold arg in S5. rewrite H5 in S5. assert (EQ : q_s q = lit "eb") by congruence.
  unfold after. destruct (settings sc q) as [w|e] eqn:ES; cbn [bind]; [|eauto].
  destruct (settings_style _ _ _ ES) as ([(A&_)|(_&A)]&_); [rewrite EQ in A; discriminate|].
  unfold cmd_grow. rewrite A. destruct HO as [-> | ->]; (destruct (cell_data _ _); cbn [bind]; eauto).
Qed.
Lemma p_C121_old_type : forall sc argv g, asks int_of float_of sc argv g -> old_script sc -> g_element g <> None -> run sc argv = Err TypeError.
Proof.
  intros sc argv g HA HO HE. rewrite run_after, (read_asks _ _ _ _ _ HA). cbn [bind]. unfold after. rewrite settings_asks by apply HA. cbn [bind].
  unfold cmd_grow. destruct (g_element g) as [b|] eqn:EG; [|congruence].
  replace (w_style (w_of sc g)) with ElementBased by (unfold w_of; cbn [w_style]; rewrite EG; auto).
  assert (D : exists x, cell_data (w_of sc g) (cells (q_data (q_of g)) (q_trees (q_of g)) 0 0) = Ok x).
  { unfold cell_data, w_of. cbn [w_data]. destruct (g_data g); eauto. }
  destruct D as (x&D). destruct HO as [-> | ->]; rewrite D; reflexivity.
Qed.
Lemma p_C121_unknown : forall sc argv, 
  ((forall s, nth_error argv 4 = Some s -> s <> lit "c" /\ s <> lit "nc") \/ (forall s, nth_error argv 5 = Some s -> s <> lit "lb" /\ s <> lit "eb") \/
   (forall s, nth_error argv 6 = Some s -> s <> lit "l" /\ s <> lit "p") \/
   (class_script sc /\ forall d, offers sc d -> nth_error argv 1 <> Some (dset_str d))) ->
  run sc argv = match read_args int_of float_of sc argv with Ok _ => Err NameError | Err e => Err e end.
Proof.
  intros sc argv H. rewrite run_after. destruct (read_args int_of float_of sc argv) as [q|e] eqn:ER; cbn [bind]; auto.
  destruct (read_s _ _ _ ER) as (S5&S4&S6&S1). unfold after.
  assert (F : forall s u, s <> u -> str_eqb s u = false) by (intros s u N; unfold str_eqb; destruct (str_eq_dec s u); congruence).
  assert (G : forall k s, arg argv k = Ok s -> nth_error argv k = Some s) by (intros k s A; unfold arg in A; destruct (nth_error argv k); congruence).
  assert (NE : forall A (x : result A) e, (x = Err e \/ exists a, x = Ok a) -> (forall f, x = Err f -> f = e)) by (intros A x e [->|(a&->)] f K; congruence).
  assert (ES : settings sc q = Err NameError); [|rewrite ES; reflexivity].
  unfold settings.
  assert (TY : cmd_type sc (q_data q) = Err NameError \/ exists ty, cmd_type sc (q_data q) = Ok ty).
  { unfold cmd_type. destruct sc; eauto; match goal with |- context [if ?b then _ else _] => destruct b end; eauto. }
  destruct TY as [-> |(ty&ET)]; [reflexivity|].
  assert (NT' : ~ (class_script sc /\ forall d, offers sc d -> nth_error argv 1 <> Some (dset_str d))).
  { intros (C&N). rewrite (G _ _ S1) in N. unfold cmd_type in ET. destruct C as [-> | ->]; cbn [offers] in N.
    - destruct (str_eqb (q_data q) (lit "moon")) eqn:E1; [apply str_eqb_true in E1; apply (N Moon); [cbn; auto|rewrite E1; reflexivity]|].
      destruct (str_eqb (q_data q) (lit "microsoft")) eqn:E2; [apply str_eqb_true in E2; apply (N Microsoft); [cbn; auto|rewrite E2; reflexivity]|].
      destruct (str_eqb (q_data q) (lit "titantic")) eqn:E3; [apply str_eqb_true in E3; apply (N Titantic); [cbn; auto|rewrite E3; reflexivity]|discriminate].
    - destruct (str_eqb (q_data q) (lit "moon")) eqn:E1; [apply str_eqb_true in E1; apply (N Moon); [cbn; auto|rewrite E1; reflexivity]|discriminate]. }
  rewrite ET. cbn [bind].
  destruct H as [H|[H|[H|H]]]; [| | |contradiction].
  - destruct (H _ (G _ _ S4)) as (N1&N2). rewrite (F _ _ N1), (F _ _ N2). reflexivity.
  - destruct (H _ (G _ _ S5)) as (N1&N2). rewrite (F _ _ N1), (F _ _ N2).
    destruct (str_eqb (q_cin q) (lit "c")); [|destruct (str_eqb (q_cin q) (lit "nc"))]; reflexivity.
  - destruct (H _ (G _ _ S6)) as (N1&N2). rewrite (F _ _ N1), (F _ _ N2).
    destruct (str_eqb (q_cin q) (lit "c")); [|destruct (str_eqb (q_cin q) (lit "nc"))]; try reflexivity;
    (destruct (str_eqb (q_s q) (lit "lb")); [|destruct (str_eqb (q_s q) (lit "eb"))]); reflexivity.
Qed.

Lemma p_C121_short : forall sc argv, (forall n, nth_error argv 2 = Some n -> int_of n <> None) -> length argv <= (if has_loss sc then 8 else 7) ->
  run sc argv = Err IndexError.
Proof.
  intros sc argv HI HL. rewrite run_after.
  assert (E : read_args int_of float_of sc argv = Err IndexError); [|rewrite E; reflexivity].
  unfold read_args, arg.
  destruct argv as [|a0 [|a1 [|a2 [|a3 [|a4 [|a5 [|a6 [|a7 [|a8 argv]]]]]]]]]; cbn [nth_error bind length] in *; try reflexivity;
    (destruct (int_of a2) eqn:EI; [|exfalso; apply (HI a2); auto]); cbn [bind]; try reflexivity;
    destruct (has_loss sc); cbn [bind]; try reflexivity; lia.
Qed.

(** ** two scripts, one request *)
Lemma p_C121_same_run : forall sc sc' argv argv' g, asks int_of float_of sc argv g -> asks int_of float_of sc' argv' g ->
  ~ class_script sc -> ~ class_script sc' -> g_element g = None -> run sc argv = run sc' argv'.
Proof.
  intros sc sc' argv argv' g HA HA' NC NC' HE. rewrite !run_after, (read_asks _ _ _ _ _ HA), (read_asks _ _ _ _ _ HA'). cbn [bind]. unfold after.
  rewrite !settings_asks by (apply HA || apply HA'). cbn [bind].
  assert (EW : w_of sc g = w_of sc' g).
  { unfold w_of. f_equal. destruct sc, sc'; auto; exfalso; first [apply NC; left; reflexivity|apply NC; right; reflexivity|apply NC'; left; reflexivity|apply NC'; right; reflexivity]. }
  rewrite EW.
  assert (EC : forall c, cmd_grow lg score level sc (w_of sc' g) c = cmd_grow lg score level sc' (w_of sc' g) c).
  { intros c. assert (WS : w_style (w_of sc' g) = LevelBase) by (unfold w_of; cbn [w_style]; rewrite HE; auto).
    unfold cmd_grow. rewrite WS. destruct sc, sc'; reflexivity. }
  rewrite EC.
  assert (EN : forall a b, file_name fs sc (q_of g) a b = file_name fs sc' (q_of g) a b).
  { intros a b. unfold file_name. cbn [q_of q_data q_trees q_tuning q_cin q_s q_d q_inner q_loss q_eb]. rewrite HE.
    destruct sc, sc'; auto; exfalso; first [apply NC; left; reflexivity|apply NC; right; reflexivity|apply NC'; left; reflexivity|apply NC'; right; reflexivity]. }
  rewrite !EN. reflexivity.
Qed.

(** ** the files of a request *)
Lemma p_C121_outcome : forall sc argv g, asks int_of float_of sc argv g ->
  exists w, stands_for sc g w /\
  (old_script sc /\ g_element g <> None -> run sc argv = Err TypeError) /\
  (~ (old_script sc /\ g_element g <> None) ->
   run sc argv = bind (check_rf_grow lg score level w (cells (dset_str (g_data g)) (g_trees g))) (fun '(Sm, C) =>
     do tab <- depth_error_vis Sm (Some cmd_depths);
     let name stem ext := file_name fs sc (q_of g) (lit stem) (lit ext) in
     match C with
     | None => Ok [(name "data_vis_depth_" ".csv", ErrTable tab); (name "depth_vis_" ".pdf", ErrPlot tab)]
     | Some c =>
         do ctab <- cost_vis c (Some cmd_depths);
         Ok [(name "data_vis_depth_" ".csv", ErrTable tab); (name "depth_vis_" ".pdf", ErrPlot tab);
             (name "data_vis_cost_" ".csv", CostTable ctab); (name "cost_vis_" ".pdf", CostPlot ctab)]
     end)).
Proof.
  intros sc argv g HA. exists (w_of sc g). split; [apply stands; apply HA|]. split.
  { intros (HO&HE). eapply p_C121_old_type; eauto. }
  intros NO. rewrite run_after, (read_asks _ _ _ _ _ HA). cbn [bind]. unfold after. rewrite settings_asks by apply HA. cbn [bind].
  assert (EC : cmd_grow lg score level sc (w_of sc g) (cells (q_data (q_of g)) (q_trees (q_of g))) = check_rf_grow lg score level (w_of sc g) (cells (dset_str (g_data g)) (g_trees g))).
  { assert (WS : w_style (w_of sc g) = match g_element g with None => LevelBase | Some _ => ElementBased end) by reflexivity.
    unfold cmd_grow. rewrite WS. destruct (g_element g) eqn:EG; destruct sc; auto; exfalso; apply NO; unfold old_script; (split; [auto|congruence]). }
  rewrite EC. reflexivity.
Qed.

(** ** names *)
Fixpoint clash (p p' : str) : bool :=
  match p, p' with a :: p1, b :: p1' => if ascii_dec a b then clash p1 p1' else true | _, _ => false end.
Lemma clash_no : forall p p' x y, clash p p' = true -> p ++ x = p' ++ y -> False.
Proof.
  induction p as [|a p IH]; intros [|b p'] x y C E; cbn [clash] in C; try discriminate. cbn [app] in E. injection E as E1 E2.
  destruct (ascii_dec a b); [eapply IH; eauto|contradiction].
Qed.
Lemma tag_cut : forall {A} (f : A -> str), (forall a a', a = a' \/ clash (f a) (f a') = true) ->
  forall a a' x y, f a ++ x = f a' ++ y -> a = a' /\ x = y.
Proof.
  intros A f H a a' x y E. destruct (H a a') as [-> |C]; [|exfalso; eapply clash_no; eauto]. split; auto. eapply app_inv_head; eauto.
Qed.
Lemma digit_cut : forall a b c d x y, (forall u, In u a -> is_digit u) -> (forall u, In u b -> is_digit u) -> ~ is_digit c -> ~ is_digit d ->
  a ++ c :: x = b ++ d :: y -> a = b /\ c :: x = d :: y.
Proof.
  induction a as [|u a IH]; intros [|v b] c d x y A B C D E; cbn [app] in E.
  - auto.
  - exfalso. apply C. injection E as -> _. apply B. left. auto.
  - exfalso. apply D. injection E as <- _. apply A. left. auto.
  - injection E as -> E. destruct (IH b c d x y) as [H1 H2]; auto; [intros; apply A; right; auto|intros; apply B; right; auto|]. split; congruence.
Qed.
Lemma nat_cut : forall m n c d x y, ~ is_digit c -> ~ is_digit d -> str_nat m ++ c :: x = str_nat n ++ d :: y -> m = n /\ c :: x = d :: y.
Proof. intros m n c d x y C D E. apply digit_cut in E; try assumption; try (intros u Hu; eapply digits_nat; exact Hu). destruct E as [E F]. split; auto. apply str_nat_inj; auto. Qed.

(** the four files of a run: beginning and end of the name *)
Inductive fk := K0 | K1 | K2 | K3.
Definition fk_stem (k : fk) : str := match k with K0 => lit "data_vis_depth_" | K1 => lit "depth_vis_" | K2 => lit "data_vis_cost_" | K3 => lit "cost_vis_" end.
Definition fk_ext (k : fk) : str := match k with K0 => lit ".csv" | K1 => lit ".pdf" | K2 => lit ".csv" | K3 => lit ".pdf" end.
Definition adam_tag (a : bool) : str := if a then lit "_adam." else lit ".".
Definition is_adam (sc : script) (g : choice T) : bool :=
  match sc, g_element g with Adam10, Some _ | Adam11, _ => true | _, _ => false end.
Definition fk_tail (k : fk) : str := match k with K0 | K2 => lit "csv" | _ => lit "pdf" end.
Lemma ext_adam : forall sc g k, match sc, q_eb (q_of g) with Adam10, Some _ | Adam11, _ => lit "_adam" | _, _ => [] end ++ fk_ext k = adam_tag (is_adam sc g) ++ fk_tail k.
Proof. intros sc g k. unfold is_adam. cbn [q_of q_eb]. destruct sc, (g_element g), k; reflexivity. Qed.

Definition eb_str (e : option (element T)) : str :=
  match e with
  | None => []
  | Some b => lit "_init_lamb-" ++ (if b_random b then lit "random-init" else lit "rf-init") ++ lit "_fix_t-" ++ fs (b_t b) ++ "_"%char :: (if b_all b then lit "all-trees" else lit "single-tree") ++ lit "_" ++ str_nat (b_steps b)
  end.
Definition name_of (sc : script) (g : choice T) (k : fk) : str :=
  lit "../images/" ++ fk_stem k ++ dset_str (g_data g) ++
  (match g_loss g with Some l => lit "_class_loss-" ++ loss_str l ++ lit "_trees" | None => lit "_trees" end) ++ str_nat (g_trees g) ++ "_"%char ::
  tuning_str (g_tuning g) ++ (if g_con g then lit "_c_" else lit "_nc_") ++
  (match g_element g with None => lit "level-base_distance-" | Some _ => lit "element-based_distance-" end) ++
  (if g_parents g then lit "p" else lit "l") ++ lit "_tree_depth_dist-" ++ inner_str (g_inner g) ++ eb_str (g_element g) ++ adam_tag (is_adam sc g) ++ fk_tail k.
Lemma name_eq : forall sc g k, (g_loss g <> None <-> class_script sc) -> file_name fs sc (q_of g) (fk_stem k) (fk_ext k) = name_of sc g k.
Proof.
  intros sc g k HL. unfold file_name. rewrite ext_adam. unfold name_of. cbn [q_of q_data q_trees q_tuning q_cin q_s q_d q_inner q_loss q_eb].
  assert (L : has_loss sc = match g_loss g with Some _ => true | None => false end).
  { unfold class_script in HL. destruct sc, (g_loss g) as [l|]; auto; exfalso;
      [destruct (proj1 HL) as [X|X]; discriminate|apply (proj2 HL); auto|destruct (proj1 HL) as [X|X]; discriminate|apply (proj2 HL); auto]. }
  rewrite L. do 3 f_equal.
  assert (A1 : forall c u, lit "_" ++ c ++ u = "_"%char :: c ++ u) by reflexivity.
  destruct (g_loss g) as [l|], (g_element g) as [[[] [] st tt]|], (g_con g); cbn [eb_str b_random b_all b_steps b_t]; rewrite <- ?app_assoc; reflexivity.
Qed.

Ltac tags := intros; repeat match goal with x : _ |- _ => first [destruct x as [] | fail] end; first [left; reflexivity|right; reflexivity].
Lemma names_inj : (forall s s' x y, float_of s = Some x -> float_of s' = Some y -> fs x = fs y -> x = y) ->
  (forall s x, float_of s = Some x -> ~ In "_"%char (fs x)) -> forall sc sc' argv argv' g g' k k',
  asks int_of float_of sc argv g -> asks int_of float_of sc' argv' g' -> name_of sc g k = name_of sc' g' k' ->
  g = g' /\ is_adam sc g = is_adam sc' g' /\ k = k'.
Proof.
  intros HI HP sc sc' argv argv' g g' k k' HA HA' E. unfold name_of in E. apply app_inv_head in E.
  apply (tag_cut fk_stem) in E; [|intros [] []; auto]. destruct E as [EK E]. subst k'.
  apply (tag_cut dset_str) in E; [|intros [] []; auto]. destruct E as [ED E].
  apply (tag_cut (fun o : option loss_choice => match o with Some l => lit "_class_loss-" ++ loss_str l ++ lit "_trees" | None => lit "_trees" end)) in E; [|intros [[]|] [[]|]; auto].
  destruct E as [EL E]. apply nat_cut in E; [|digit_no|digit_no]. destruct E as [ET E]. injection E as E.
  apply (tag_cut tuning_str) in E; [|intros [] []; auto]. destruct E as [EU E].
  apply (tag_cut (fun b : bool => if b then lit "_c_" else lit "_nc_")) in E; [|intros [] []; auto]. destruct E as [EC E].
  assert (EE : (g_element g = None <-> g_element g' = None) /\ (if g_parents g then lit "p" else lit "l") ++ lit "_tree_depth_dist-" ++ inner_str (g_inner g) ++ eb_str (g_element g) ++ adam_tag (is_adam sc g) ++ fk_tail k
     = (if g_parents g' then lit "p" else lit "l") ++ lit "_tree_depth_dist-" ++ inner_str (g_inner g') ++ eb_str (g_element g') ++ adam_tag (is_adam sc' g') ++ fk_tail k).
  { destruct (g_element g), (g_element g'); try (exfalso; revert E; apply clash_no; reflexivity); apply app_inv_head in E; (split; [split; congruence|exact E]). }
  clear E. destruct EE as [EO E].
  apply (tag_cut (fun b : bool => if b then lit "p" else lit "l")) in E; [|intros [] []; auto]. destruct E as [EP E]. apply app_inv_head in E.
  apply (tag_cut inner_str) in E; [|intros [] []; auto]. destruct E as [EI E].
  destruct HA as (_&_&s0&n&rest&_&_&HE). destruct HA' as (_&_&s0'&n'&rest'&_&_&HE').
  assert (EG : g_element g = g_element g' /\ adam_tag (is_adam sc g) ++ fk_tail k = adam_tag (is_adam sc' g') ++ fk_tail k).
  { destruct (g_element g) as [b|] eqn:G1, (g_element g') as [b'|] eqn:G2; [|exfalso; destruct EO as [_ EO]; discriminate (EO eq_refl)|exfalso; destruct EO as [EO _]; discriminate (EO eq_refl)|auto].
    destruct HE as (m&t&r&_&_&Ft). destruct HE' as (m'&t'&r'&_&_&Ft'). cbn [eb_str] in E. rewrite <- !app_assoc in E. apply app_inv_head in E.
    apply (tag_cut (fun b : bool => if b then lit "random-init" else lit "rf-init")) in E; [|intros [] []; auto]. destruct E as [E1 E].
    apply app_inv_head in E. rewrite <- ?app_assoc in E. cbn [app] in E. apply cut in E; [|eapply HP; eauto|eapply HP; eauto]. destruct E as [E2 E].
    rewrite <- ?app_assoc in E.
    apply (tag_cut (fun b : bool => if b then lit "all-trees" else lit "single-tree")) in E; [|intros [] []; auto]. destruct E as [E3 E].
    apply app_inv_head in E.
    assert (TG : forall a, exists c r, adam_tag a = c :: r /\ ~ is_digit c) by (intros []; eexists; eexists; (split; [reflexivity|digit_no])).
    destruct (TG (is_adam sc g)) as (c&u&TE&TN). destruct (TG (is_adam sc' g')) as (c'&u'&TE'&TN'). rewrite TE, TE' in *. cbn [app] in E.
    apply nat_cut in E; auto. destruct E as [E4 E]. split; [|exact E].
    assert (ET2 : b_t b = b_t b') by (eapply HI; eauto). destruct b, b'. cbn in *. congruence. }
  destruct EG as [EG E']. apply (tag_cut adam_tag) in E'; [|intros [] []; auto]. destruct E' as [EA _].
  split; [|auto]. destruct g, g'. cbn in *. congruence.
Qed.

Lemma run_names : forall sc argv g files, asks int_of float_of sc argv g -> run sc argv = Ok files ->
  (forall nm, In nm (map fst files) -> exists k, nm = name_of sc g k) /\ ~ (old_script sc /\ g_element g <> None).
Proof.
  intros sc argv g files HA H. destruct (p_C121_outcome _ _ _ HA) as (w&_&HO&HN).
  assert (NO : ~ (old_script sc /\ g_element g <> None)) by (intros X; rewrite (HO X) in H; discriminate). split; auto.
  rewrite (HN NO) in H. apply bind_ok in H. destruct H as ([Sm C]&_&H). apply bind_ok in H. destruct H as (tab&_&H). cbv zeta in H.
  change (lit "data_vis_depth_") with (fk_stem K0) in H. change (lit "depth_vis_") with (fk_stem K1) in H.
  change (lit "data_vis_cost_") with (fk_stem K2) in H. change (lit "cost_vis_") with (fk_stem K3) in H.
  assert (NQ : forall k, file_name fs sc (q_of g) (fk_stem k) (fk_ext k) = name_of sc g k) by (intros k; apply name_eq; apply HA).
  destruct C as [c|].
  - apply bind_ok in H. destruct H as (ctab&_&H). injection H as <-. intros nm HIn. cbn [map fst In] in HIn.
    destruct HIn as [<-|[<-|[<-|[<-|[]]]]]; [exists K0; exact (NQ K0)|exists K1; exact (NQ K1)|exists K2; exact (NQ K2)|exists K3; exact (NQ K3)].
  - injection H as <-. intros nm HIn. cbn [map fst In] in HIn. destruct HIn as [<-|[<-|[]]]; [exists K0; exact (NQ K0)|exists K1; exact (NQ K1)].
Qed.
Lemma p_C121_names : (forall s s' x y, float_of s = Some x -> float_of s' = Some y -> fs x = fs y -> x = y) ->
  (forall s x, float_of s = Some x -> ~ In "_"%char (fs x)) -> forall sc sc' argv argv' g g' files files' nm,
  asks int_of float_of sc argv g -> asks int_of float_of sc' argv' g' -> run sc argv = Ok files -> run sc' argv' = Ok files' ->
  In nm (map fst files) -> In nm (map fst files') ->
  g = g' /\ (sc = sc' \/ g_element g = None /\ ~ class_script sc /\ ~ class_script sc') /\ files = files'.
Proof.
  intros HI HP sc sc' argv argv' g g' files files' nm HA HA' HR HR' I1 I2.
  destruct (run_names _ _ _ _ HA HR) as (K1'&NO). destruct (run_names _ _ _ _ HA' HR') as (K2'&NO').
  destruct (K1' _ I1) as (k&->). destruct (K2' _ I2) as (k'&E).
  destruct (names_inj HI HP _ _ _ _ _ _ _ _ HA HA' E) as (<-&EA&_).
  assert (HS : sc = sc' \/ g_element g = None /\ ~ class_script sc /\ ~ class_script sc').
  { assert (CC : class_script sc <-> class_script sc') by (destruct HA as (_&HL&_); destruct HA' as (_&HL'&_); tauto).
    destruct CC as [C1 C2]. unfold is_adam in EA. unfold class_script in *.
    destruct sc, sc'; auto;
      try (exfalso; first [destruct (C1 (or_introl eq_refl)) as [X|X]; discriminate X|destruct (C1 (or_intror eq_refl)) as [X|X]; discriminate X
                          |destruct (C2 (or_introl eq_refl)) as [X|X]; discriminate X|destruct (C2 (or_intror eq_refl)) as [X|X]; discriminate X]);
      destruct (g_element g); try discriminate EA; right; (split; [reflexivity|split; intros [X|X]; discriminate X]). }
  split; auto. split; auto. destruct HS as [<-|(EN&N1&N2)].
  - destruct (p_C121_outcome _ _ _ HA) as (w&_&_&HN). clear HN.
    rewrite run_after, (read_asks _ _ _ _ _ HA) in HR. rewrite run_after, (read_asks _ _ _ _ _ HA') in HR'. congruence.
  - rewrite (p_C121_same_run _ _ _ _ _ HA HA' N1 N2 EN) in HR. congruence.
Qed.
End Run.

(** ** over the reals *)
Section Real.
Local Open Scope R_scope.
Variables (int_of : str -> option nat) (float_of : str -> option R) (fs : R -> str) (lg : R -> R).
Variable score : kind -> list (tree R) -> mat R * list R -> R.
Variable level : mat R * list R -> option (mat R * list R) -> bool -> bool -> bool -> list (tree R) -> result (list (tree R)).
Variable cells : str -> nat -> nat -> nat -> cell R.
Notation run := (run_script int_of float_of fs lg score level cells).

Lemma p_C121_contents : forall sc argv g, asks int_of float_of sc argv g -> ~ (old_script sc /\ g_element g <> None) ->
  exists w, stands_for sc g w /\
  match check_rf_grow lg score level w (cells (dset_str (g_data g)) (g_trees g)) with
  | Err e => run sc argv = Err e
  | Ok (Sm, C) => exists tab files, depth_error_vis Sm (Some (w_depths w)) = Ok tab /\ run sc argv = Ok files /\
      match g_element g with
      | None => map snd files = [ErrTable tab; ErrPlot tab]
      | Some _ => exists c ctab, C = Some c /\ cost_vis c (Some (w_depths w)) = Ok ctab /\ map snd files = [ErrTable tab; ErrPlot tab; CostTable ctab; CostPlot ctab]
      end
  end.
Proof.
  intros sc argv g HA NO. destruct (p_C121_outcome int_of float_of fs lg score level cells _ _ _ HA) as (w&HS&_&HR). exists w. split; auto.
  rewrite (HR NO). destruct HS as (_&_&HD&HJ&_&_&_&_&HE). change cmd_depths with [2;4;6;8;10;12;14;16;18;20;22;24;26;28;30;32;34;36;38;40;42;44;46;48]%nat in *. rewrite <- HD. clear HR.
  destruct (check_rf_grow lg score level w _) as [[Sm C]|e] eqn:EC; [|reflexivity]. cbn [bind].
  destruct (g_element g) as [b|].
  - destruct HE as (ES&_). destruct (p_C97 _ _ _ _ _ _ _ EC ES) as (_&D1&_&Cm&->&D0&_).
    destruct (p_C94 Sm (Some (w_depths w))) as (tab&E1&_); [auto|]. rewrite E1. cbn [bind].
    destruct (p_C95_range Cm (w_depths w)) as (ctab&E2&_); [rewrite D0; auto|]. rewrite E2. cbn [bind].
    eexists. eexists. split; [reflexivity|]. split; [reflexivity|]. exists Cm, ctab. auto.
  - destruct (p_C97_level _ _ _ _ _ _ _ EC HE) as (->&_&D1&_).
    destruct (p_C94 Sm (Some (w_depths w))) as (tab&E1&_); [auto|]. rewrite E1. cbn [bind]. eexists. eexists. split; [reflexivity|]. split; reflexivity.
Qed.

Lemma p_C121_class : forall sc argv g b, asks int_of float_of sc argv g -> is_class sc (g_data g) -> g_element g = Some b -> (0 < b_steps b)%nat ->
  exists e, run sc argv = Err e.
Proof.
  intros sc argv g b HA HC HE HB. destruct (p_C121_outcome int_of float_of fs lg score level cells _ _ _ HA) as (w&HS&HO&HR).
  assert (DEC : old_script sc \/ ~ old_script sc) by (unfold old_script; destruct sc; auto; right; intros [X|X]; discriminate).
  destruct DEC as [D|D]; [exists TypeError; apply HO; split; [auto|congruence]|].
  rewrite HR by tauto. destruct HS as (HT&_&HD&HJ&_&_&_&_&HX). rewrite HE in HX. destruct HX as (ES&_&_&EM&_).
  destruct (check_rf_grow lg score level w _) as [[Sm C]|e] eqn:EC; [|cbn [bind]; eauto]. exfalso.
  destruct (p_C97 _ _ _ _ _ _ _ EC ES) as (_&_&_&Cm&_&_&_&_&H).
  destruct (H 0%nat 0%nat 2%nat) as (train&tune&test&o&rd&out&_&PC&HSm&_); [rewrite HD; reflexivity|rewrite HJ; lia|].
  unfold pass_call in PC. destruct PC as (_&_&_&_&_&_&_&_&_&_&SA&_&CL&_&RD&_).
  unfold grow_kind in HSm. rewrite (proj2 HT HC) in HSm. cbv beta iota zeta in HSm.
  match type of HSm with smooth _ (Forest (Class ?n) ?l) _ _ = _ => destruct (p_C22 lg n l o rd CL SA) as (e&Er) end.
  { intros Z. rewrite Z in RD. cbn in RD. lia. }
  congruence.
Qed.

Lemma p_C121_data : forall sc argv q, ~ class_script sc -> (forall d, offers sc d -> nth_error argv 1 <> Some (dset_str d)) ->
  read_args int_of float_of sc argv = Ok q -> (exists w, settings sc q = Ok w) -> run sc argv = Err UnboundLocalError.
Proof.
  intros sc argv q NC ND HQ (w&HW). rewrite run_after, HQ. cbn [bind]. unfold after. rewrite HW. cbn [bind].
  destruct (read_s _ _ _ _ _ HQ) as (_&_&_&S1).
  assert (G : nth_error argv 1 = Some (q_data q)) by (unfold arg in S1; destruct (nth_error argv 1); congruence). rewrite G in ND.
  assert (OD : w_data w = OtherData /\ w_type w <> TOther /\ w_depths w = cmd_depths /\ w_draws w = 20%nat).
  { unfold settings in HW. repeat (apply bind_ok in HW; destruct HW as (?&?&HW)). destruct x3 as [[[ini bat] mi] t]. injection HW as <-.
    cbn [w_data w_type w_depths w_draws]. split; [|split; [|auto]].
    - unfold cmd_data.
      assert (F : forall d, offers sc d -> str_eqb (q_data q) (dset_str d) = false).
      { intros d O. destruct (str_eqb (q_data q) (dset_str d)) eqn:E; auto. apply str_eqb_true in E. exfalso. apply (ND d O). congruence. }
      destruct sc; try (exfalso; apply NC; unfold class_script; auto; fail); cbn [offers] in F.
      + pose proof (F Microsoft) as F1. pose proof (F Knn) as F2. pose proof (F OnlineNews) as F3. pose proof (F Splice) as F4. pose proof (F Prgeng) as F5.
        cbn [dset_str In] in *. rewrite F1, F2, F3, F4, F5 by auto 8. reflexivity.
      + pose proof (F Microsoft) as F1. pose proof (F Knn) as F2. pose proof (F OnlineNews) as F3. pose proof (F Splice) as F4.
        cbn [dset_str In] in *. rewrite F1, F2, F3, F4 by auto 8. reflexivity.
    - intros Z. match goal with K : cmd_type sc (q_data q) = Ok _ |- _ => unfold cmd_type in K; destruct sc; try (exfalso; apply NC; unfold class_script; auto; fail); destruct (str_eqb (q_data q) (lit "splice")); congruence end. }
  destruct OD as (OD&NT&DD&DJ).
  assert (CG : cmd_grow lg score level sc w (cells (q_data q) (q_trees q)) = Err UnboundLocalError); [|rewrite CG; reflexivity].
  assert (CC : check_rf_grow lg score level w (cells (q_data q) (q_trees q)) = Err UnboundLocalError).
  { destruct (p_C97_unknown lg score level w (cells (q_data q) (q_trees q))) as (_&U&_). apply U; auto; [rewrite DD; discriminate|rewrite DJ; lia]. }
  unfold cmd_grow. destruct sc, (w_style w); auto; unfold cell_data; rewrite OD; reflexivity.
Qed.
End Real.
