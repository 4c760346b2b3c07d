(** L_Base: lemmas about the primitives of Base. *)
From Verif Require Import Base.
From Coq Require Import Reals Lra Permutation.

#[global] Arguments nsum {T NT} l : simpl never.
#[global] Arguments dot {T NT} a b : simpl never.

Lemma upd_length : forall {A} (l : list A) i x, length (upd l i x) = length l.
Proof. induction l; destruct i; simpl; intros; auto. Qed.

Lemma nth_upd_eq : forall {A} (l : list A) i x d, i < length l -> nth i (upd l i x) d = x.
Proof. induction l; destruct i; simpl; intros; auto; try lia. apply IHl. lia. Qed.

Lemma nth_upd_neq : forall {A} (l : list A) i j x d, i <> j -> nth j (upd l i x) d = nth j l d.
Proof.
  induction l; destruct i, j; simpl; intros; auto; try lia.
Qed.

Lemma nth_upd : forall {A} (l : list A) i j x d, i < length l ->
  nth j (upd l i x) d = if Nat.eqb i j then x else nth j l d.
Proof.
  intros. destruct (Nat.eqb_spec i j).
  - subst. apply nth_upd_eq; auto.
  - apply nth_upd_neq; auto.
Qed.

Lemma upd_same : forall {A} (l : list A) i d, upd l i (nth i l d) = l.
Proof. induction l; destruct i; simpl; intros; auto. f_equal. apply IHl. Qed.

Lemma upd_oob : forall {A} (l : list A) i x, length l <= i -> upd l i x = l.
Proof. induction l; destruct i; simpl; intros; auto; try lia. f_equal; apply IHl; lia. Qed.

Lemma upd_upd : forall {A} (l : list A) i x y, upd (upd l i x) i y = upd l i y.
Proof. induction l; destruct i; simpl; intros; auto. f_equal; auto. Qed.

Lemma upd_comm : forall {A} (l : list A) i j x y, i <> j ->
  upd (upd l i x) j y = upd (upd l j y) i x.
Proof. induction l; destruct i, j; simpl; intros; auto; try lia. f_equal; auto. Qed.

Lemma map_upd : forall {A B} (f : A -> B) l i x, map f (upd l i x) = upd (map f l) i (f x).
Proof. induction l; destruct i; simpl; intros; auto. f_equal; auto. Qed.

Lemma map2_length : forall {A B C} (f : A -> B -> C) l m,
  length (map2 f l m) = Nat.min (length l) (length m).
Proof. induction l; destruct m; simpl; auto. Qed.

Lemma nth_map2 : forall {A B C} (f : A -> B -> C) l m i da db dc,
  i < length l -> i < length m -> nth i (map2 f l m) dc = f (nth i l da) (nth i m db).
Proof.
  induction l; destruct m; simpl; intros; try lia.
  destruct i; auto. apply IHl; lia.
Qed.

Lemma map2_map_l : forall {A A' B C} (f : A' -> B -> C) (g : A -> A') l m,
  map2 f (map g l) m = map2 (fun a b => f (g a) b) l m.
Proof. induction l; destruct m; simpl; auto. f_equal; auto. Qed.
Lemma map2_map_r : forall {A B B' C} (f : A -> B' -> C) (g : B -> B') l m,
  map2 f l (map g m) = map2 (fun a b => f a (g b)) l m.
Proof. induction l; destruct m; simpl; auto. f_equal; auto. Qed.
Lemma map2_diag : forall {A C} (f : A -> A -> C) l, map2 f l l = map (fun a => f a a) l.
Proof. induction l; simpl; auto. f_equal; auto. Qed.
Lemma map_map2 : forall {A B C D} (g : C -> D) (f : A -> B -> C) l m,
  map g (map2 f l m) = map2 (fun a b => g (f a b)) l m.
Proof. induction l; destruct m; simpl; auto. f_equal; auto. Qed.
Lemma map2_ext_in : forall {A B C} (f g : A -> B -> C) l m,
  (forall a b, In a l -> In b m -> f a b = g a b) -> map2 f l m = map2 g l m.
Proof.
  induction l; destruct m; simpl; intros; auto. f_equal; auto.
Qed.

Lemma map2_as_seq : forall {A B C} (f : A -> B -> C) l m da db,
  length l = length m ->
  map2 f l m = map (fun i => f (nth i l da) (nth i m db)) (seq 0 (length l)).
Proof.
  induction l; destruct m; simpl; intros; auto; try discriminate.
  f_equal. rewrite <- seq_shift, map_map. apply IHl. lia.
Qed.

Lemma map_as_seq : forall {A B} (f : A -> B) l d,
  map f l = map (fun i => f (nth i l d)) (seq 0 (length l)).
Proof.
  induction l; simpl; intros; auto. f_equal. rewrite <- seq_shift, map_map. apply IHl.
Qed.

Lemma list_as_seq : forall {A} (l : list A) d,
  l = map (fun i => nth i l d) (seq 0 (length l)).
Proof. intros. rewrite <- (map_id l) at 1. rewrite (map_as_seq _ l d). auto. Qed.

Lemma nth_map_in : forall {A B} (f : A -> B) l i d d', i < length l ->
  nth i (map f l) d' = f (nth i l d).
Proof. induction l; destruct i; simpl; intros; auto; try lia. apply IHl; lia. Qed.

Lemma nth_map_seq : forall {A} (f : nat -> A) s n i d, i < n ->
  nth i (map f (seq s n)) d = f (s + i).
Proof.
  intros. rewrite nth_map_in with (d := 0) by (rewrite seq_length; auto).
  rewrite seq_nth by auto. auto.
Qed.

Lemma nth_repeat_lt : forall {A} (x d : A) n i, i < n -> nth i (repeat x n) d = x.
Proof. induction n; destruct i; simpl; intros; auto; try lia. apply IHn; lia. Qed.

Lemma nth_eq_ext : forall {A} (l m : list A) d, length l = length m ->
  (forall i, i < length l -> nth i l d = nth i m d) -> l = m.
Proof. intros. eapply nth_ext; eauto. Qed.

(** *** masks *)

Lemma mask_select_filter : forall {A} (p : A -> bool) (l : list A),
  mask_select (map p l) l = filter p l.
Proof. induction l; simpl; auto. destruct (p a); rewrite IHl; auto. Qed.

Lemma mask_select_map : forall {A B} (f : A -> B) m l,
  mask_select m (map f l) = map f (mask_select m l).
Proof. induction m as [|[] m IH]; destruct l; simpl; auto. f_equal; auto. Qed.

Lemma mask_select_map2 : forall {A B} (p : A -> bool) (f : A -> B) l,
  mask_select (map p l) (map f l) = map f (filter p l).
Proof. intros. rewrite mask_select_map, mask_select_filter. auto. Qed.

(** a mask given on indices *)
Lemma mask_select_seq : forall {A} (p : nat -> bool) (l : list A) d,
  mask_select (map p (seq 0 (length l))) l
  = map (fun i => nth i l d) (filter p (seq 0 (length l))).
Proof.
  intros. rewrite (list_as_seq l d) at 2. apply mask_select_map2.
Qed.

Lemma mask_assign_length : forall {A} m (l v : list A), length (mask_assign m l v) = length l.
Proof.
  induction m as [|[] m IH]; destruct l; simpl; intros; auto.
  destruct v; simpl; auto.
Qed.

Lemma mask_select_length : forall {A} m (l : list A), length m = length l ->
  length (mask_select m l) = length (filter (fun b => b) m).
Proof.
  induction m as [|[] m IH]; destruct l; simpl; intros; auto; try discriminate.
Qed.

(** reading back what a mask assignment wrote *)
Lemma mask_select_assign : forall {A} m (l v : list A), length m = length l ->
  length v = length (mask_select m l) -> mask_select m (mask_assign m l v) = v.
Proof.
  induction m as [|b m IH]; intros l v H1 H2.
  - destruct l; simpl in *; try discriminate. destruct v; auto; discriminate.
  - destruct l as [|x l]; simpl in *; try discriminate.
    destruct b; simpl in *.
    + destruct v; simpl in *; try discriminate. f_equal. apply IH; lia.
    + apply IH; lia.
Qed.

Lemma mask_assign_select : forall {A} m (l : list A), length m = length l ->
  mask_assign m l (mask_select m l) = l.
Proof.
  induction m as [|[] m IH]; destruct l; simpl; intros; auto; try discriminate; f_equal; apply IH; lia.
Qed.

(** positions outside the mask are untouched *)
Lemma mask_assign_out : forall {A} m (l v : list A) i d,
  nth i m false = false -> nth i (mask_assign m l v) d = nth i l d.
Proof.
  induction m as [|b m IH]; intros l v i d H.
  - destruct l; reflexivity.
  - destruct l as [|x l]; [destruct b; reflexivity|].
    destruct b; simpl in H.
    + destruct i; simpl in H; [discriminate|]. destruct v; simpl; apply IH; auto.
    + destruct i; simpl; auto.
Qed.

(** *** sums of naturals *)
Lemma sumn_app : forall l m, sumn (l ++ m) = sumn l + sumn m.
Proof. induction l; simpl; intros; auto. rewrite IHl. lia. Qed.

Lemma sumn_filter_len : forall {A} (p : A -> bool) l,
  sumn (map (fun x => if p x then 1 else 0) l) = length (filter p l).
Proof. induction l; simpl; auto. destruct (p a); simpl; lia. Qed.

Lemma list_maxn_ge : forall l x, In x l -> x <= list_maxn l.
Proof. induction l; simpl; intros; [tauto|]. destruct H; [subst|specialize (IHl _ H)]; lia. Qed.
Lemma list_maxn_in : forall l, l <> [] -> In (list_maxn l) l.
Proof.
  induction l; intros; [congruence|]. destruct l as [|b l].
  - simpl. left. lia.
  - assert (In (list_maxn (b :: l)) (b :: l)) by (apply IHl; congruence).
    change (list_maxn (a :: b :: l)) with (Nat.max a (list_maxn (b :: l))).
    destruct (Nat.max_spec a (list_maxn (b :: l))) as [[? ->]|[? ->]]; [right; auto|left; auto].
Qed.

Lemma offsets_length : forall l a, length (offsets a l) = length l.
Proof. induction l; simpl; intros; auto. Qed.
Lemma offsets_nth : forall l a i, i < length l ->
  nth i (offsets a l) 0 = a + sumn (firstn i l).
Proof.
  induction l; simpl; intros; [lia|]. destruct i; simpl; [lia|].
  rewrite IHl by lia. lia.
Qed.

(** *** error monad *)
Lemma foldM_app : forall {A B} (f : A -> B -> result A) l1 l2 a,
  foldM f (l1 ++ l2) a = bind (foldM f l1 a) (foldM f l2).
Proof. induction l1; simpl; intros; auto. destruct (f a0 a); simpl; auto. Qed.

Lemma mapM_length : forall {A B} (f : A -> result B) l r, mapM f l = Ok r -> length r = length l.
Proof.
  induction l; simpl; intros.
  - inversion H; auto.
  - destruct (f a); simpl in H; try discriminate.
    destruct (mapM f l); simpl in H; try discriminate. inversion H; subst. simpl. f_equal. auto.
Qed.
Lemma mapM_nth : forall {A B} (f : A -> result B) l r, mapM f l = Ok r ->
  forall i da db, i < length l -> f (nth i l da) = Ok (nth i r db).
Proof.
  induction l; simpl; intros; try lia.
  destruct (f a) eqn:E; simpl in H; try discriminate.
  destruct (mapM f l) eqn:E2; simpl in H; try discriminate. inversion H; subst.
  destruct i; simpl; auto. apply IHl; auto; lia.
Qed.
Lemma mapM_ok : forall {A B} (f : A -> result B) (g : A -> B) l,
  (forall x, In x l -> f x = Ok (g x)) -> mapM f l = Ok (map g l).
Proof.
  induction l; simpl; intros; auto. rewrite H by auto. simpl. rewrite IHl; auto.
Qed.

(** *** real instance *)
Lemma Rltb_true : forall a b, (a < b)%R -> Rltb a b = true.
Proof. intros. unfold Rltb. destruct (Rlt_dec a b); auto; lra. Qed.
Lemma Rltb_false : forall a b, (b <= a)%R -> Rltb a b = false.
Proof. intros. unfold Rltb. destruct (Rlt_dec a b); auto; lra. Qed.
Lemma Rltb_spec : forall a b, BoolSpec (a < b)%R (b <= a)%R (Rltb a b).
Proof. intros. unfold Rltb. destruct (Rlt_dec a b); constructor; lra. Qed.
Lemma Reqb_true : forall a b, a = b -> Reqb a b = true.
Proof. intros. unfold Reqb. destruct (Req_EM_T a b); auto; contradiction. Qed.
Lemma Reqb_false : forall a b, a <> b -> Reqb a b = false.
Proof. intros. unfold Reqb. destruct (Req_EM_T a b); auto; contradiction. Qed.
Lemma Reqb_spec : forall a b, BoolSpec (a = b) (a <> b) (Reqb a b).
Proof. intros. unfold Reqb. destruct (Req_EM_T a b); constructor; auto. Qed.

(** turn class operations at R into the operations of Coq's reals *)
Ltac rn := cbn [n0 n1 nadd nsub nmul ndiv nopp nltb neqb nsqrt nof RNum] in *.

(** decide the comparisons of closed terms *)
Ltac rdec1 :=
  match goal with
  | |- context [Rltb ?a ?b] =>
      first [ rewrite (Rltb_true a b) by lra | rewrite (Rltb_false a b) by lra ]
  | |- context [Reqb ?a ?b] =>
      first [ rewrite (Reqb_true a b) by lra | rewrite (Reqb_false a b) by lra ]
  end.

Local Open Scope R_scope.

Lemma nsum_nil : @nsum R RNum [] = 0.
Proof. reflexivity. Qed.
Lemma nsum_cons : forall x (l : list R), nsum (x :: l) = x + nsum l.
Proof. reflexivity. Qed.
Lemma nsum_app : forall l m : list R, nsum (l ++ m) = nsum l + nsum m.
Proof.
  induction l; intros; [rewrite nsum_nil; simpl app; lra|].
  simpl app. rewrite !nsum_cons, IHl. lra.
Qed.
Lemma nsum_ext : forall {A} (f g : A -> R) l, (forall x, In x l -> f x = g x) ->
  nsum (map f l) = nsum (map g l).
Proof. intros. f_equal. apply map_ext_in. auto. Qed.
Lemma nsum_plus : forall {A} (f g : A -> R) l,
  nsum (map (fun x => f x + g x) l) = nsum (map f l) + nsum (map g l).
Proof. induction l; simpl map; rewrite ?nsum_nil, ?nsum_cons; [lra|]. rewrite IHl. lra. Qed.
Lemma nsum_minus : forall {A} (f g : A -> R) l,
  nsum (map (fun x => f x - g x) l) = nsum (map f l) - nsum (map g l).
Proof. induction l; simpl map; rewrite ?nsum_nil, ?nsum_cons; [lra|]. rewrite IHl. lra. Qed.
Lemma nsum_scal : forall {A} (f : A -> R) c l,
  nsum (map (fun x => c * f x) l) = c * nsum (map f l).
Proof. induction l; simpl map; rewrite ?nsum_nil, ?nsum_cons; [lra|]. rewrite IHl. lra. Qed.
Lemma nsum_scal_r : forall {A} (f : A -> R) c l,
  nsum (map (fun x => f x * c) l) = nsum (map f l) * c.
Proof. induction l; simpl map; rewrite ?nsum_nil, ?nsum_cons; [lra|]. rewrite IHl. lra. Qed.
Lemma nsum_zero : forall {A} (f : A -> R) l, (forall x, In x l -> f x = 0) -> nsum (map f l) = 0.
Proof.
  induction l; simpl map; rewrite ?nsum_nil, ?nsum_cons; intros; [lra|].
  rewrite IHl, H; [lra|left; auto|intros; apply H; right; auto].
Qed.
Lemma nsum_const : forall {A} c (l : list A), nsum (map (fun _ => c) l) = INR (length l) * c.
Proof.
  induction l; simpl map; rewrite ?nsum_nil, ?nsum_cons; [simpl; lra|].
  rewrite IHl. change (length (a :: l)) with (S (length l)). rewrite S_INR. lra.
Qed.
Lemma nsum_le : forall {A} (f g : A -> R) l, (forall x, In x l -> f x <= g x) ->
  nsum (map f l) <= nsum (map g l).
Proof.
  induction l; simpl map; rewrite ?nsum_nil, ?nsum_cons; intros; [lra|].
  pose proof (H a (or_introl eq_refl)). pose proof (IHl (fun x h => H x (or_intror h))). lra.
Qed.
Lemma nsum_nonneg : forall {A} (f : A -> R) l, (forall x, In x l -> 0 <= f x) -> 0 <= nsum (map f l).
Proof.
  intros. replace 0 with (nsum (map (fun _ : A => 0) l)).
  - apply nsum_le; auto.
  - rewrite nsum_const. lra.
Qed.
Lemma nsum_nonneg' : forall l : list R, (forall x, In x l -> 0 <= x) -> 0 <= nsum l.
Proof. intros. rewrite <- (map_id l). apply nsum_nonneg. auto. Qed.
Lemma nsum_swap : forall {A B} (f : A -> B -> R) l m,
  nsum (map (fun a => nsum (map (f a) m)) l) = nsum (map (fun b => nsum (map (fun a => f a b) l)) m).
Proof.
  induction l; intros; simpl map; rewrite ?nsum_nil, ?nsum_cons.
  - symmetry. apply nsum_zero. intros. reflexivity.
  - rewrite IHl, <- nsum_plus. apply nsum_ext. intros. reflexivity.
Qed.
Lemma nsum_perm : forall l m : list R, Permutation l m -> nsum l = nsum m.
Proof.
  induction 1; rewrite ?nsum_cons; auto; lra.
Qed.
Lemma nsum_pos_elem : forall {A} (f : A -> R) l a, (forall x, In x l -> 0 <= f x) -> In a l ->
  f a <= nsum (map f l).
Proof.
  induction l; simpl map; rewrite ?nsum_nil, ?nsum_cons; intros; [destruct H0|].
  destruct H0; [subst|].
  - pose proof (nsum_nonneg f l (fun x h => H x (or_intror h))). lra.
  - pose proof (IHl _ (fun x h => H x (or_intror h)) H0).
    pose proof (H a (or_introl eq_refl)). lra.
Qed.
(** sum with a single selected index *)
Lemma nsum_single : forall {A} (dec : forall x y : A, {x = y} + {x <> y}) (f : A -> R) l a,
  NoDup l -> In a l -> (forall x, In x l -> x <> a -> f x = 0) -> nsum (map f l) = f a.
Proof.
  induction l; simpl map; intros; rewrite ?nsum_cons; [destruct H0|].
  inversion H; subst. destruct H0.
  - subst. rewrite nsum_zero; [lra|]. intros. apply H1; [right; auto|]. intro; subst; auto.
  - rewrite IHl with (a := a0); auto; [|intros; apply H1; auto; right; auto].
    rewrite H1; [lra|left; auto|]. intro; subst; auto.
Qed.
Lemma nsum_filter : forall {A} (p : A -> bool) (f : A -> R) l,
  nsum (map f (filter p l)) = nsum (map (fun x => if p x then f x else 0) l).
Proof.
  induction l; simpl; rewrite ?nsum_nil, ?nsum_cons; auto.
  destruct (p a); simpl map; rewrite ?nsum_cons, IHl; auto; lra.
Qed.
Lemma nsum_concat : forall ls : list (list R), nsum (concat ls) = nsum (map nsum ls).
Proof. induction ls; simpl; auto. rewrite nsum_app, nsum_cons, IHls. auto. Qed.

(** *** dot *)
Lemma dot_nil_l : forall v : list R, dot [] v = 0.
Proof. destruct v; reflexivity. Qed.
Lemma dot_nil_r : forall v : list R, dot v [] = 0.
Proof. destruct v; reflexivity. Qed.
Lemma dot_cons : forall a b (l m : list R), dot (a :: l) (b :: m) = a * b + dot l m.
Proof. reflexivity. Qed.
Lemma dot_as_seq : forall (a b : list R), length a = length b ->
  dot a b = nsum (map (fun i => nth i a 0 * nth i b 0) (seq 0 (length a))).
Proof. intros. unfold dot. rewrite (map2_as_seq _ a b 0 0) by auto. reflexivity. Qed.
Lemma dot_scal_r : forall (a b : list R) c, dot a (map (fun x => c * x) b) = c * dot a b.
Proof.
  induction a; destruct b; intros; simpl map; rewrite ?dot_nil_l, ?dot_nil_r, ?dot_cons; try lra.
  rewrite IHa. lra.
Qed.
Lemma dot_comm : forall a b : list R, dot a b = dot b a.
Proof.
  induction a; destruct b; rewrite ?dot_nil_l, ?dot_nil_r, ?dot_cons; auto.
  rewrite IHa. lra.
Qed.
Lemma dot_nonneg : forall a b : list R, (forall x, In x a -> 0 <= x) -> (forall x, In x b -> 0 <= x) ->
  0 <= dot a b.
Proof.
  induction a; destruct b; intros; rewrite ?dot_nil_l, ?dot_nil_r, ?dot_cons; try lra.
  pose proof (H a (or_introl eq_refl)). pose proof (H0 r (or_introl eq_refl)).
  pose proof (IHa b (fun x h => H x (or_intror h)) (fun x h => H0 x (or_intror h))). nra.
Qed.
