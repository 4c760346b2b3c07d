(** L_Analysis2: the stored results of the analysis scripts. *)
From Coq Require Import Ascii Reals Lra Lia.
From Coq Require Strings.String.
From Verif Require Import Base TreeSpec Spec M_Tree M_Gamma M_Levels M_Grad M_Sgd M_Smooth M_Clean M_Analysis SpecSmooth SpecTune SpecClean SpecAnalysis.
From Verif Require Import L_Base L_Sgd L_Clean3 L_Analysis.
Import Coq.Strings.String.StringSyntax.
Local Open Scope string_scope.
Local Open Scope list_scope.

(** ** the grid *)
Section Grid.
Context {T : Type} {NT : Num T}.

Lemma all_params_in : forall st inn pa nc la lo (ad : list (option (T * T * T * T))) p,
  In p (all_params st inn pa nc la lo ad) <->
  In (p_style p) st /\ In (p_inner p) inn /\ In (p_parents p) pa /\ In (p_nocons p) nc /\ In (p_lamb p) la /\ In (p_loss p) lo /\ In (p_adam p) ad.
Proof.
  intros st inn pa nc la lo ad p. unfold all_params. split.
  - intros H. apply in_flat_map in H. destruct H as (a&Ha&H). apply in_flat_map in H. destruct H as (b&Hb&H). apply in_flat_map in H. destruct H as (c&Hc&H).
    apply in_flat_map in H. destruct H as (d&Hd&H). apply in_flat_map in H. destruct H as (e&He&H). apply in_flat_map in H. destruct H as (f&Hf&H).
    apply in_map_iff in H. destruct H as (g&<-&Hg). cbn. auto 10.
  - intros (A&B&C&D&E&F&G). apply in_flat_map. exists (p_style p). split; auto. apply in_flat_map. exists (p_inner p). split; auto.
    apply in_flat_map. exists (p_parents p). split; auto. apply in_flat_map. exists (p_nocons p). split; auto.
    apply in_flat_map. exists (p_lamb p). split; auto. apply in_flat_map. exists (p_loss p). split; auto.
    apply in_map_iff. exists (p_adam p). split; auto. destruct p; reflexivity.
Qed.

Ltac inv_in H := repeat (apply in_flat_map in H; destruct H as (?&?&H)); apply in_map_iff in H; destruct H as (?&<-&?); cbn.

Lemma grid_splits : forall (key : params T -> str) st inn pa nc la lo0 lst (ad : list (option (T * T * T * T))) x,
  NoDup st -> NoDup inn -> NoDup pa -> NoDup nc -> NoDup la -> NoDup ad ->
  In x (all_params st inn pa nc la (lo0 ++ [lst]) ad) -> p_loss x = lst ->
  (forall y, In y (all_params st inn pa nc la (lo0 ++ [lst]) ad) -> key y = key x -> same_but_loss y x) ->
  splits key (all_params st inn pa nc la (lo0 ++ [lst]) ad) x.
Proof.
  intros key st inn pa nc la lo0 lst ad x N1 N2 N3 N4 N5 N7 HX HL INJ. apply all_params_in in HX. destruct HX as (A&B&C&D&E&F&G).
  assert (INJ' : forall y, In (p_style y) st -> In (p_inner y) inn -> In (p_parents y) pa -> In (p_nocons y) nc -> In (p_lamb y) la -> In (p_loss y) (lo0 ++ [lst]) -> In (p_adam y) ad ->
     key y = key x -> same_but_loss y x).
  { intros y H1 H2 H3 H4 H5 H6 H7. apply INJ. apply all_params_in. auto 10. }
  unfold all_params.
  apply (splits_one str (params T) key (@p_style T)) with (b := p_style x); auto. { intros c y _ H. inv_in H. reflexivity. } { intros y c Hc H EK. apply INJ' in EK; [apply EK|..]; inv_in H; auto. }
  apply (splits_one str (params T) key (@p_inner T)) with (b := p_inner x); auto. { intros c y _ H. inv_in H. reflexivity. } { intros y c Hc H EK. apply INJ' in EK; [apply EK|..]; inv_in H; auto. }
  apply (splits_one bool (params T) key (@p_parents T)) with (b := p_parents x); auto. { intros c y _ H. inv_in H. reflexivity. } { intros y c Hc H EK. apply INJ' in EK; [apply EK|..]; inv_in H; auto. }
  apply (splits_one bool (params T) key (@p_nocons T)) with (b := p_nocons x); auto. { intros c y _ H. inv_in H. reflexivity. } { intros y c Hc H EK. apply INJ' in EK; [apply EK|..]; inv_in H; auto. }
  apply (splits_one (option nat) (params T) key (@p_lamb T)) with (b := p_lamb x); auto. { intros c y _ H. inv_in H. reflexivity. } { intros y c Hc H EK. apply INJ' in EK; [apply EK|..]; inv_in H; auto. }
  apply splits_last. rewrite <- HL.
  assert (EX : x = {| p_style := p_style x; p_inner := p_inner x; p_parents := p_parents x; p_nocons := p_nocons x; p_lamb := p_lamb x; p_loss := p_loss x; p_adam := p_adam x |}) by (destruct x; reflexivity).
  pose (f := fun a : option (T * T * T * T) => {| p_style := p_style x; p_inner := p_inner x; p_parents := p_parents x; p_nocons := p_nocons x; p_lamb := p_lamb x; p_loss := p_loss x; p_adam := a |}).
  assert (SP : splits key (map f ad) (f (p_adam x))).
  { apply (splits_map _ _ key (@p_adam T) f ad (p_adam x)); auto.
    intros c Hc EK. unfold f at 2 in EK. rewrite <- EX in EK. apply INJ' in EK; cbn; auto. apply EK. }
  unfold f at 2 in SP. rewrite <- EX in SP. exact SP.
Qed.

Lemma nodup_flat : forall A B (comp : B -> A) (f : A -> list B) L, NoDup L -> (forall c y, In c L -> In y (f c) -> comp y = c) -> (forall c, In c L -> NoDup (f c)) -> NoDup (flat_map f L).
Proof.
  intros A B comp f. induction L as [|a L IH]; intros N HC HN; [constructor|]. cbn [flat_map]. apply NoDup_cons_iff in N. destruct N as [NA N].
  assert (X : forall l1 l2 : list B, NoDup l1 -> NoDup l2 -> (forall y, In y l1 -> ~ In y l2) -> NoDup (l1 ++ l2)).
  { clear. induction l1 as [|x l1 IH]; intros l2 H1 H2 H; auto. cbn. apply NoDup_cons_iff in H1. destruct H1 as [H3 H1]. constructor.
    - intros C. apply in_app_or in C. destruct C as [C|C]; auto. apply (H x); auto. left. auto.
    - apply IH; auto. intros y Hy. apply H. right. auto. }
  apply X.
  - apply HN. left. auto.
  - apply IH; auto; intros c; intros; [apply (HC c); auto; right; auto|apply HN; right; auto].
  - intros y H1 H2. apply in_flat_map in H2. destruct H2 as (c&Hc&H2). assert (comp y = a) by (apply HC; auto; left; auto). assert (comp y = c) by (apply HC; auto; right; auto).
    apply NA. congruence.
Qed.
Lemma all_params_nodup : forall st inn pa nc la lo (ad : list (option (T * T * T * T))),
  NoDup st -> NoDup inn -> NoDup pa -> NoDup nc -> NoDup la -> NoDup lo -> NoDup ad -> NoDup (all_params st inn pa nc la lo ad).
Proof.
  intros st inn pa nc la lo ad N1 N2 N3 N4 N5 N6 N7. unfold all_params.
  apply (nodup_flat _ _ (@p_style T)); auto. { intros c y _ H. inv_in H. reflexivity. } intros c1 _.
  apply (nodup_flat _ _ (@p_inner T)); auto. { intros c y _ H. inv_in H. reflexivity. } intros c2 _.
  apply (nodup_flat _ _ (@p_parents T)); auto. { intros c y _ H. inv_in H. reflexivity. } intros c3 _.
  apply (nodup_flat _ _ (@p_nocons T)); auto. { intros c y _ H. inv_in H. reflexivity. } intros c4 _.
  apply (nodup_flat _ _ (@p_lamb T)); auto. { intros c y _ H. inv_in H. reflexivity. } intros c5 _.
  apply (nodup_flat _ _ (@p_loss T)); auto. { intros c y _ H. inv_in H. reflexivity. } intros c6 _.
  apply FinFun.Injective_map_NoDup; auto. intros a b E. congruence.
Qed.
Lemma flat_len_c : forall A B (f : A -> list B) L n, (forall a, length (f a) = n) -> length (flat_map f L) = length L * n.
Proof. induction L as [|a L IH]; intros n H; auto. cbn [flat_map length]. rewrite app_length, H, (IH n H). lia. Qed.
Lemma all_params_length : forall st inn pa nc la lo (ad : list (option (T * T * T * T))),
  length (all_params st inn pa nc la lo ad) = length st * (length inn * (length pa * (length nc * (length la * (length lo * length ad))))).
Proof.
  intros. unfold all_params. repeat (apply flat_len_c; intros). apply map_length.
Qed.

Lemma opt_adams_in : forall al b1 b0 ep (a : option (T * T * T * T)), In a (opt_adams al b1 b0 ep) <-> adam_in al b1 b0 ep a.
Proof.
  intros al b1 b0 ep a. unfold opt_adams, adam_in. split.
  - intros H. apply in_flat_map in H. destruct H as (x&X&H). apply in_flat_map in H. destruct H as (y&Y&H). apply in_flat_map in H. destruct H as (z&Z&H).
    apply in_map_iff in H. destruct H as (w&<-&W). exists x, y, z, w. auto.
  - intros (x&y&z&w&->&X&Y&Z&W). apply in_flat_map. exists x. split; auto. apply in_flat_map. exists y. split; auto. apply in_flat_map. exists z. split; auto. apply in_map_iff. exists w. auto.
Qed.
Lemma opt_adams_nodup : forall al b1 b0 ep : list T, NoDup al -> NoDup b1 -> NoDup b0 -> NoDup ep -> NoDup (opt_adams al b1 b0 ep).
Proof.
  intros al b1 b0 ep N1 N2 N3 N4. unfold opt_adams. destruct al as [|d0 al0] eqn:EA; [constructor|]. rewrite <- EA in *. clear EA al0.
  apply (nodup_flat _ _ (fun o => match o with Some (a, _, _, _) => a | None => d0 end)); auto. { intros c y _ H. inv_in H. reflexivity. } intros c1 _.
  apply (nodup_flat _ _ (fun o => match o with Some (_, a, _, _) => a | None => d0 end)); auto. { intros c y _ H. inv_in H. reflexivity. } intros c2 _.
  apply (nodup_flat _ _ (fun o => match o with Some (_, _, a, _) => a | None => d0 end)); auto. { intros c y _ H. inv_in H. reflexivity. } intros c3 _.
  apply FinFun.Injective_map_NoDup; auto. intros a b E. congruence.
Qed.
Lemma opt_adams_length : forall al b1 b0 ep : list T, length (opt_adams al b1 b0 ep) = length al * (length b1 * (length b0 * length ep)).
Proof. intros. unfold opt_adams. repeat (apply flat_len_c; intros). apply map_length. Qed.

(** ** filling *)
Definition result_of (run : params T -> result (list (tree T) * list T * list T)) (assess : list (tree T) -> T) (p : params T) (s l : list T) : Prop :=
  exists f lamb c m, run p = Ok (f, lamb, c) /\ np_min c = Ok m /\ s = [assess f; m] /\ l = lamb.

Lemma fill_inv : forall name run assess jobs sc inf sc' inf', fill name run assess jobs sc inf = Ok (sc', inf') ->
  exists outs, Forall2 (fun p (o : str * list T * list T) => fst (fst o) = key_of (name p) /\ result_of run assess p (snd (fst o)) (snd o)) jobs outs /\
    sc' = sets (map fst outs) sc /\ inf' = sets (map (fun o => (fst (fst o), snd o)) outs) inf.
Proof.
  intros name run assess jobs sc inf sc' inf' H. unfold fill in H. apply bind_ok in H. destruct H as (os&E&H). injection H as H.
  exists (map (fun o : str * T * list T * T => let '(nm, s, lamb, m) := o in (key_of nm, [s; m], lamb)) os). split.
  - clear H. revert os E. induction jobs as [|p jobs IH]; intros os E; cbn [mapM] in E.
    + injection E as <-. constructor.
    + apply bind_ok in E. destruct E as (o&E1&E). apply bind_ok in E. destruct E as (os'&E2&E). injection E as <-. cbn [map]. constructor; [|apply IH; auto].
      unfold wrapper in E1. apply bind_ok in E1. destruct E1 as ([[f lamb] c]&R&E1). apply bind_ok in E1. destruct E1 as (m&M&E1). injection E1 as <-. cbn. split; auto.
      exists f, lamb, c, m. auto.
  - clear E.
    assert (X : forall (l : list (str * T * list T * T)) d e,
      fold_left (fun ds o => let '(nm, sc, lamb, m) := o in (sdict_set (fst ds) (key_of nm) [sc; m], sdict_set (snd ds) (key_of nm) lamb)) l (d, e) =
      fold_left (fun ds (o : str * list T * list T) => (sdict_set (fst ds) (fst (fst o)) (snd (fst o)), sdict_set (snd ds) (fst (fst o)) (snd o)))
        (map (fun o : str * T * list T * T => let '(nm, s, lamb, m) := o in (key_of nm, [s; m], lamb)) l) (d, e)).
    { induction l as [|[[[nm s] lamb] m] l IH]; intros d e; auto. cbn [fold_left map fst snd]. apply IH. }
    rewrite X, fold_two in H. injection H as <- <-. auto.
Qed.
End Grid.

(** ** the entries *)
Section Fill.
Context {T : Type} {NT : Num T}.
Variables (name : params T -> str) (run : params T -> result (list (tree T) * list T * list T)) (assess : list (tree T) -> T).
Variables (jobs : list (params T)) (sc inf sc' inf' : sdict (list T)).
Hypothesis HF : fill name run assess jobs sc inf = Ok (sc', inf').
Hypothesis ND1 : NoDup (map fst sc).
Hypothesis ND2 : NoDup (map fst inf).
Let key p := key_of (name p).

Lemma fill_keys : (forall k, In k (map fst sc') <-> In k (map key jobs) \/ In k (map fst sc)) /\ NoDup (map fst sc') /\
  (forall k, In k (map fst inf') <-> In k (map key jobs) \/ In k (map fst inf)) /\ NoDup (map fst inf').
Proof.
  destruct (fill_inv _ _ _ _ _ _ _ _ HF) as (outs&F&->&->). clear HF.
  assert (E : map (fun o : str * list T * list T => fst (fst o)) outs = map key jobs).
  { clear -F. induction F as [|p o ps os [H _] F IH]; auto. cbn [map]. rewrite IH, H. reflexivity. }
  split; [|split; [apply sets_nodup; auto|split; [|apply sets_nodup; auto]]].
  - intros k. rewrite sets_keys, map_map, E. tauto.
  - intros k. rewrite sets_keys, map_map. cbn [fst]. rewrite E. tauto.
Qed.

Lemma fill_entry : forall p, splits key jobs p -> exists s l, result_of run assess p s l /\ holds sc' (key p) s /\ holds inf' (key p) l.
Proof.
  intros p (j1&j2&EJ&HJ). destruct (fill_inv _ _ _ _ _ _ _ _ HF) as (outs&F&->&->). rewrite EJ in F. apply Forall2_app_inv_l in F. destruct F as (o1&o2&F1&F2&->).
  inversion F2 as [|p' o ps o2' [K R] F3 E1 E2]; subst. destruct o as [[k s] l]. cbn in K, R. subst k. exists s, l. split; auto.
  assert (NI : forall B (g : str * list T * list T -> B), ~ In (key p) (map fst (map (fun o => (fst (fst o), g o)) o2'))).
  { intros B g H. rewrite map_map in H. cbn [fst] in H.
    assert (E : map (fun o : str * list T * list T => fst (fst o)) o2' = map key j2).
    { clear -F3. induction F3 as [|q o qs os [H _] F IH]; auto. cbn [map]. rewrite IH, H. reflexivity. }
    rewrite E in H. apply in_map_iff in H. destruct H as (y&EY&HY). apply (HJ y HY). auto. }
  rewrite !map_app. cbn [map fst snd]. split; apply sets_split; auto.
  - specialize (NI _ (fun o => snd (fst o))). intros H. apply NI. rewrite map_map. rewrite map_map in H. exact H.

Qed.

Lemma fill_other : forall k v, ~ In k (map key jobs) -> (In (k, v) sc' <-> In (k, v) sc) /\ (In (k, v) inf' <-> In (k, v) inf).
Proof.
  intros k v H. destruct (fill_inv _ _ _ _ _ _ _ _ HF) as (outs&F&->&->).
  assert (E : map (fun o : str * list T * list T => fst (fst o)) outs = map key jobs).
  { clear -F. induction F as [|p o ps os [H _] F IH]; auto. cbn [map]. rewrite IH, H. reflexivity. }
  split; apply sets_old; auto; rewrite map_map; cbn [fst]; rewrite E; auto.
Qed.
End Fill.

Lemma nodup_same_length : forall A (l l' : list A), NoDup l -> NoDup l' -> (forall x, In x l <-> In x l') -> length l = length l'.
Proof. intros A l l' N N' H. apply Nat.le_antisymm; apply NoDup_incl_length; auto; intros x; apply H. Qed.

Lemma key_no_start : forall nm k, In k [lit "rf_base"; lit "depth_tune"; lit "seed"; wols_name true true; wols_name true false; wols_name false true; wols_name false false] -> k <> key_of nm.
Proof.
  intros nm k H E. subst k. unfold key_of in H. cbn in H. repeat (destruct H as [H|H]; [discriminate H|]). exact H.
Qed.
