(** L_Analysis: names and dictionaries of the analysis scripts. *)
From Coq Require Import Ascii DecimalString DecimalNat Lia.
From Coq Require Strings.String.
From Verif Require Import Base TreeSpec M_Smooth M_Analysis SpecAnalysis L_Base L_Sgd.
Import Coq.Strings.String.StringSyntax.
Local Open Scope string_scope.
Local Open Scope list_scope.

(** ** cutting strings *)
Lemma cut : forall (c : ascii) a b x y, ~ In c a -> ~ In c b -> a ++ c :: x = b ++ c :: y -> a = b /\ x = y.
Proof.
  intros c a. induction a as [|u a IH]; intros [|v b] x y A B E; cbn in E.
  - split; congruence.
  - exfalso. apply B. left. congruence.
  - exfalso. apply A. left. congruence.
  - injection E as E1 E2. subst v. destruct (IH b x y) as [H1 H2]; auto.
    + intros H. apply A. right. auto.
    + intros H. apply B. right. auto.
    + subst. auto.
Qed.

Lemma replace_plain : forall a s, ~ In ","%char a -> replace_cs (a ++ s) = a ++ replace_cs s.
Proof.
  induction a as [|c a IH]; intros s H; auto. cbn [app replace_cs]. destruct (ascii_dec c ","%char) as [->|N].
  - exfalso. apply H. left. auto.
  - rewrite IH; auto. intros X. apply H. right. auto.
Qed.

Definition is_digit (c : ascii) : Prop := In c (lit "0123456789").
Lemma digits_uint : forall d c, In c (lit (NilEmpty.string_of_uint d)) -> is_digit c.
Proof.
  unfold is_digit, lit. induction d; cbn; intros c H; [destruct H|..]; (destruct H as [<-|H]; [cbn; tauto|apply IHd in H; exact H]).
Qed.
Lemma digits_nat : forall n c, In c (str_nat n) -> is_digit c.
Proof.
  intros n c H. unfold str_nat, NilZero.string_of_uint in H. destruct (Nat.to_uint n) eqn:E.
  1: (cbn in H; destruct H as [<-|[]]; unfold is_digit; cbn; tauto).
  all: eapply digits_uint; exact H.
Qed.
Lemma no_in_digits : forall n c, ~ is_digit c -> ~ In c (str_nat n).
Proof. intros n c H X. apply H. eapply digits_nat; eauto. Qed.
Lemma lit_inj : forall a b, lit a = lit b -> a = b.
Proof. intros a b H. unfold lit in H. rewrite <- (String.string_of_list_ascii_of_string a), <- (String.string_of_list_ascii_of_string b). congruence. Qed.
Lemma str_nat_inj : forall a b, str_nat a = str_nat b -> a = b.
Proof.
  intros a b H. apply lit_inj in H. apply Unsigned.to_uint_inj.
  assert (X : forall n, NilZero.uint_of_string (NilZero.string_of_uint (Nat.to_uint n)) = Some (Nat.to_uint n)).
  { intros n. apply NilZero.usu. intros E. pose proof (Unsigned.of_to n) as O. rewrite E in O. cbn in O. subst n. discriminate. }
  pose proof (X a) as XA. pose proof (X b) as XB. rewrite H in XA. congruence.
Qed.
Lemma str_nat_cons : forall n, exists c r, str_nat n = c :: r /\ is_digit c.
Proof.
  intros n. destruct (str_nat n) as [|c r] eqn:E.
  - exfalso. unfold str_nat, NilZero.string_of_uint in E. destruct (Nat.to_uint n); discriminate.
  - exists c, r. split; auto. apply (digits_nat n). rewrite E. left. auto.
Qed.
Ltac digit_no := let H := fresh in unfold is_digit; cbn; intros H; repeat (destruct H as [H|H]; [discriminate H|]); exact H.

Lemma lamb_plain : forall l, ~ In ","%char (str_lamb l).
Proof. intros [s|]; cbn [str_lamb]; [apply no_in_digits; digit_no|cbn; intuition discriminate]. Qed.
Lemma lamb_inj : forall l l', str_lamb l = str_lamb l' -> l = l'.
Proof.
  intros [a|] [b|] H; auto; cbn [str_lamb] in H.
  - f_equal. apply str_nat_inj. auto.
  - exfalso. destruct (str_nat_cons a) as (c&r&E&D). rewrite E in H. cbn in H. injection H as H _. subst c. revert D. digit_no.
  - exfalso. destruct (str_nat_cons b) as (c&r&E&D). rewrite E in H. cbn in H. injection H as H _. subst c. revert D. digit_no.
Qed.
Lemma bool_plain : forall b, ~ In ","%char (str_bool b).
Proof. intros []; cbn; intuition discriminate. Qed.
Lemma bool_inj : forall a b, str_bool a = str_bool b -> a = b.
Proof. intros [] []; auto; discriminate. Qed.

Section Names.
Context {T : Type} {NT : Num T}.
Variable fs : T -> str.
Variables al b1 b0 ep : list T.
Hypothesis PR : prints fs (al ++ b1 ++ b0 ++ ep).

Let adam_fine (a : option (T * T * T * T)) := a = None \/ adam_in al b1 b0 ep a.

Lemma adam_str : forall x y z w, In x al -> In y b1 -> In z b0 -> In w ep ->
  replace_cs (str_adam fs (Some (x, y, z, w))) = "("%char :: fs x ++ "_"%char :: fs y ++ "_"%char :: fs z ++ "_"%char :: fs w ++ lit ")".
Proof.
  intros x y z w X Y Z W. destruct PR as [NC _]. assert (P : forall v, In v (al ++ b1 ++ b0 ++ ep) -> ~ In ","%char (fs v)) by (intros v Hv; apply NC; auto).
  unfold str_adam. change (lit "(") with ["("%char]. rewrite replace_plain by (cbn; intuition discriminate). cbn [app]. f_equal.
  rewrite replace_plain by (apply P; rewrite !in_app_iff; auto). f_equal. change (lit ", ") with [","%char; " "%char]. cbn [app].
  assert (R2 : forall s, replace_cs (","%char :: " "%char :: s) = "_"%char :: replace_cs s) by reflexivity.
  rewrite R2. f_equal. rewrite replace_plain by (apply P; rewrite !in_app_iff; auto). f_equal. rewrite R2. f_equal.
  rewrite replace_plain by (apply P; rewrite !in_app_iff; auto). f_equal. rewrite R2. f_equal.
  rewrite replace_plain by (apply P; rewrite !in_app_iff; auto). reflexivity.
Qed.

Lemma adam_inj : forall a a', adam_fine a -> adam_fine a' -> replace_cs (str_adam fs a) = replace_cs (str_adam fs a') -> a = a'.
Proof.
  intros a a' H H' E. destruct PR as [NC INJ].
  assert (P : forall v, In v (al ++ b1 ++ b0 ++ ep) -> ~ In "_"%char (fs v)) by (intros v Hv; apply NC; auto).
  destruct H as [->|(x&y&z&w&->&X&Y&Z&W)], H' as [->|(x'&y'&z'&w'&->&X'&Y'&Z'&W')]; auto.
  - rewrite adam_str in E by auto. cbn in E. discriminate.
  - rewrite adam_str in E by auto. cbn in E. discriminate.
  - rewrite !adam_str in E by auto. injection E as E.
    apply cut in E; [|apply P; rewrite !in_app_iff; auto|apply P; rewrite !in_app_iff; auto]. destruct E as [E1 E].
    apply cut in E; [|apply P; rewrite !in_app_iff; auto|apply P; rewrite !in_app_iff; auto]. destruct E as [E2 E].
    apply cut in E; [|apply P; rewrite !in_app_iff; auto|apply P; rewrite !in_app_iff; auto]. destruct E as [E3 E4].
    apply app_inv_tail in E4.
    apply INJ in E1; [|rewrite !in_app_iff; auto|rewrite !in_app_iff; auto].
    apply INJ in E2; [|rewrite !in_app_iff; auto|rewrite !in_app_iff; auto].
    apply INJ in E3; [|rewrite !in_app_iff; auto|rewrite !in_app_iff; auto].
    apply INJ in E4; [|rewrite !in_app_iff; auto|rewrite !in_app_iff; auto]. congruence.
Qed.

(** the common end of the names *)
Let tail_name (p : params T) : str :=
  lit ",parents:" ++ str_bool (p_parents p) ++ lit ",constraints:" ++ str_bool (negb (p_nocons p)) ++
  lit ",initial_lamb:" ++ str_lamb (p_lamb p) ++ lit ",adam_options:" ++ replace_cs (str_adam fs (p_adam p)).
Lemma tail_inj : forall p q, adam_fine (p_adam p) -> adam_fine (p_adam q) -> forall a b, ~ In ","%char a -> ~ In ","%char b ->
  a ++ tail_name p = b ++ tail_name q ->
  a = b /\ p_parents p = p_parents q /\ p_nocons p = p_nocons q /\ p_lamb p = p_lamb q /\ p_adam p = p_adam q.
Proof.
  intros p q AP AQ a b NA NB E. unfold tail_name in E.
  change (lit ",parents:") with (","%char :: lit "parents:") in E. cbn [app] in E. apply cut in E; auto. destruct E as [E1 E]. apply app_inv_head in E.
  change (lit ",constraints:") with (","%char :: lit "constraints:") in E. cbn [app] in E. apply cut in E; try apply bool_plain. destruct E as [E2 E]. apply app_inv_head in E.
  change (lit ",initial_lamb:") with (","%char :: lit "initial_lamb:") in E. cbn [app] in E. apply cut in E; try apply bool_plain. destruct E as [E3 E]. apply app_inv_head in E.
  change (lit ",adam_options:") with (","%char :: lit "adam_options:") in E. cbn [app] in E. apply cut in E; try apply lamb_plain. destruct E as [E4 E]. apply app_inv_head in E.
  split; auto. split; [apply bool_inj; auto|]. split. { apply bool_inj in E3. destruct (p_nocons p), (p_nocons q); auto; discriminate. }
  split; [apply lamb_inj; auto|]. apply adam_inj; auto.
Qed.

Lemma clean_name_inj : forall levels p q, adam_fine (p_adam p) -> adam_fine (p_adam q) ->
  ~ In ","%char (p_style p) -> ~ In ","%char (p_style q) -> ~ In ","%char (p_inner p) -> ~ In ","%char (p_inner q) ->
  clean_name fs levels p = clean_name fs levels q -> same_but_loss p q.
Proof.
  intros levels p q AP AQ S1 S2 I1 I2 E. unfold clean_name in E. apply app_inv_head in E. apply app_inv_head in E.
  change (lit ",levels:") with (","%char :: lit "levels:") in E. cbn [app] in E. apply cut in E; auto. destruct E as [ES E].
  apply app_inv_head in E. apply app_inv_head in E. apply app_inv_head in E.
  apply (tail_inj p q AP AQ _ _ I1 I2) in E. unfold same_but_loss. intuition.
Qed.

Lemma old_name_inj : forall (both : bool) levels p q, adam_fine (p_adam p) -> adam_fine (p_adam q) ->
  (if both then ~ In ","%char (p_style p) /\ ~ In ","%char (p_style q) else p_style p = p_style q) -> ~ In ","%char (p_inner p) -> ~ In ","%char (p_inner q) ->
  old_name both fs levels p = old_name both fs levels q -> same_but_loss p q.
Proof.
  intros both levels p q AP AQ S1 I1 I2 E. unfold old_name in E. apply app_inv_head in E. apply app_inv_head in E. destruct both.
  - destruct S1 as [S1 S2]. change (lit ",dist:") with (","%char :: lit "dist:") in E. cbn [app] in E.
    set (lv := match levels with Some n => lit "_levels:" ++ str_nat n | None => [] end) in *.
    assert (NL : ~ In ","%char lv).
    { unfold lv. destruct levels as [n|]; [|intros []]. intros H. apply in_app_or in H. destruct H as [H|H]; [cbn in H; intuition discriminate|]. revert H. apply no_in_digits. digit_no. }
    rewrite !(app_assoc _ lv) in E. apply cut in E; [|intros H; apply in_app_or in H; tauto|intros H; apply in_app_or in H; tauto].
    destruct E as [ES E]. apply app_inv_tail in ES. apply app_inv_head in E.
    apply (tail_inj p q AP AQ _ _ I1 I2) in E. unfold same_but_loss. intuition.
  - rewrite S1 in E. apply app_inv_head in E. apply app_inv_head in E. apply app_inv_head in E.
    apply (tail_inj p q AP AQ _ _ I1 I2) in E. unfold same_but_loss. intuition.
Qed.
End Names.

(** ** dictionaries *)
Lemma sset_new : forall A (d : sdict A) k v, ~ In k (map fst d) -> sdict_set d k v = d ++ [(k, v)].
Proof.
  induction d as [|[k' v'] d IH]; intros k v H; auto. cbn [sdict_set app]. destruct (str_eq_dec k k') as [->|N].
  - exfalso. apply H. left. auto.
  - rewrite IH; auto. intros X. apply H. right. auto.
Qed.
Lemma sset_in : forall A (d : sdict A) k v, NoDup (map fst d) ->
  NoDup (map fst (sdict_set d k v)) /\ forall k' v', In (k', v') (sdict_set d k v) <-> (k' = k /\ v' = v) \/ (k' <> k /\ In (k', v') d).
Proof.
  induction d as [|[k0 v0] d IH]; intros k v ND.
  - cbn. split; [constructor; [intros []|constructor]|]. intros k' v'. split.
    + intros [E|[]]. left. split; congruence.
    + intros [[-> ->]|[_ []]]. auto.
  - cbn [map fst] in ND. apply NoDup_cons_iff in ND. destruct ND as [NI ND]. cbn [sdict_set]. destruct (str_eq_dec k k0) as [->|NK].
    + split; [cbn; constructor; auto|]. intros k' v'. cbn [In]. split.
      * intros [E|E]; [left; split; congruence|]. right. split; auto. intros ->. apply NI. apply (in_map fst) in E. auto.
      * intros [[-> ->]|[N [E|E]]]; auto. congruence.
    + destruct (IH k v ND) as [A0 B]. split.
      * cbn. constructor; auto. intros H. apply in_map_iff in H. destruct H as ([k1 v1]&E&H). cbn in E. subst k1. apply B in H. destruct H as [[-> _]|[_ H]]; [congruence|].
        apply NI. apply (in_map fst) in H. auto.
      * intros k' v'. cbn [In]. rewrite B. split.
        -- intros [E|[E|[N E]]]; auto. assert (k' = k0) by congruence. right. split; [congruence|auto].
        -- intros [E|[N [E|E]]]; auto.
Qed.

Definition sets {A} (l : list (str * A)) (d : sdict A) : sdict A := fold_left (fun d kv => sdict_set d (fst kv) (snd kv)) l d.
Lemma sets_nodup : forall A (l : list (str * A)) d, NoDup (map fst d) -> NoDup (map fst (sets l d)).
Proof. unfold sets. induction l as [|[k v] l IH]; intros d H; auto. cbn [fold_left]. apply IH. apply sset_in. auto. Qed.
Lemma sets_old : forall A (l : list (str * A)) d k v, NoDup (map fst d) -> ~ In k (map fst l) -> (In (k, v) (sets l d) <-> In (k, v) d).
Proof.
  unfold sets. induction l as [|[k0 v0] l IH]; intros d k v ND H; [cbn; tauto|]. cbn [fold_left fst snd].
  destruct (sset_in A d k0 v0 ND) as [N1 I1]. rewrite IH; auto; [|intros X; apply H; right; auto]. rewrite I1.
  assert (k <> k0) by (intros ->; apply H; left; auto). intuition.
Qed.
Lemma sets_split : forall A l1 l2 (k : str) (v : A) d, NoDup (map fst d) -> ~ In k (map fst l2) -> holds (sets (l1 ++ (k, v) :: l2) d) k v.
Proof.
  intros A l1 l2 k v d ND H v'. unfold sets. rewrite fold_left_app. cbn [fold_left fst snd]. fold (sets l1 d).
  destruct (sset_in A (sets l1 d) k v (sets_nodup _ _ _ ND)) as [N1 I1]. fold (sets l2 (sdict_set (sets l1 d) k v)). rewrite sets_old by auto. rewrite I1. tauto.
Qed.
Lemma sets_keys : forall A (l : list (str * A)) d k, In k (map fst (sets l d)) <-> In k (map fst l) \/ In k (map fst d).
Proof.
  unfold sets. induction l as [|[k0 v0] l IH]; intros d k; [cbn; tauto|]. cbn [fold_left fst snd map In]. rewrite IH.
  assert (X : In k (map fst (sdict_set d k0 v0)) <-> k0 = k \/ In k (map fst d)).
  { clear. induction d as [|[k1 v1] d IH]; [cbn; tauto|]. cbn [sdict_set]. destruct (str_eq_dec k0 k1) as [->|N]; cbn [map fst In]; [tauto|]. rewrite IH. tauto. }
  rewrite X. tauto.
Qed.
Lemma fold_two : forall A B (l : list (str * A * B)) d e,
  fold_left (fun ds (o : str * A * B) => (sdict_set (fst ds) (fst (fst o)) (snd (fst o)), sdict_set (snd ds) (fst (fst o)) (snd o))) l (d, e) =
  (sets (map fst l) d, sets (map (fun o => (fst (fst o), snd o)) l) e).
Proof. unfold sets. induction l as [|[[k a] b] l IH]; intros d e; auto. cbn [fold_left map fst snd]. rewrite IH. reflexivity. Qed.

(** ** the last job of a name *)
Definition splits {X} (key : X -> str) (l : list X) (x : X) : Prop := exists l1 l2, l = l1 ++ x :: l2 /\ forall y, In y l2 -> key y <> key x.
Lemma splits_one : forall B X (key : X -> str) (comp : X -> B) (f : B -> list X) (L : list B) b x,
  (forall c y, In c L -> In y (f c) -> comp y = c) -> (forall y c, In c L -> In y (f c) -> key y = key x -> comp y = comp x) -> NoDup L -> In b L -> comp x = b ->
  splits key (f b) x -> splits key (flat_map f L) x.
Proof.
  intros B X key comp f L b x HC HK ND HB CX (l1&l2&E&H). apply in_split in HB. destruct HB as (L1&L2&->).
  rewrite flat_map_app. cbn [flat_map]. rewrite E. exists (flat_map f L1 ++ l1), (l2 ++ flat_map f L2). split.
  - rewrite <- !app_assoc. reflexivity.
  - intros y Hy. apply in_app_or in Hy. destruct Hy as [Hy|Hy]; auto. intros EK. apply in_flat_map in Hy. destruct Hy as (c&Hc&Hy).
    assert (CC : In c (L1 ++ b :: L2)) by (apply in_or_app; right; right; auto).
    pose proof (HC c y CC Hy) as E1. pose proof (HK y c CC Hy EK) as E2.
    assert (CB : c = b) by congruence. rewrite CB in Hc. apply NoDup_remove_2 in ND. apply ND. apply in_or_app. right. auto.
Qed.
Lemma splits_last : forall B X (key : X -> str) (f : B -> list X) L b x, splits key (f b) x -> splits key (flat_map f (L ++ [b])) x.
Proof.
  intros B X key f L b x (l1&l2&E&H). rewrite flat_map_app. cbn [flat_map]. rewrite app_nil_r, E. exists (flat_map f L ++ l1), l2. split; auto. rewrite <- app_assoc. reflexivity.
Qed.
Lemma splits_map : forall B X (key : X -> str) (comp : X -> B) (f : B -> X) (L : list B) b, (forall c, comp (f c) = c) ->
  (forall c, In c L -> key (f c) = key (f b) -> c = b) -> NoDup L -> In b L -> splits key (map f L) (f b).
Proof.
  intros B X key comp f L b HC HK ND HB. apply in_split in HB. destruct HB as (L1&L2&->). rewrite map_app. cbn [map]. exists (map f L1), (map f L2). split; auto.
  intros y Hy EK. apply in_map_iff in Hy. destruct Hy as (c&<-&Hc). assert (c = b) by (apply HK; auto; apply in_or_app; right; right; auto).
  subst c. apply NoDup_remove_2 in ND. apply ND. apply in_or_app. right. auto.
Qed.
