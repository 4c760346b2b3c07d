(** L_Quantile: lemmas for C120. *)
From Verif Require Import Base TreeSpec Spec M_Tree M_Gamma M_Levels L_Base L_TreeModel L_Tree L_Gamma L_PropsTree L_Sgd L_Levels SpecQuantile.
From Coq Require Import Reals Lra Lia Sorting.Permutation Sorting.Sorted.
Local Open Scope R_scope.

(** ** sorting *)
Lemma insert_perm : forall (x : R) l, Permutation (x :: l) (insert_asc x l).
Proof.
  induction l as [|y l IH]; [reflexivity|]. cbn [insert_asc]. destruct (nltb y x); [|reflexivity].
  rewrite perm_swap. constructor. exact IH.
Qed.
Lemma sort_perm : forall l : list R, Permutation l (sort_asc l).
Proof. induction l as [|x l IH]; [constructor|]. unfold sort_asc. cbn [fold_right]. rewrite <- insert_perm. constructor. exact IH. Qed.
Lemma insert_sorted : forall (x : R) l, StronglySorted Rle l -> StronglySorted Rle (insert_asc x l).
Proof.
  induction l as [|y l IH]; intros H; cbn [insert_asc]; [repeat constructor|].
  inversion H as [|? ? H1 H2]; subst. rn. destruct (Rltb_spec y x) as [L|L].
  - constructor; auto. rewrite Forall_forall in *. intros z Hz. apply (Permutation_in _ (Permutation_sym (insert_perm x l))) in Hz.
    destruct Hz as [<-|Hz]; [lra|auto].
  - constructor; auto. constructor; [lra|]. rewrite Forall_forall in *. intros z Hz. specialize (H2 z Hz). lra.
Qed.
Lemma sort_sorted : forall l : list R, StronglySorted Rle (sort_asc l).
Proof. induction l as [|x l IH]; [constructor|]. unfold sort_asc. cbn [fold_right]. apply insert_sorted. exact IH. Qed.
Lemma sorted_nth : forall l : list R, StronglySorted Rle l -> forall i j, (i <= j < length l)%nat -> nth i l 0 <= nth j l 0.
Proof.
  induction 1 as [|x l H IH F]; intros i j Hij; cbn [length] in Hij; [lia|].
  destruct j as [|j]; [replace i with 0%nat by lia; lra|]. destruct i as [|i]; cbn [nth].
  - rewrite Forall_forall in F. apply F. apply nth_In. lia.
  - apply IH. lia.
Qed.

(** ** quantiles *)
Definition interp (s : list R) (k : nat) (pos : R) : R := nth k s 0 + (pos - INR k) * (nth (S k) s (nth k s 0) - nth k s 0).

Lemma quantile_zero : forall a : list R, quantiles 0 a = Err ValueError.
Proof. reflexivity. Qed.

Lemma quantile_val : forall n (a : list R), (0 < n)%nat -> a <> [] ->
  exists q, quantiles n a = Ok q /\ length q = S n /\ forall i, (i <= n)%nat ->
    let pos := INR i * (INR (length a) - 1) / INR n in
    exists k, (k < length (sort_asc a))%nat /\ INR k <= pos < INR (S k) /\ nth i q 0 = interp (sort_asc a) k pos.
Proof.
  intros n a Hn Ha. unfold quantiles. destruct n as [|n]; [lia|]. eexists. split; [reflexivity|].
  split; [rewrite map_length, seq_length; reflexivity|]. intros i Hi. set (pos := INR i * (INR (length a) - 1) / INR (S n)).
  rewrite nth_map_seq by lia. cbn [Nat.add].
  assert (LA : length (sort_asc a) = length a) by (symmetry; apply Permutation_length, sort_perm).
  rewrite LA. assert (LP : (0 < length a)%nat) by (destruct a; [congruence|cbn; lia]).
  set (N := (length a - 1)%nat). set (num := (i * N)%nat). set (k := (num / S n)%nat).
  assert (PN : 0 < INR (S n)) by (apply lt_0_INR; lia).
  assert (EP : pos = INR k + INR (num mod S n) / INR (S n)).
  { unfold pos. replace (INR (length a) - 1) with (INR N) by (unfold N; rewrite minus_INR by lia; reflexivity).
    rewrite <- mult_INR. fold num. pose proof (Nat.div_mod num (S n)) as DM. fold k in DM.
    rewrite DM at 1 by lia. rewrite plus_INR, mult_INR. field. lra. }
  assert (KB : (k <= N)%nat). { unfold k. apply Nat.div_le_upper_bound; [lia|]. unfold num. apply Nat.mul_le_mono_r. lia. }
  pose proof (Nat.mod_upper_bound num (S n)) as MU. specialize (MU ltac:(lia)).
  assert (FR : 0 <= INR (num mod S n) / INR (S n) < 1).
  { pose proof (pos_INR (num mod S n)) as P0. apply lt_INR in MU. split.
    - apply Rmult_le_pos; [lra|]. left. apply Rinv_0_lt_compat. lra.
    - apply Rmult_lt_reg_r with (INR (S n)); [lra|]. unfold Rdiv. rewrite Rmult_assoc, Rinv_l by lra. lra. }
  exists k. split; [unfold N in KB; lia|]. split; [rewrite EP, (S_INR k); lra|].
  unfold interp. change (@nof R _) with INR. change (@n0 R _) with 0. rn. rewrite EP.
  replace (INR k + INR (num mod S n) / INR (S n) - INR k) with (INR (num mod S n) / INR (S n)) by ring.
  f_equal. f_equal. f_equal. destruct (Nat.eq_dec k N) as [E|E].
  - replace (Nat.min (S k) N) with k by lia. symmetry. apply nth_overflow. rewrite LA. unfold N in E. lia.
  - replace (Nat.min (S k) N) with (S k) by lia. apply nth_indep. rewrite LA. unfold N in *. lia.
Qed.

Lemma p_quantiles : forall n (a : list R), (0 < n)%nat -> a <> [] -> exists q, quantiles n a = Ok q /\ is_quantiles n a q.
Proof.
  intros n a Hn Ha. destruct (quantile_val n a Hn Ha) as (q&E&L&V). exists q. split; auto. split; auto.
  intros i Hi. destruct (V i Hi) as (k&K1&K2&K3). exists (sort_asc a), k.
  split; [apply sort_perm|]. split; [apply sort_sorted|]. split; auto.
Qed.

(** a list has only one increasing order *)
Lemma sorted_perm_eq : forall l m : list R, StronglySorted Rle l -> StronglySorted Rle m -> Permutation l m -> l = m.
Proof.
  induction l as [|x l IH]; intros m Hl Hm P; [symmetry; apply Permutation_nil; auto|].
  destruct m as [|y m]; [apply Permutation_sym, Permutation_nil in P; discriminate|].
  inversion Hl as [|? ? Hl1 Hl2]; inversion Hm as [|? ? Hm1 Hm2]; subst. rewrite Forall_forall in Hl2, Hm2.
  assert (E : x = y).
  { assert (I1 : In x (y :: m)) by (apply (Permutation_in _ P); left; auto).
    assert (I2 : In y (x :: l)) by (apply (Permutation_in _ (Permutation_sym P)); left; auto).
    destruct I1 as [I1|I1]; auto. destruct I2 as [I2|I2]; auto. specialize (Hl2 _ I2). specialize (Hm2 _ I1). lra. }
  subst y. f_equal. apply IH; auto. apply Permutation_cons_inv in P. exact P.
Qed.
Lemma interp_mono : forall s, StronglySorted Rle s -> forall k k' p p', (k < length s)%nat -> (k' < length s)%nat ->
  INR k <= p < INR (S k) -> INR k' <= p' < INR (S k') -> p <= p' -> interp s k p <= interp s k' p'.
Proof.
  intros s SS k k' p p' Hk Hk' Hp Hp' L. unfold interp.
  assert (UP : forall k, (k < length s)%nat -> nth k s 0 <= nth (S k) s (nth k s 0)).
  { intros j Hj. destruct (Nat.lt_ge_cases (S j) (length s)) as [B|B]; [|rewrite (nth_overflow s (nth j s 0) B); lra].
    rewrite (nth_indep s _ 0 B). apply sorted_nth; auto; lia. }
  pose proof (UP k Hk) as U. pose proof (UP k' Hk') as U'. rewrite S_INR in *.
  destruct (Nat.eq_dec k k') as [->|NE]; [nra|].
  assert (KK : (k < k')%nat). { destruct (Nat.lt_ge_cases k k') as [|GE]; auto. exfalso. assert (GT : (k' < k)%nat) by lia. apply le_INR in GT. rewrite S_INR in GT. lra. }
  assert (M : nth (S k) s (nth k s 0) <= nth k' s 0). { rewrite (nth_indep s _ 0) by lia. apply sorted_nth; auto; lia. }
  nra.
Qed.
Lemma value_mono : forall a p p' x x', value_at a p x -> value_at a p' x' -> p <= p' -> x <= x'.
Proof.
  intros a p p' x x' (s&k&P&SS&K&KP&->) (s'&k'&P'&SS'&K'&KP'&->) L.
  assert (s = s') by (apply sorted_perm_eq; auto; exact (Permutation_trans (Permutation_sym P) P')). subst s'.
  apply (interp_mono s SS k k' p p'); auto.
Qed.
Lemma value_unique : forall a p x x', value_at a p x -> value_at a p x' -> x = x'.
Proof. intros a p x x' H H'. apply Rle_antisym; eapply value_mono; eauto; lra. Qed.
Lemma value_first : forall a x, value_at a 0 x -> In x a /\ forall y, In y a -> x <= y.
Proof.
  intros a x (s&k&P&SS&K&KP&->). assert (k = 0%nat) by (destruct k; auto; rewrite S_INR in KP; pose proof (pos_INR k); lra). subst k.
  cbn [INR]. replace (0 - 0) with 0 by ring. rewrite Rmult_0_l, Rplus_0_r. split.
  - apply (Permutation_in _ (Permutation_sym P)). apply nth_In. auto.
  - intros y Hy. apply (Permutation_in _ P) in Hy. apply (In_nth _ _ 0) in Hy. destruct Hy as (j&Hj&<-). apply sorted_nth; auto; lia.
Qed.
Lemma value_last : forall a x, value_at a (INR (length a) - 1) x -> In x a /\ forall y, In y a -> y <= x.
Proof.
  intros a x (s&k&P&SS&K&KP&->). pose proof (Permutation_length P) as LP.
  assert (E : S k = length s).
  { destruct (Nat.lt_ge_cases (S k) (length s)) as [B|B]; [|lia]. exfalso. apply le_INR in B. rewrite LP in KP. rewrite !S_INR in *. lra. }
  rewrite LP, <- E, S_INR. replace (INR k + 1 - 1 - INR k) with 0 by ring. rewrite Rmult_0_l, Rplus_0_r. split.
  - apply (Permutation_in _ (Permutation_sym P)). apply nth_In. auto.
  - intros y Hy. apply (Permutation_in _ P) in Hy. apply (In_nth _ _ 0) in Hy. destruct Hy as (j&Hj&<-). apply sorted_nth; auto; lia.
Qed.
Lemma quantiles_facts : forall n a q, (0 < n)%nat -> is_quantiles n a q ->
  (In (nth 0 q 0) a /\ forall y, In y a -> nth 0 q 0 <= y) /\
  (In (nth n q 0) a /\ forall y, In y a -> y <= nth n q 0) /\
  (forall i j, (i <= j <= n)%nat -> nth i q 0 <= nth j q 0) /\
  forall q', is_quantiles n a q' -> q' = q.
Proof.
  intros n a q Hn (L&V). assert (PN : 0 < INR n) by (apply lt_0_INR; lia).
  split; [|split; [|split]].
  - apply value_first. replace 0 with (INR 0 * (INR (length a) - 1) / INR n) at 1 by (cbn [INR]; field; lra). apply V. lia.
  - apply value_last. replace (INR (length a) - 1) with (INR n * (INR (length a) - 1) / INR n) at 1 by (field; lra). apply V. lia.
  - intros i j Hij. eapply value_mono; [apply V; lia|apply V; lia|].
    assert (LA : 0 <= INR (length a) - 1).
    { destruct (V 0%nat ltac:(lia)) as (s&k&P&_&K&_). pose proof (Permutation_length P) as LP. rewrite LP. destruct (length s) as [|m]; [lia|]. rewrite S_INR. pose proof (pos_INR m). lra. }
    assert (IJ : INR i <= INR j) by (apply le_INR; lia). unfold Rdiv. apply Rmult_le_compat_r; [left; apply Rinv_0_lt_compat; auto|]. nra.
  - intros q' (L'&V'). apply nth_ext with (d := 0) (d' := 0); [lia|]. intros i Hi. eapply value_unique; [apply V'|apply V]; lia.
Qed.
Lemma is_quantiles_model : forall n (a q : list R), (0 < n)%nat -> a <> [] -> (quantiles n a = Ok q <-> is_quantiles n a q).
Proof.
  intros n a q Hn Ha. destruct (p_quantiles n a Hn Ha) as (q0&E&I0). split.
  - intros H. assert (q = q0) by congruence. subst; auto.
  - intros H. rewrite E. f_equal. eapply (quantiles_facts n a q Hn H). auto.
Qed.

(** ** bins *)
Lemma upper_zero_half : forall (vals : list R),
  (forall u, upper_zero vals = Ok u -> half_smallest vals u) /\
  ((exists x, In x vals /\ 0 < x) -> exists u, upper_zero vals = Ok u) /\
  ((forall x, In x vals -> x <= 0) -> upper_zero vals = Err ValueError).
Proof.
  intros vals. unfold upper_zero. split; [|split].
  - intros u H. apply bind_ok in H. destruct H as (m&Hm&H).
    assert (SP : In m (filter (fun x => nltb n0 x) vals) /\ forall x, In x (filter (fun x => nltb n0 x) vals) -> m <= x).
    { destruct (filter (fun x => nltb n0 x) vals) as [|a l]; [discriminate|]. cbn [nminimum] in Hm. inversion Hm; subst m. clear.
      revert a. induction l as [|b l IH]; intros a; cbn [fold_left].
      - split; [left; auto|]. intros x [->|[]]; lra.
      - destruct (IH (nmin a b)) as [I1 I2]. assert (MN : nmin a b <= a /\ nmin a b <= b /\ (nmin a b = a \/ nmin a b = b)).
        { unfold nmin. rn. destruct (Rltb_spec b a); repeat split; auto; lra. }
        destruct MN as (M1&M2&M3). split.
        + destruct I1 as [E|E]; [|right; right; auto]. rewrite <- E. destruct M3 as [->| ->]; [left|right; left]; auto.
        + intros x [->|[->|Hx]].
          * specialize (I2 (nmin x b) (or_introl eq_refl)). lra.
          * specialize (I2 (nmin a x) (or_introl eq_refl)). lra.
          * apply I2. right; auto. }
    destruct SP as [S1 S2]. apply filter_In in S1. destruct S1 as [S0 S1]. revert S1. rn. intros S1.
    destruct (Rltb_spec 0 m) as [MP|]; [|discriminate]. exists m. split; auto. split; auto. split.
    + intros x Hx Px. apply S2. apply filter_In. split; auto. rn. apply Rltb_true; auto.
    + inversion H; subst u. unfold nmin, Rmin. rn. destruct (Rltb_spec (1 + 1) m), (Rle_dec m 2); try lra; f_equal; lra.
  - intros (x&Hx&Px). assert (I1 : In x (filter (fun x => nltb n0 x) vals)) by (apply filter_In; split; auto; rn; apply Rltb_true; auto).
    destruct (filter (fun x => nltb n0 x) vals); [destruct I1|]. cbn [nminimum bind]. eauto.
  - intros H. assert (E : filter (fun x : R => nltb n0 x) vals = []).
    { clear -H. induction vals as [|x l IH]; auto. cbn [filter]. rn. rewrite Rltb_false by (apply H; left; auto). apply IH. intros y Hy. apply H. right. auto. }
    rewrite E. reflexivity.
Qed.

Lemma upd_end : forall {A} (l : list A) x y, upd (l ++ [x]) (length l) y = l ++ [y].
Proof. induction l; intros; cbn; auto. rewrite IHl. reflexivity. Qed.

Lemma open_form : forall br : list R, (forall x, In x br -> 0 <= x) ->
  ((exists x, In x br /\ 0 < x) -> exists l M, open_breaks br = NInf :: map Fin l ++ [PInf] /\ StronglySorted Rlt (l ++ [M]) /\
     forall x, In x (l ++ [M]) <-> In x br /\ 0 < x) /\
  ((forall x, In x br -> x <= 0) -> open_breaks br = [NInf]).
Proof.
  intros br H. destruct (sorted_set_zero br H) as (l&E&P). pose proof (sorted_set_sorted (br ++ [n0])) as SS. rewrite E in SS.
  assert (IN : forall x, In x l <-> In x br /\ 0 < x).
  { intros x. pose proof (sorted_set_in (br ++ [n0]) x) as I0. rewrite E in I0. rewrite in_app_iff in I0. cbn [In] in I0. change (@n0 R _) with 0 in I0.
    inversion SS as [|? ? _ F]; subst. rewrite Forall_forall in F. split.
    - intros Hx. split; [|auto]. destruct (proj1 I0 (or_intror Hx)) as [|[Z|[]]]; auto. specialize (P x Hx). lra.
    - intros (Hx&Px). destruct (proj2 I0 (or_introl Hx)) as [Z|]; auto. lra. }
  unfold open_breaks. rewrite E. split.
  - intros (x&Hx&Px). assert (NE : l <> []) by (intros ->; destruct (proj2 (IN x) (conj Hx Px))).
    destruct (exists_last NE) as (l0&M&->). exists l0, M. split; [|split; auto].
    + cbn [map length]. rewrite map_app. cbn [map]. rewrite app_length, map_length. cbn [length].
      replace (S (length l0 + 1) - 1)%nat with (S (length l0)) by lia. cbn [upd].
      rewrite <- (map_length (@Fin R) l0), upd_end. reflexivity.
    + inversion SS; auto.
  - intros Z. destruct l as [|x l]; [reflexivity|]. destruct (proj1 (IN x) (or_introl eq_refl)) as (A&B). specialize (Z x A). lra.
Qed.

Lemma find_zero_none : forall (l : list R) k, (forall x, In x l -> 0 < x) -> find_zero (map Fin l ++ [PInf]) k = None.
Proof.
  induction l as [|x l IH]; intros k P; [reflexivity|]. cbn [map app find_zero is_zero]. rn.
  rewrite Reqb_false by (pose proof (P x (or_introl eq_refl)); lra). apply IH. intros y Hy. apply P. right. auto.
Qed.

Lemma sorted_app_last : forall (l : list R) M, StronglySorted Rlt (l ++ [M]) -> StronglySorted Rlt l /\ forall x, In x l -> x < M.
Proof.
  induction l as [|a l IH]; intros M H; [split; [constructor|intros x []]|]. inversion H as [|? ? H1 H2]; subst.
  destruct (IH M H1) as (A&B). rewrite Forall_forall in H2. split.
  - constructor; auto. rewrite Forall_forall. intros x Hx. apply H2. apply in_or_app. auto.
  - intros x [<-|Hx]; auto. apply H2. apply in_or_app. right. left. auto.
Qed.

Lemma final_form : forall (br : list R) u, (forall x, In x br -> 0 <= x) -> 0 < u ->
  ((exists x, In x br /\ 0 < x) -> exists edges, final_breaks br u = Ok (NInf :: map Fin edges ++ [PInf]) /\ bin_edges br u edges) /\
  ((forall x, In x br -> x <= 0) -> final_breaks br u = Err IndexError).
Proof.
  intros br u H PU. destruct (open_form br H) as (O1&O2). split.
  - intros X. destruct (O1 X) as (l&M&E&SS&IN). destruct (sorted_app_last l M SS) as (SL&LM).
    assert (LI : forall x, In x l <-> inner br x).
    { intros x. split.
      - intros Hx. destruct (proj1 (IN x) (in_or_app _ _ _ (or_introl Hx))) as (A&B). split; auto. split; auto.
        exists M. split; [apply IN, in_or_app; right; left; auto|]. apply LM; auto.
      - intros (A&B&y&Hy&L). assert (I1 : In x (l ++ [M])) by (apply IN; auto). apply in_app_or in I1. destruct I1 as [|[<-|[]]]; auto.
        exfalso. assert (I2 : In y (l ++ [M])) by (apply IN; split; auto; lra). apply in_app_or in I2. destruct I2 as [I2|[<-|[]]]; [|lra]. specialize (LM _ I2). lra. }
    assert (PL : forall x, In x l -> 0 < x) by (intros x Hx; apply LI in Hx; apply Hx).
    unfold final_breaks. rewrite E. unfold which_zero. cbn [find_zero is_zero]. rewrite find_zero_none by auto.
    destruct l as [|x l]; cbn [map app nth_error ext_ltb firstn skipn].
    + exists [u]. split; [reflexivity|]. split; [repeat constructor|]. intros z. cbn [In]. split.
      * intros [<-|[]]. right. split; auto. intros z Hz. apply LI in Hz. destruct Hz.
      * intros [Hz|(->&_)]; auto. apply LI in Hz. destruct Hz.
    + rn. destruct (Rltb_spec u x) as [L|L].
      * exists (u :: x :: l). split; [reflexivity|].
        assert (UL : forall z, In z (x :: l) -> u < z).
        { inversion SL as [|? ? _ F]; subst. rewrite Forall_forall in F. intros z [<-|Hz]; auto. specialize (F z Hz). lra. }
        split; [constructor; auto; rewrite Forall_forall; auto|]. intros z. split.
        -- intros [<-|Hz]; [right; split; auto; intros w Hw; apply UL, LI, Hw|left; apply LI, Hz].
        -- intros [Hz|(->&_)]; [right; apply LI; auto|left; auto].
      * exists (x :: l). split; [reflexivity|]. split; auto. intros z. split; [intros Hz; left; apply LI, Hz|].
        intros [Hz|(->&Z)]; [apply LI; auto|]. exfalso. specialize (Z x (proj1 (LI x) (or_introl eq_refl))). lra.
  - intros Z. unfold final_breaks. rewrite (O2 Z). reflexivity.
Qed.

Lemma label_bin : forall edges x, StronglySorted Rlt edges ->
  exists k, cut_label (NInf :: map Fin edges ++ [PInf]) x = Z.of_nat k /\ bin_of edges x k.
Proof.
  intros edges x SS.
  assert (E : cut_label (NInf :: map Fin edges ++ [PInf]) x = Z.of_nat (length (filter (fun e => Rltb e x) edges))).
  { unfold cut_label. cbn [filter ext_ltb length]. rewrite filter_app, app_length. cbn [filter ext_ltb length].
    assert (F : length (filter (fun b => ext_ltb b (Fin x)) (map Fin edges)) = length (filter (fun e => Rltb e x) edges)).
    { clear. induction edges as [|a l IH]; auto. cbn [map filter ext_ltb]. rn. destruct (Rltb a x); cbn [length]; rewrite IH; auto. }
    rewrite F. lia. }
  exists (length (filter (fun e => Rltb e x) edges)). split; auto. clear E.
  induction SS as [|a l SS IH F]; [split; [cbn; lia|split; cbn; intros; lia]|].
  unfold bin_of in *. rewrite Forall_forall in F. cbn [filter]. destruct (Rltb_spec a x) as [L|L].
  - destruct IH as (A&B&C). cbn [length]. split; [lia|]. split.
    + intros [|m] Hm; [exact L|]. cbn [nth]. apply B. lia.
    + intros [|m] Hm; [lia|]. cbn [nth]. apply C. lia.
  - assert (Z : filter (fun e => Rltb e x) l = []).
    { clear -F L. induction l as [|b l IH]; auto. cbn [filter]. rewrite Rltb_false; [apply IH; intros; apply F; right; auto|].
      specialize (F b (or_introl eq_refl)). lra. }
    rewrite Z. cbn [length]. split; [lia|]. split; [intros; lia|].
    intros [|m] Hm; cbn [nth]; [lra|]. assert (I1 : In (nth m l 0) l) by (apply nth_In; lia). specialize (F _ I1). lra.
Qed.

(** ** levels of a tree *)
Lemma concat_ne : forall (t : tree R) s Dm m, wf_tree t -> impurity_dist_leaves s t = Ok (Dm, m) -> concat Dm <> [] /\ In 0 (concat Dm).
Proof.
  intros t s Dm m WF E. destruct (p_C06 t s WF) as (Dm'&m'&ED'&LD&LR&_&DI&_). assert (Dm' = Dm) by congruence. subst Dm'.
  pose proof (n_leaves_pos t WF) as LP.
  assert (I0 : In 0 (concat Dm)). { rewrite <- (DI 0%nat LP) at 1. apply in_mat_concat; [lia|rewrite LR; auto]. }
  split; auto. intros Z. rewrite Z in I0. destruct I0.
Qed.

Lemma p_C120_outcome : forall s (br : list R) (t : tree R) Dm m, wf_tree t -> impurity_dist_leaves s t = Ok (Dm, m) -> (forall x, In x br -> 0 <= x) ->
  ((forall x, In x (concat Dm) -> x <= 0) -> impurity_levels s (LArr br) t = Err ValueError) /\
  ((exists x, In x (concat Dm) /\ 0 < x) -> (forall x, In x br -> x <= 0) -> impurity_levels s (LArr br) t = Err IndexError) /\
  ((exists x, In x (concat Dm) /\ 0 < x) -> (exists x, In x br /\ 0 < x) -> exists D e, impurity_levels s (LArr br) t = Ok (D, e) /\ binned br Dm D e).
Proof.
  intros s br t Dm m WF E NN. unfold impurity_levels.
  assert (ES : style_num s (standard_impurity t) = Dm).
  { unfold impurity_dist_leaves in E. apply bind_ok in E. destruct E as (m'&_&E). inversion E; auto. }
  rewrite ES. unfold discretise. cbn [bind]. destruct (upper_zero_half (concat Dm)) as (U1&U2&U3).
  split; [intros Z; rewrite (U3 Z); reflexivity|].
  assert (PU : forall u, upper_zero (concat Dm) = Ok u -> 0 < u) by (intros u Hu; apply (upper_zero_pos _ _ Hu)).
  split.
  - intros X Z. destruct (U2 X) as (u&EU). rewrite EU. cbn [bind]. destruct (final_form br u NN (PU u EU)) as (_&F2). rewrite (F2 Z). reflexivity.
  - intros X Y. destruct (U2 X) as (u&EU). rewrite EU. cbn [bind]. destruct (final_form br u NN (PU u EU)) as (F1&_).
    destruct (F1 Y) as (edges&FE&BE). rewrite FE. cbn [bind]. eexists. eexists. split; [reflexivity|].
    exists u, edges. split; [apply U1; auto|]. split; auto. split; [cbn [length]; rewrite app_length, map_length; cbn [length]; lia|].
    split; [apply map_length|]. intros i j Hi Hj. rewrite nth_map_in with (d := []) by auto. rewrite nth_map_in with (d := 0) by auto.
    apply label_bin. apply BE.
Qed.

Lemma dist_matrix : forall s (t : tree R), wf_tree t -> exists m, impurity_dist_leaves s t = Ok (style_num s (standard_impurity t), m).
Proof.
  intros s t WF. destruct (p_C06 t s WF) as (Dm&m&E&_). exists m. rewrite E. f_equal. f_equal.
  unfold impurity_dist_leaves in E. apply bind_ok in E. destruct E as (m'&_&E). inversion E; auto.
Qed.

Lemma p_C120_int : forall s n (t : tree R) Dm m, wf_tree t -> impurity_dist_leaves s t = Ok (Dm, m) ->
  impurity_levels s (LInt 0) t = Err ValueError /\
  ((0 < n)%nat -> exists br, is_quantiles n (concat Dm) br /\ impurity_levels s (LInt n) t = impurity_levels s (LArr br) t).
Proof.
  intros s n t Dm m WF E. split; [reflexivity|]. intros Hn.
  assert (ES : style_num s (standard_impurity t) = Dm).
  { unfold impurity_dist_leaves in E. apply bind_ok in E. destruct E as (m'&_&E). inversion E; auto. }
  destruct (p_quantiles n (concat Dm) Hn) as (q&Q1&Q2); [eapply concat_ne; eauto|]. exists q. split; auto.
  unfold impurity_levels, discretise. rewrite ES, Q1. reflexivity.
Qed.

Lemma p_C120_forest : forall kd s n (ts : list (tree R)) Dms, Forall (@wf_tree R) ts -> ts <> [] -> distances s (firstn 5 ts) Dms ->
  create_Gamma_eta_forest_imp kd s (LInt 0) ts = Err ValueError /\
  ((0 < n)%nat -> exists br, is_quantiles n (concat (map (@concat R) Dms)) br /\
     create_Gamma_eta_forest_imp kd s (LInt n) ts = create_Gamma_eta_forest_imp kd s (LArr br) ts).
Proof.
  intros kd s n ts Dms W NE DS. split; [reflexivity|]. intros Hn.
  assert (EF : flat_map (fun t => concat (style_num s (standard_impurity t))) (firstn 5 ts) = concat (map (@concat R) Dms)).
  { clear - DS. induction DS as [|t Dm l Dms H DS IH]; auto. cbn [flat_map map concat]. rewrite IH. f_equal. f_equal.
    destruct H as (m&E). unfold impurity_dist_leaves in E. apply bind_ok in E. destruct E as (m'&_&E). inversion E; auto. }
  assert (NC : concat (map (@concat R) Dms) <> []).
  { destruct ts as [|t ts]; [congruence|]. inversion DS as [|? Dm ? ? H]; subst. destruct H as (m&E). cbn [map concat]. inversion W; subst.
    destruct (concat_ne t s Dm m) as (A&_); auto. intros Z. apply app_eq_nil in Z. destruct Z. contradiction. }
  destruct (p_quantiles n _ Hn NC) as (q&Q1&Q2). exists q. split; auto.
  unfold create_Gamma_eta_forest_imp, quantiles_distance_trees. rewrite EF, Q1. reflexivity.
Qed.
Lemma level_array_quantiles : forall s n (ts : list (tree R)) Dms arr, Forall (@wf_tree R) ts -> ts <> [] -> distances s (firstn 5 ts) Dms -> (0 < n)%nat ->
  quantiles_distance_trees s (firstn 5 ts) n = Ok arr <-> is_quantiles n (concat (map (@concat R) Dms)) arr.
Proof.
  intros s n ts Dms arr W NE DS Hn.
  assert (EF : flat_map (fun t => concat (style_num s (standard_impurity t))) (firstn 5 ts) = concat (map (@concat R) Dms)).
  { clear - DS. induction DS as [|t Dm l Dms H DS IH]; auto. cbn [flat_map map concat]. rewrite IH. f_equal. f_equal.
    destruct H as (m&E). unfold impurity_dist_leaves in E. apply bind_ok in E. destruct E as (m'&_&E). inversion E; auto. }
  assert (NC : concat (map (@concat R) Dms) <> []).
  { destruct ts as [|t ts]; [congruence|]. inversion DS as [|? Dm ? ? H]; subst. destruct H as (m&E). cbn [map concat]. inversion W; subst.
    destruct (concat_ne t s Dm m) as (A&_); auto. intros Z. apply app_eq_nil in Z. destruct Z. contradiction. }
  unfold quantiles_distance_trees. rewrite EF. apply is_quantiles_model; auto.
Qed.

(** ** the same distance in two trees *)
Lemma sorted_lt_nodup : forall l : list R, StronglySorted Rlt l -> NoDup l.
Proof. induction 1 as [|a l H IH F]; constructor; auto. rewrite Forall_forall in F. intros C. specialize (F a C). lra. Qed.
Lemma bin_close : forall br u1 u2 e1 e2 x k1 k2, bin_edges br u1 e1 -> bin_edges br u2 e2 -> bin_of e1 x k1 -> bin_of e2 x k2 -> (k1 <= S k2)%nat.
Proof.
  intros br u1 u2 e1 e2 x k1 k2 (S1&I1) (S2&I2) (A1&B1&_) (A2&B2&C2).
  assert (L1 : length (firstn k1 e1) = k1) by (rewrite firstn_length; lia).
  assert (L2 : length (firstn k2 e2) = k2) by (rewrite firstn_length; lia).
  assert (N : NoDup (firstn k1 e1)).
  { pose proof (sorted_lt_nodup e1 S1) as ND. rewrite <- (firstn_skipn k1 e1) in ND. clear -ND. revert ND. generalize (firstn k1 e1) (skipn k1 e1).
    induction l as [|a l IH]; intros m H; [constructor|]. cbn [app] in H. inversion H; subst. constructor; [|eapply IH; eauto].
    intros C. apply H2. apply in_or_app. auto. }
  assert (INC : incl (firstn k1 e1) (u1 :: firstn k2 e2)).
  { intros z Hz. apply (In_nth _ _ 0) in Hz. destruct Hz as (j&Hj&Ej).
    assert (Z0 : nth j e1 0 = z). { rewrite <- Ej. rewrite <- (firstn_skipn k1 e1) at 1. apply app_nth1. auto. }
    assert (ZX : z < x) by (rewrite <- Z0; apply B1; lia).
    assert (IZ : In z e1) by (rewrite <- Z0; apply nth_In; lia). apply I1 in IZ. destruct IZ as [IZ|(->&_)]; [|left; auto].
    right. assert (J2 : In z e2) by (apply I2; auto). apply (In_nth _ _ 0) in J2. destruct J2 as (m&Hm&Em).
    destruct (Nat.lt_ge_cases m k2) as [LT|GE]; [|specialize (C2 m (conj GE Hm)); lra].
    rewrite <- Em. replace (nth m e2 0) with (nth m (firstn k2 e2) 0); [apply nth_In; lia|].
    rewrite <- (firstn_skipn k2 e2) at 2. symmetry. apply app_nth1. lia. }
  pose proof (NoDup_incl_length N INC) as LE. cbn [length] in LE. lia.
Qed.
Lemma p_C120_close : forall br Dm1 Dm2 D1 D2 e1 e2 i1 j1 i2 j2, binned br Dm1 D1 e1 -> binned br Dm2 D2 e2 ->
  (i1 < length Dm1)%nat -> (j1 < length (nth i1 Dm1 []))%nat -> (i2 < length Dm2)%nat -> (j2 < length (nth i2 Dm2 []))%nat ->
  nth j1 (nth i1 Dm1 []) 0 = nth j2 (nth i2 Dm2 []) 0 -> (Z.abs (nth j1 (nth i1 D1 []) 0%Z - nth j2 (nth i2 D2 []) 0%Z) <= 1)%Z.
Proof.
  intros br Dm1 Dm2 D1 D2 e1 e2 i1 j1 i2 j2 (u1&g1&_&G1&_&_&V1) (u2&g2&_&G2&_&_&V2) A B C D E.
  destruct (V1 i1 j1 A B) as (k1&->&K1). destruct (V2 i2 j2 C D) as (k2&->&K2). rewrite E in K1.
  pose proof (bin_close _ _ _ _ _ _ _ _ G1 G2 K1 K2). pose proof (bin_close _ _ _ _ _ _ _ _ G2 G1 K2 K1). lia.
Qed.

(** ** quantiles of the tree itself, impurities that do not grow *)
Lemma quantiles_sign : forall n a q, (0 < n)%nat -> is_quantiles n a q -> (forall x, In x a -> 0 <= x) ->
  (forall x, In x q -> 0 <= x) /\ ((exists x, In x a /\ 0 < x) -> exists x, In x q /\ 0 < x).
Proof.
  intros n a q Hn Q NN. destruct (quantiles_facts n a q Hn Q) as ((F1&F2)&(L1&L2)&M&_). destruct Q as (LQ&_). split.
  - intros x Hx. apply (In_nth _ _ 0) in Hx. destruct Hx as (i&Hi&<-). specialize (M 0%nat i ltac:(lia)). specialize (NN _ F1). lra.
  - intros (x&Hx&Px). exists (nth n q 0). split; [apply nth_In; lia|]. specialize (L2 x Hx). lra.
Qed.
Lemma p_C120_own : forall s n (t : tree R) Dm m, wf_tree t -> imp_decreasing t -> (0 < n)%nat -> impurity_dist_leaves s t = Ok (Dm, m) ->
  ((forall x, In x (concat Dm) -> x = 0) -> impurity_levels s (LInt n) t = Err ValueError) /\
  (~ (forall x, In x (concat Dm) -> x = 0) -> exists br D e, is_quantiles n (concat Dm) br /\ impurity_levels s (LInt n) t = Ok (D, e) /\ binned br Dm D e).
Proof.
  intros s n t Dm m WF ID Hn E. destruct (p_C120_int s n t Dm m WF E) as (_&H). destruct (H Hn) as (br&Q&EQ). rewrite EQ.
  assert (NN : forall x, In x (concat Dm) -> 0 <= x).
  { intros x Hx. destruct (p_C06 t s WF) as (Dm'&m'&ED'&LD&LR&_). assert (Dm' = Dm) by congruence. subst Dm'.
    destruct (in_concat_mat _ 0 _ Hx) as (i&j&Hi&Hj&->). rewrite LD in Hi. rewrite LR in Hj by auto. apply (imp_dist_nonneg s t Dm m WF ID E); auto. }
  destruct (quantiles_sign n (concat Dm) br Hn Q NN) as (Q1&Q2).
  destruct (p_C120_outcome s br t Dm m WF E Q1) as (O1&_&O3). split.
  - intros Z. apply O1. intros x Hx. rewrite (Z x Hx). lra.
  - intros NZ. assert (X : exists x, In x (concat Dm) /\ 0 < x).
    { clear -NN NZ. revert NN NZ. generalize (concat Dm). intros l NN NZ.
      destruct (Exists_dec (fun x => 0 < x) l (fun x => Rlt_dec 0 x)) as [Y|N].
      - apply Exists_exists in Y. exact Y.
      - exfalso. apply NZ. intros x Hx. specialize (NN x Hx). destruct (Rlt_dec 0 x); [|lra]. exfalso. apply N. apply Exists_exists. eauto. }
    destruct (O3 X (Q2 X)) as (D&e&A&B). exists br, D, e. auto.
Qed.
Lemma p_C120_single : forall s n (t : tree R), wf_tree t -> n_leaves t = 1%nat -> impurity_levels s (LInt n) t = Err ValueError.
Proof.
  intros s n t WF N1. destruct n as [|n]; [reflexivity|].
  destruct (p_C06 t s WF) as (Dm&m&E&LD&LR&_&DI&_). destruct (p_C120_int s (S n) t Dm m WF E) as (_&H). destruct (H ltac:(lia)) as (br&Q&->).
  assert (Z : forall x, In x (concat Dm) -> x = 0).
  { intros x Hx. destruct (in_concat_mat _ 0 _ Hx) as (i&j&Hi&Hj&->). rewrite LD in Hi. rewrite LR in Hj by auto. rewrite N1 in *.
    replace i with 0%nat by lia. replace j with 0%nat by lia. apply DI. lia. }
  destruct (quantiles_sign (S n) (concat Dm) br ltac:(lia) Q) as (Q1&_); [intros x Hx; rewrite (Z x Hx); lra|].
  apply (p_C120_outcome s br t Dm m WF E Q1). intros x Hx. rewrite (Z x Hx). lra.
Qed.
