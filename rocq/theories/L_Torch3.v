(** L_Torch3: losses of the torch smoother. *)
From Verif Require Import Base TreeSpec Spec SpecTorch M_Gamma M_Torch M_Pytorch L_Base L_Gamma L_Gamma2 L_Smooth L_Smooth4 L_Tune L_Torch L_Torch2.
From Coq Require Import Reals Lra Lia.
Local Open Scope R_scope.

(** ** softmax and ratio *)

Lemma sumto_pos : forall n f, (0 < n)%nat -> (forall i, (i < n)%nat -> 0 < f i) -> 0 < sumto n f.
Proof.
  intros n f Hn H. destruct n; [lia|]. cbn [sumto]. pose proof (H n ltac:(lia)).
  assert (0 <= sumto n f) by (apply sumto_nonneg; intros i Hi; apply Rlt_le, H; lia). lra.
Qed.

Lemma soft_pos : forall K s k, (0 < K)%nat -> 0 < soft K s k.
Proof.
  intros K s k HK. unfold soft. apply Rdiv_lt_0_compat; [apply exp_pos|]. apply sumto_pos; auto. intros; apply exp_pos.
Qed.

Lemma soft_sum : forall K s, (0 < K)%nat -> sumto K (soft K s) = 1.
Proof.
  intros K s HK. unfold soft.
  assert (P : 0 < sumto K (fun l => exp (s l))) by (apply sumto_pos; auto; intros; apply exp_pos).
  rewrite (sumto_ext K _ (fun k => exp (s k) * / sumto K (fun l => exp (s l)))) by (intros; reflexivity).
  rewrite sumto_scal_r. apply Rinv_r. lra.
Qed.

Lemma soft_order : forall K s k k', (0 < K)%nat -> s k < s k' -> soft K s k < soft K s k'.
Proof.
  intros K s k k' HK H. unfold soft. apply Rmult_lt_compat_r; [|apply exp_increasing; auto].
  apply Rinv_0_lt_compat, sumto_pos; auto. intros; apply exp_pos.
Qed.

Lemma ratio_range : forall K G E lam lo hi, (0 < K)%nat -> (forall k, (k < K)%nat -> 0 < lam k) ->
  (forall k, (k < K)%nat -> 0 <= nth k E 0 /\ lo * nth k E 0 <= nth k G 0 <= hi * nth k E 0) ->
  (exists k, (k < K)%nat /\ 0 < nth k E 0) -> lo <= ratio K G E lam <= hi.
Proof.
  intros K G E la lo hi HK HL H (k0&Hk0&P0). unfold ratio.
  set (D := sumto K (fun k => nth k E 0 * la k)).
  assert (DP : 0 < D).
  { assert (0 < nth k0 E 0 * la k0) by (apply Rmult_lt_0_compat; auto).
    assert (nth k0 E 0 * la k0 <= D); [|lra]. unfold D. apply (sumto_elem_le K (fun k => nth k E 0 * la k)); auto.
    intros i Hi. apply Rmult_le_pos; [apply H|apply Rlt_le, HL]; auto. }
  assert (A : lo * D <= sumto K (fun k => nth k G 0 * la k)).
  { unfold D. rewrite <- sumto_scal. apply sumto_le. intros i Hi. rewrite <- Rmult_assoc. apply Rmult_le_compat_r; [apply Rlt_le, HL; auto|apply H; auto]. }
  assert (B : sumto K (fun k => nth k G 0 * la k) <= hi * D).
  { unfold D. rewrite <- sumto_scal. apply sumto_le. intros i Hi. rewrite <- Rmult_assoc. apply Rmult_le_compat_r; [apply Rlt_le, HL; auto|apply H; auto]. }
  split.
  - apply Rmult_le_reg_r with D; auto. unfold Rdiv. rewrite Rmult_assoc, Rinv_l, Rmult_1_r by lra. exact A.
  - apply Rmult_le_reg_r with D; auto. unfold Rdiv. rewrite Rmult_assoc, Rinv_l, Rmult_1_r by lra. exact B.
Qed.

(** ** losses *)

Lemma get_tmap : forall (f : R -> R) x idx, (ravel (sh x) idx < length (dat x))%nat -> get (tmap f x) idx = f (get x idx).
Proof. intros f x idx H. unfold get, tmap. cbn [sh dat]. apply nth_map_in; auto. Qed.

Lemma dat_build_len : forall s (f : list nat -> R), length (dat (build s f)) = numel s.
Proof. intros. unfold build. cbn [dat]. rewrite map_length. apply length_all_idx. Qed.

Lemma bcast_vp : forall e N, bcast e [1%nat; N] [1%nat; N; 1%nat] = Ok [1%nat; N; N].
Proof.
  intros e N. unfold bcast. cbn [rev app bcast_rev bind]. destruct (Nat.eqb N 1) eqn:E1.
  - apply Nat.eqb_eq in E1. subst N. reflexivity.
  - rewrite (Nat.eqb_sym 1 N), E1. cbn [Nat.eqb bind rev app]. reflexivity.
Qed.
Lemma bcast_vm : forall e N, bcast e [1%nat; N] [1%nat; N; N] = Ok [1%nat; N; N].
Proof.
  intros e N. unfold bcast. cbn [rev app bcast_rev bind]. destruct (Nat.eqb 1 N) eqn:E1.
  - apply Nat.eqb_eq in E1. subst N. reflexivity.
  - cbn [Nat.eqb bind]. rewrite Nat.eqb_refl. reflexivity.
Qed.

Lemma loss_pairs : forall e (y w : list R) (p : tensor R) N, length y = N -> length w = N -> sh p = [1%nat; N; 1%nat] -> length (dat p) = N ->
  weighted_l2_gen e (batch_vec y) p (batch_vec w) = Ok (all_pairs N (fun i => nth i w 0) (fun i => nth i y 0) (fun i => nth i (dat p) 0)).
Proof.
  intros e y w p N Hy Hw Sp Hp. unfold weighted_l2_gen, bop. cbn [sh batch_vec]. rewrite Sp, Hy, Hw, bcast_vp. cbn [bind].
  cbn [sh tmap build]. rewrite bcast_vm. cbn [bind]. f_equal. unfold all_pairs. apply (f_equal2 Rdiv).
  - unfold tsum. cbn [dat build]. rewrite nsum_idx_cons. cbn [sumto]. rewrite Rplus_0_l, nsum_idx_cons. apply sumto_ext. intros i Hi.
    rewrite nsum_idx_cons. apply sumto_ext. intros j Hj. cbn [all_idx map]. rewrite nsum_cons, nsum_nil.
    assert (B2 : forall k, (k < N)%nat -> bidx [1%nat; N] [0%nat; i; k] = [0%nat; k]).
    { intros k Hk. unfold bidx. cbn [length Nat.sub skipn map2]. rewrite Nat.eqb_refl. destruct (Nat.eqb N 1) eqn:EN; auto.
      apply Nat.eqb_eq in EN. repeat f_equal. lia. }
    rewrite B2 by auto. rewrite get_vec.
    rewrite bidx_same by idx. rewrite get_tmap by (cbn [sh build]; rewrite dat_build_len; apply ravel_lt; idx).
    rewrite get_build by idx. rewrite B2 by auto. rewrite get_vec.
    assert (B3 : bidx [1%nat; N; 1%nat] [0%nat; i; j] = [0%nat; i; 0%nat]).
    { unfold bidx. cbn [length Nat.sub skipn map2]. rewrite Nat.eqb_refl. destruct (Nat.eqb N 1) eqn:EN; auto.
      apply Nat.eqb_eq in EN. repeat f_equal. lia. }
    rewrite B3.
    assert (GP : get p [0%nat; i; 0%nat] = nth i (dat p) 0).
    { unfold get. rewrite Sp. cbn [ravel numel fold_right]. f_equal. lia. }
    rewrite GP. rn. ring.
  - unfold tsum. cbn [dat batch_vec]. rewrite nsum_sumto, Hw. reflexivity.
Qed.

(** same shapes *)
Lemma get_list : forall (l : list R) i, get (of_list l) [i] = nth i l 0.
Proof. intros. unfold get, of_list. cbn [sh dat ravel numel fold_right]. f_equal. lia. Qed.

Lemma bop_list : forall e (f : R -> R -> R) a b, length a = length b -> bop e f (of_list a) (of_list b) = Ok (of_list (map2 f a b)).
Proof.
  intros e f a b H. destruct (bop_same e f (of_list a) (of_list b)) as (r&->&Sr&_&Dr); [cbn [sh of_list]; congruence|].
  f_equal. destruct r as [s d]. cbn [sh dat of_list] in *. rewrite all_idx_last, map_map in Dr.
  unfold of_list. rewrite map2_length, H, Nat.min_id. f_equal; [congruence|].
  rewrite Dr, (map2_as_seq f a b 0 0 H). apply map_ext. intros i. rewrite !get_list. reflexivity.
Qed.

Lemma loss_same : forall e (y p w : list R) N, length y = N -> length p = N -> length w = N ->
  weighted_l2_gen e (of_list y) (of_list p) (of_list w) = Ok (wmse N (fun i => nth i w 0) (fun i => nth i y 0) (fun i => nth i p 0)).
Proof.
  intros e y p w N Hy Hp Hw. unfold weighted_l2_gen. rewrite bop_list by congruence. cbn [bind].
  unfold tmap. cbn [sh dat of_list]. fold (of_list (map (fun x : R => nmul x x) (map2 nsub y p))).
  replace (mkTensor [length (map2 nsub y p)] (map (fun x : R => nmul x x) (map2 nsub y p))) with (of_list (map (fun x : R => nmul x x) (map2 nsub y p)))
    by (unfold of_list; rewrite map_length; reflexivity).
  rewrite bop_list by (rewrite map_length, map2_length; lia). cbn [bind]. f_equal. unfold wmse. apply (f_equal2 Rdiv).
  - unfold tsum. cbn [dat of_list]. rewrite nsum_sumto, map2_length, map_length, map2_length.
    replace (Nat.min (length w) (Nat.min (length y) (length p))) with N by lia. apply sumto_ext. intros i Hi.
    rewrite (nth_map2 _ _ _ _ 0 0) by (rewrite ?map_length, ?map2_length; lia).
    rewrite nth_map_in with (d := 0) by (rewrite map2_length; lia). rewrite (nth_map2 _ _ _ _ 0 0) by lia. rn. ring.
  - unfold tsum. cbn [dat of_list]. rewrite nsum_sumto, Hw. reflexivity.
Qed.
