(** L_Torch: tensors. *)
From Verif Require Import Base TreeSpec Spec SpecTorch M_Gamma M_Torch L_Base L_Gamma L_Gamma2 L_Smooth.
From Coq Require Import Reals Lra Lia.
Local Open Scope R_scope.

Lemma length_all_idx : forall s, length (all_idx s) = numel s.
Proof.
  induction s as [|n r IH]; [reflexivity|]. cbn [all_idx numel fold_right].
  rewrite (length_concat_block _ (numel r)).
  - rewrite map_length, seq_length. reflexivity.
  - intros b Hb. apply in_map_iff in Hb. destruct Hb as (i&<-&_). rewrite map_length. exact IH.
Qed.

Lemma ravel_lt : forall s idx, Forall2 lt idx s -> (ravel s idx < numel s)%nat.
Proof.
  intros s idx H. induction H as [|i n idx s Hi H IH]; cbn [ravel numel fold_right]; [lia|].
  fold (numel s). nia.
Qed.

Lemma nth_all_idx : forall s idx, Forall2 lt idx s -> nth (ravel s idx) (all_idx s) [] = idx.
Proof.
  intros s idx H. induction H as [|i n idx s Hi H IH]; [reflexivity|]. cbn [ravel all_idx].
  rewrite (nth_concat_block _ (numel s) i (ravel s idx) []).
  - rewrite nth_map_seq by lia. cbn [Nat.add]. rewrite nth_map_in with (d := []).
    + rewrite IH. reflexivity.
    + rewrite length_all_idx. apply ravel_lt; auto.
  - intros b Hb. apply in_map_iff in Hb. destruct Hb as (k&<-&_). rewrite map_length, length_all_idx. reflexivity.
  - rewrite map_length, seq_length. auto.
  - apply ravel_lt; auto.
Qed.

Lemma get_build : forall s (f : list nat -> R) idx, Forall2 lt idx s -> get (build s f) idx = f idx.
Proof.
  intros s f idx H. unfold get, build. cbn [sh dat]. rewrite nth_map_in with (d := []).
  - rewrite nth_all_idx; auto.
  - rewrite length_all_idx. apply ravel_lt; auto.
Qed.

Lemma nsum_app : forall a b : list R, nsum (a ++ b) = nsum a + nsum b.
Proof. induction a; intros b; [rewrite nsum_nil; cbn [app]; lra|]. cbn [app]. rewrite !nsum_cons, IHa. lra. Qed.

Lemma nsum_concat_seq : forall (f : nat -> list R) n, nsum (concat (map f (seq 0 n))) = sumto n (fun i => nsum (f i)).
Proof.
  intros f n. induction n; [reflexivity|]. rewrite seq_S, map_app, concat_app, nsum_app, IHn. cbn [sumto map concat Nat.add].
  rewrite app_nil_r. reflexivity.
Qed.

Lemma nsum_map_seq : forall (f : nat -> R) n, nsum (map f (seq 0 n)) = sumto n f.
Proof.
  intros f n. induction n; [reflexivity|]. rewrite seq_S, map_app, nsum_app, IHn. cbn [sumto map Nat.add].
  rewrite nsum_cons, nsum_nil. lra.
Qed.

Lemma all_idx_1 : forall r, all_idx (1%nat :: r) = map (cons 0%nat) (all_idx r).
Proof. intros. cbn [all_idx seq map concat]. apply app_nil_r. Qed.
Lemma all_idx_last : forall n, all_idx [n] = map (fun i => [i]) (seq 0 n).
Proof.
  intros n. cbn [all_idx map]. induction (seq 0 n); [reflexivity|]. cbn [map concat app]. rewrite IHl. reflexivity.
Qed.

Lemma all_idx_col : forall n, all_idx [n; 1%nat] = map (fun i => [i; 0%nat]) (seq 0 n).
Proof.
  intros n. cbn [all_idx map seq concat app]. induction (seq 0 n); [reflexivity|]. cbn [map concat app]. rewrite IHl. reflexivity.
Qed.

Lemma nsum_idx_cons : forall n r (f : list nat -> R),
  nsum (map f (all_idx (n :: r))) = sumto n (fun i => nsum (map (fun q => f (i :: q)) (all_idx r))).
Proof.
  intros n r f. cbn [all_idx]. rewrite concat_map, map_map, nsum_concat_seq. apply sumto_ext. intros i _.
  rewrite map_map. reflexivity.
Qed.

Lemma get_vec : forall (l : list R) i, get (batch_vec l) [0%nat; i] = nth i l 0.
Proof. intros. unfold get, batch_vec. cbn [sh dat ravel numel fold_right]. f_equal. lia. Qed.

Lemma get_mat : forall (M : mat R) i k, (i < length M)%nat -> (k < ncols M)%nat -> (forall r, In r M -> length r = ncols M) ->
  get (batch_mat M) [0%nat; i; k] = nth k (nth i M []) 0.
Proof.
  intros M i k Hi Hk HL. unfold get, batch_mat. cbn [sh dat ravel numel fold_right].
  replace (0 * (length M * (ncols M * 1)) + (i * (ncols M * 1) + (k * 1 + 0)))%nat with (i * ncols M + k)%nat by lia.
  apply (nth_concat_block M (ncols M) i k 0); auto.
Qed.

(** an index of a two-dimensional array *)
Ltac idx := repeat first [assumption | lia | constructor].
