(** Props_Tight2: property theorems that complete C32, C68, C69 and C78. *)
From Coq Require Import Reals Lra Lia QArith.
From Verif Require Import Base TreeSpec Spec SpecSmooth SpecTune SpecClean SpecData SpecTight2 M_Tree M_Gamma M_Levels M_Grad M_Sgd M_Smooth M_Clean M_Level M_Data.
From Verif Require Import L_Tight2 Props_Clean.
Local Open Scope R_scope.

(** C78 (points): the rows of generate_data are the drawn points that lie in the frame, each with the class of its part. *)
Theorem C78_points : forall large_n zs us us2 p c, let '(d, y) := generate_data cos sin PI large_n zs us us2 in
  (In (p, c) (combine d y) <-> drawn_point (3 * large_n / 13) zs us us2 c p /\ within (-0.05) 1.05 (fst p) /\ within (-0.05) 1.05 (snd p)).
Proof. exact p_points. Qed.
Print Assumptions C78_points.

(** the first point of the strip at the right edge, one standard deviation to the right of its middle *)
Example C78_points_ex : let '(d, y) := generate_data cos sin PI 65 (fun _ _ => (1, 0)) (fun _ _ => 1 / 2) (fun _ => (0, 0)) in
  In ((0.95, 0.5), 3%nat) (combine d y) /\ ~ In ((0.85, 0.5), 3%nat) (combine d y).
Proof.
  destruct (generate_data cos sin PI 65 (fun _ _ => (1, 0)) (fun _ _ => 1 / 2) (fun _ => (0, 0))) as [d y] eqn:E.
  pose proof (C78_points 65 (fun _ _ => (1, 0)) (fun _ _ => 1 / 2) (fun _ => (0, 0))) as H. rewrite E in H. split.
  - apply H. split; [|unfold within; cbn [fst snd]; lra].
    replace (0.95, 0.5) with (scaled 0.9 0.5 0.05 0.33 ((fun _ _ : nat => (1, 0)) 1%nat 0%nat)) by (unfold scaled; cbn [fst snd]; f_equal; lra).
    apply (RightNormal _ (fun _ _ => (1, 0)) _ _ 0%nat). change (2 * (3 * 65 / 13) / 5)%nat with 6%nat. lia.
  - intros K. apply H in K. destruct K as [K _]. set (p := (0.85, 0.5)) in K. assert (EP : fst p = 0.85) by reflexivity. clearbody p. inversion K; subst; unfold scaled in EP; cbn [fst snd] in EP; lra.
Qed.

(** C32 (errors): generate_oob_info raises IndexError when an out-of-bag row is not a row of the data, and ValueError for data without rows. *)
Theorem C32_errors : forall (ts : list (tree R)) oob X, ts <> [] ->
  (~ oob_rows oob (length ts) (length X) -> generate_oob_info ts oob X = Err IndexError) /\
  (X = [] -> oob_rows oob (length ts) (length X) -> generate_oob_info ts oob X = Err ValueError).
Proof. exact p_oob_errors. Qed.
Print Assumptions C32_errors.
Example C32_errors_ex : generate_oob_info [@ex5_reg R _; ex3_reg] (fun q => [q + 2]%nat) exX = Err IndexError /\
  generate_oob_info [@ex5_reg R _; ex3_reg] (fun _ => []) [] = Err ValueError.
Proof.
  split; apply C32_errors; try discriminate; auto.
  - intros H. specialize (H 1%nat 3%nat ltac:(cbn; lia) (or_introl eq_refl)). cbn in H. lia.
  - intros q o _ [].
Qed.

(** C68 (responses): with the loss over all observations, a number of responses other than the number of observations is an IndexError; without
    it only a drawn observation without a response is one, ... *)
Theorem C68_lengths : forall ts (o : clean_opts R) oob draws,
  Forall wf_tree ts -> ts <> [] -> matrices_exist (as_smooth o) ts -> k_X o <> [] ->
  oob_rows oob (length ts) (length (k_X o)) -> draws_ok (as_smooth o) -> k_sanity o = false ->
  (k_all_obs o = true \/ (k_n_obs o <= length (k_X o))%nat) ->
  ((k_all_obs o = true \/ k_use_full o = true) -> draws <> [] -> length (k_y o) <> length (k_X o) -> smooth_clean (Forest Reg ts) o oob draws = Err IndexError) /\
  (k_all_obs o = false -> k_use_full o = false -> forall d ds, draws = d :: ds -> d <> [] -> (forall i, In i d -> (i < length (k_X o))%nat) ->
     (exists i, In i d /\ (length (k_y o) <= i)%nat) -> smooth_clean (Forest Reg ts) o oob draws = Err IndexError).
Proof. exact p_clean_lengths. Qed.
Print Assumptions C68_lengths.

(** ... and further responses are ignored. *)
Theorem C68_extra : forall ts (o : clean_opts R) oob draws e, k_all_obs o = false -> k_use_full o = false ->
  (forall d i, In d draws -> In i d -> (i < length (k_y o))%nat) ->
  smooth_clean (Forest Reg ts) (with_y o (k_y o ++ e)) oob draws = smooth_clean (Forest Reg ts) o oob draws.
Proof. exact p_clean_extra. Qed.
Print Assumptions C68_extra.

Example C68_lengths_ex : forall d ds, smooth_clean (Forest Reg ex_ts) (with_y (ex_clean false true 1) [1; 2]) ex_oob (d :: ds) = Err IndexError.
Proof.
  intros d ds. destruct ex_ok as (A&B&C&D&E). apply (C68_lengths ex_ts (with_y (ex_clean false true 1) [1; 2]) ex_oob (d :: ds)); auto; try exact I; try discriminate; try (right; cbn; lia).
Qed.
Example C68_extra_ex : let o := ex_clean false false 1 in exists f lamb c, smooth_clean (Forest Reg ex_ts) (with_y o (k_y o ++ [7])) ex_oob [[0;2];[1;2]]%nat = Ok (f, lamb, c).
Proof.
  intros o. destruct (C68_ex false false 1) as (f&lamb&c&H&_). exists f, lamb, c. rewrite C68_extra; auto.
  intros d i [<-|[<-|[]]] [<-|[<-|[]]]; cbn; lia.
Qed.

(** C69 (observations): make_Vt_mat refuses data without rows with ValueError. *)
Theorem C69_no_observations : forall (ts : list (tree R)) dd, ts <> [] -> (forall v, dd = Some v -> (length ts <= length v)%nat) -> make_Vt_mat ts [] dd = Err ValueError.
Proof. exact p_vt_no_observations. Qed.
Print Assumptions C69_no_observations.
Example C69_no_observations_ex : make_Vt_mat [@ex5_reg R _; ex3_reg] [] None = Err ValueError.
Proof. apply C69_no_observations; discriminate. Qed.
