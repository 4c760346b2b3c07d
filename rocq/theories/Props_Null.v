(** Props_Null: property theorems about check_in_null (smooth_level.py). *)
From Coq Require Import Reals Lra Lia QArith.
From Verif Require Import Base TreeSpec Spec M_Gamma M_Level M_Null SpecSmooth SpecTune SpecLevel SpecNull L_Base L_Gamma2 L_Null Props_Level.
Local Open Scope R_scope.

(** ** C81: membership in the null space *)

(** C81 (answer): if null_space returns a basis of the null space and matrix_rank the rank, the answer is True exactly when v is sent to 0
    and the matrix is singular. *)
Theorem C81_answer : forall null_space matrix_rank m (G : list (list R)) v tol b,
  null_basis m G (null_space G) -> length v = m -> is_rank m (null_space G ++ [v]) (matrix_rank tol (null_space G ++ [v])) ->
  check_in_null null_space matrix_rank G v tol = Ok b -> (b = true <-> sent_to_0 m G v /\ singular m G).
Proof. intros ns mr m G v tol b NB LV. apply p_C81_iff; auto. Qed.
Print Assumptions C81_answer.

(** the matrix of ones sends (1,-1) to 0 and has the basis {(1,-1)} *)
Definition ones : list (list R) := [[1;1];[1;1]].
Lemma ones_basis : null_basis 2 ones [[1;-1]].
Proof.
  split; [|split].
  - intros c [<-|[]]. split; auto. intros row [<-|[<-|[]]]; cbn; ring.
  - intros a Ha k Hk. cbn in Hk. assert (k = 0%nat) by lia. subst k. specialize (Ha 0%nat ltac:(lia)). unfold combo in Ha. cbn in Ha. lra.
  - intros x [Lx Hx]. specialize (Hx [1;1] (or_introl eq_refl)). cbn in Hx. exists (fun _ => nth 0 x 0). intros i Hi. unfold combo. cbn.
    destruct i as [|[|i]]; [lra|lra|lia].
Qed.
(** the two columns (1,-1), (1,-1) have rank 1 *)
Lemma alt_rank : is_rank 2 ([[1;-1]] ++ [[1;-1]]) 1.
Proof.
  split.
  - exists [0%nat]. split; auto. split; [repeat constructor; intros []|]. split; [intros k [<-|[]]; cbn; lia|]. apply ones_basis.
  - intros s (ND&LT&IS). destruct s as [|k1 [|k2 s]]; cbn; try lia. exfalso.
    set (al := fun k : nat => match k with 0%nat => 1 | 1%nat => -1 | _ => 0 end).
    assert (Z : al 0%nat = 0); [|cbn in Z; lra]. apply (IS al); [|cbn; lia]. intros i Hi.
    assert (E : forall k, In k (k1 :: k2 :: s) -> nth k ([[1;-1]] ++ [[1;-1]]) [] = [1;-1]) by (intros k Hk; apply LT in Hk; cbn in Hk; destruct k as [|[|k]]; [reflexivity|reflexivity|lia]).
    unfold combo. cbn [map length]. rewrite map_length.
    rewrite (sumto_ext _ _ (fun k => (if (k =? 0)%nat then nth i [1;-1] 0 else 0) + (if (k =? 1)%nat then - nth i [1;-1] 0 else 0))).
    + rewrite sumto_plus, (sumto_single _ _ 0%nat), (sumto_single _ _ 1%nat); cbn [Nat.eqb]; try lia; try ring.
      * intros k Hk N. destruct (Nat.eqb_spec k 1); [contradiction|auto].
      * intros k Hk N. destruct (Nat.eqb_spec k 0); [contradiction|auto].
    + intros k Hk. destruct k as [|[|k]]; cbn [nth Nat.eqb]; unfold al.
      * rewrite (E k1) by (left; auto). destruct i as [|[|i]]; [cbn; ring|cbn; ring|lia].
      * rewrite (E k2) by (right; left; auto). destruct i as [|[|i]]; [cbn; ring|cbn; ring|lia].
      * ring.
Qed.
Example C81_answer_ex : check_in_null (fun _ => [[1;-1]]) (fun _ _ => 1%nat) ones [1;-1] None = Ok true /\
  null_basis 2 ones [[1;-1]] /\ is_rank 2 ([[1;-1]] ++ [[1;-1]]) 1.
Proof. split; [reflexivity|]. split; [apply ones_basis|apply alt_rank]. Qed.

(** C81 (regular matrix): for a matrix with trivial null space the answer is False for every vector. *)
Theorem C81_regular_false : forall null_space matrix_rank m (G : list (list R)) v,
  null_basis m G (null_space G) -> ~ singular m G -> check_in_null null_space matrix_rank G v None = Ok false.
Proof. exact q_C81_regular. Qed.
Print Assumptions C81_regular_false.

(** the identity of size 2 *)
Definition eye2 : list (list R) := [[1;0];[0;1]].
Lemma eye_zero : forall x, sent_to_0 2 eye2 x -> forall i, (i < 2)%nat -> nth i x 0 = 0.
Proof.
  intros x [_ H] i Hi. pose proof (H [1;0] ltac:(cbn; auto)) as A. pose proof (H [0;1] ltac:(cbn; auto)) as B. cbn in A, B.
  destruct i as [|[|i]]; [lra|lra|lia].
Qed.
Lemma eye_basis : null_basis 2 eye2 [].
Proof.
  split; [intros c []|]. split; [intros a _ k Hk; cbn in Hk; lia|]. intros x Hx. exists (fun _ => 0). intros i Hi. apply (eye_zero x Hx i Hi).
Qed.
Lemma eye_regular : ~ singular 2 eye2.
Proof. intros (x&SX&i&Hi&NZ). apply NZ. apply (eye_zero x SX i Hi). Qed.
Example C81_regular_ex : null_basis 2 eye2 [] /\ ~ singular 2 eye2 /\ check_in_null (fun _ => []) (fun _ _ => 0%nat) eye2 [1;-1] None = Ok false.
Proof. split; [apply eye_basis|]. split; [apply eye_regular|reflexivity]. Qed.

(** C81 (zero vector): "returns whether v is in the null space" fails: the zero vector is in the null space of
    every matrix, but the answer is False for a regular one. *)
Theorem C81_zero_refuted : exists null_space m (G : list (list R)) v, null_basis m G (null_space G) /\ sent_to_0 m G v /\
  forall matrix_rank, check_in_null null_space matrix_rank G v None = Ok false.
Proof.
  exists (fun _ => []), 2%nat, eye2, [0;0]. split; [apply eye_basis|]. split; [|reflexivity]. split; auto. intros row [<-|[<-|[]]]; cbn; ring.
Qed.
Print Assumptions C81_zero_refuted.

(** C81 (positive definite): for a positive definite matrix the answer is False for every vector. *)
Theorem C81_positive_definite : forall null_space matrix_rank m (G : list (list R)) v tol,
  null_basis m G (null_space G) -> square m G -> pos_def m G ->
  (forall q, tol = Some q -> exists k : nat, (q == inject_Z (Z.of_nat k))%Q) ->
  check_in_null null_space matrix_rank G v tol = Ok false.
Proof. exact q_C81_pd. Qed.
Print Assumptions C81_positive_definite.

Example C81_positive_definite_ex : null_basis 2 eye2 [] /\ square 2 eye2 /\ pos_def 2 eye2.
Proof.
  split; [apply eye_basis|]. split; [split; [auto|intros [|[|i]] Hi; auto; lia]|]. intros x (i&Hi&NZ). unfold quad. cbn.
  assert (P : forall a : R, 0 <= a * a) by (intros; apply Rle_0_sqr). pose proof (P (x 0%nat)). pose proof (P (x 1%nat)).
  assert (0 < x i * x i) by (apply Rsqr_pos_lt; auto). destruct i as [|[|i]]; [lra|lra|lia].
Qed.

(** C81 (smooth_all): the matrices that smooth_all hands to check_in_null have been made positive definite, so the
    comparison of the found weights with the starting weights is never skipped: the outcome, returned forest
    or exception, is the one with a check that always answers False. *)
Theorem C81_smooth_all : forall fuel feps solve null_space matrix_rank in_null (o : all_opts R) oob boot ts D tol, Forall wf_tree ts -> deepest ts D -> 0 <= feps ->
  (forall G a l, length a = S D -> solve (a_no_constraint o) G a = Some l -> length l = S D) ->
  (forall q, tol = Some q -> exists k : nat, (q == inject_Z (Z.of_nat k))%Q) ->
  (forall G, square (S D) G -> pos_def (S D) G -> null_basis (S D) G (null_space G)) ->
  (forall G v, square (S D) G -> pos_def (S D) G -> length v = S D -> check_in_null null_space matrix_rank G v tol = Ok (in_null G v)) ->
  smooth_all fuel feps solve in_null o oob boot ts = smooth_all fuel feps solve (fun _ _ => false) o oob boot ts.
Proof. exact q_C81_smooth_all. Qed.
Print Assumptions C81_smooth_all.

(** the hypotheses hold for a null_space that finds the matrix regular when it is *)
Lemma regular_basis : forall m G, square m G -> pos_def m G -> null_basis m G [].
Proof.
  intros m G SQ PD. split; [intros c []|]. split; [intros a _ k Hk; cbn in Hk; lia|]. intros x Hx. exists (fun _ => 0). intros i Hi. unfold combo. cbn.
  destruct (Req_dec (nth i x 0) 0) as [|NZ]; auto. exfalso. apply (pd_regular m G SQ PD). exists x. eauto.
Qed.
Example C81_smooth_all_ex : forall in_null,
  (forall G v, square 2 G -> pos_def 2 G -> length v = 2%nat -> check_in_null (fun _ => []) (fun _ _ => 0%nat) G v (Some 4%Q) = Ok (in_null G v)) ->
  exists fuel f lamb, smooth_all fuel 1 cramer in_null (ex_all [2;4;8]%Z true false true) (fun _ => []) (fun _ => []) [@ex3_reg R _] = Ok (f, lamb).
Proof.
  intros in_null CK. destruct (C72_ex true) as (fuel&f&lamb&E). exists fuel, f, lamb. rewrite <- E.
  apply (C81_smooth_all fuel 1 cramer (fun _ => []) (fun _ _ => 0%nat) in_null _ _ _ _ 1 (Some 4%Q)); auto.
  - repeat constructor.
  - apply ex3_deepest.
  - lra.
  - intros G a l La H. apply cramer_opt in H; auto. apply H.
  - intros q Hq. injection Hq as <-. exists 4%nat. reflexivity.
  - intros G. apply regular_basis.
Qed.

(** C81 (tol_pow): the call is refused exactly for a negative or fractional tol_pow. *)
Theorem C81_tol_pow : forall null_space matrix_rank m (G : list (list R)) v q, null_basis m G (null_space G) -> length v = m ->
  (check_in_null null_space matrix_rank G v (Some q) = Err ValueError <-> ~ exists k : nat, (q == inject_Z (Z.of_nat k))%Q) /\
  (forall e, check_in_null null_space matrix_rank G v (Some q) = Err e -> e = ValueError).
Proof. exact p_C81_tol. Qed.
Print Assumptions C81_tol_pow.

Example C81_tol_pow_ex : check_in_null (fun _ => []) (fun _ _ => 0%nat) eye2 [1;0] (Some (1 # 2)%Q) = Err ValueError /\
  check_in_null (fun _ => []) (fun _ _ => 0%nat) eye2 [1;0] (Some 3%Q) = Ok false /\ null_basis 2 eye2 [].
Proof. split; [reflexivity|]. split; [reflexivity|apply eye_basis]. Qed.

(** ** C82: the argument sanity_check of smooth_all *)

(** C82 (refused): a value that is neither a boolean nor a dictionary with a boolean under "sanity check" and a "tol_pow" raises ValueError. *)
Theorem C82_refused : forall fuel feps solve null_space matrix_rank (o : all_opts R) sa oob boot ts, (forall b tol, ~ asks sa b tol) ->
  smooth_all_call fuel feps solve null_space matrix_rank o sa oob boot ts = Err ValueError.
Proof. exact p_C82_refused. Qed.
Print Assumptions C82_refused.

Example C82_refused_ex : forall sa, In sa [SDict None (Some (Some true)); SDict (Some None) None; SDict (Some (Some 3%Q)) (Some None); SOther] ->
  forall b tol, ~ asks sa b tol.
Proof. intros sa [<-|[<-|[<-|[<-|[]]]]] b tol H; inversion H. Qed.

(** C82 (tol_pow without effect): every other call, whatever the whole number given as tol_pow, has the outcome of a call in which
    the found weights are compared with the starting weights without asking check_in_null. *)
Theorem C82_same : forall fuel feps solve null_space matrix_rank (o : all_opts R) sa b tol oob boot ts D, Forall wf_tree ts -> deepest ts D -> 0 <= feps ->
  (forall G a l, length a = S D -> solve (a_no_constraint o) G a = Some l -> length l = S D) ->
  (forall G, square (S D) G -> pos_def (S D) G -> null_basis (S D) G (null_space G)) ->
  asks sa b tol -> whole tol ->
  smooth_all_call fuel feps solve null_space matrix_rank o sa oob boot ts = smooth_all fuel feps solve (fun _ _ => false) (with_sanity b o) oob boot ts.
Proof. exact p_C82_same. Qed.
Print Assumptions C82_same.

Example C82_same_ex : exists fuel f lamb,
  smooth_all_call fuel 1 cramer (fun _ => []) (fun _ _ => 0%nat) (ex_all [2;4;8]%Z true true true) (SDict (Some (Some 4%Q)) (Some (Some false))) (fun _ => []) (fun _ => []) [@ex3_reg R _] = Ok (f, lamb).
Proof.
  destruct (C72_ex true) as (fuel&f&lamb&E). exists fuel, f, lamb. rewrite <- E.
  change (ex_all [2;4;8]%Z true false true) with (with_sanity false (@ex_all R _ [2;4;8]%Z true true true)).
  apply (C82_same fuel 1 cramer (fun _ => []) (fun _ _ => 0%nat) _ _ false (Some 4%Q) _ _ _ 1).
  - repeat constructor.
  - apply ex3_deepest.
  - lra.
  - intros G a l La H. apply cramer_opt in H; auto. apply H.
  - intros G. apply regular_basis.
  - constructor.
  - intros q Hq. injection Hq as <-. exists 4%nat. reflexivity.
Qed.

(** C82 (bad tol_pow): a negative or fractional tol_pow is reported (ValueError) exactly when the weights found, those that a call with
    sanity_check False returns, are more than 1e-7 from the starting weights; else the call ends as if it had been left out. *)
Theorem C82_bad_tol : forall fuel feps solve null_space matrix_rank (o : all_opts R) b q oob boot ts, ~ whole (Some q) ->
  let call := fun sa => smooth_all_call fuel feps solve null_space matrix_rank o sa oob boot ts in
  let bad := call (SDict (Some (Some q)) (Some (Some b))) in
  (forall f lamb, call (SBool false) = Ok (f, lamb) -> (moved lamb -> bad = Err ValueError) /\ (~ moved lamb -> bad = call (SBool b))) /\
  (forall e, call (SBool b) = Err e -> bad = Err e \/ bad = Err ValueError).
Proof. exact p_C82_bad_tol. Qed.
Print Assumptions C82_bad_tol.

(** both cases occur, here with solvers answering (1/2, 1/2) and (1, 0) *)
Example C82_bad_tol_ex :
  let call l sa := smooth_all_call 5 (1#1000) (fun _ _ _ => Some l) (fun _ => []) (fun _ _ => 0%nat) (@ex_all Q _ [2;4;8]%Z false false true) sa (fun _ => []) (fun _ => []) [ex3_reg] in
  call [1#2;1#2]%Q (SDict (Some (Some (-(1))%Q)) (Some (Some false))) = Err ValueError /\
  (exists r, call [1#2;1#2]%Q (SBool false) = Ok r) /\
  (exists r, call [1;0]%Q (SDict (Some (Some (-(1))%Q)) (Some (Some false))) = Ok r) /\ ~ whole (Some (-(1))%Q).
Proof.
  split; [vm_compute; reflexivity|]. split; [eexists; vm_compute; reflexivity|]. split; [eexists; vm_compute; reflexivity|].
  intros H. destruct (H _ eq_refl) as (k&E). unfold Qeq in E. cbn in E. lia.
Qed.
