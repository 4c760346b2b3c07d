(** C132: the starting weights in double arithmetic and the checks they have to pass. *)
From Verif Require Import Base M_Float M_Start L_Start L_Seeds.
From Flocq Require Import Core BinarySingleNaN.
From Coq Require Import Reals Lra Lia ZArith NArith.
Local Open Scope R_scope.

(** C132: without a seed a regression starts at (1, 0, ..., 0), and both checks accept this start for every number of columns. *)
Theorem C132_default : forall K, (1 <= K)%nat -> exists l, smooth_start None K None = Ok l /\ length l = K /\
  (forall i, nth i l b64_zero = if Nat.eqb i 0 then b64_one else b64_zero) /\
  (forall constrained, sgd_accepts constrained K l = Ok tt) /\ forall constrained, clean_accepts constrained K l = Ok tt.
Proof. intros K H. destruct (p_default K H) as (l&A&B&C&_&_&D&E). exists l. auto. Qed.
Print Assumptions C132_default.

(** The draws after any seed are K multiples of 2^-53 in [0, 1). *)
Theorem C132_draws : forall s K, length (uniform_after_seed s K) = K /\ forall x, In x (uniform_after_seed s K) ->
  is_finite x = true /\ 0 <= B2R x < 1 /\ exists m, (0 <= m < 2 ^ 53)%Z /\ B2R x = IZR m * bpow radix2 (-53).
Proof. intros s K. destruct (p_draws s K) as [A B]. split; auto. intros x H. destruct (p_draws_range s K x H). destruct (B x H) as (_&m). auto. Qed.
Print Assumptions C132_draws.
(** the first draws after the seeds 0 and 1 are 0.5488135... and 0.417022..., as in numpy's documentation *)
Example C132_draws_ex : map B2SF (uniform_after_seed 0 1) = [SpecFloat.S754_finite false 4943272583565992 (-53)] /\
  map B2SF (uniform_after_seed 1 1) = [SpecFloat.S754_finite false 7512400579935238 (-54)].
Proof. split; vm_compute; reflexivity. Qed.

(** Every start of smooth (with or without a seed, for a regression, or for a classification with 0 <= class_eps <= 1) consists of weights that are not negative, and its floating point sum is within 7 K 2^-53 of 1. *)
Theorem C132_close : forall class_eps K draws, (1 <= K)%nat -> (Z.of_nat K <= 2 ^ 33)%Z ->
  (forall d, draws = Some d -> length d = K /\ (forall x, In x d -> is_finite x = true /\ 0 <= B2R x <= 1) /\ exists x, In x d /\ 0 < B2R x) ->
  (forall e, class_eps = Some e -> is_finite e = true /\ 0 <= B2R e <= 1) ->
  exists l, smooth_start class_eps K draws = Ok l /\ length l = K /\ (forall x, In x l -> is_finite x = true /\ 0 <= B2R x) /\ is_finite (b64_sum l) = true /\
  Rabs (B2R (b64_sum l) - 1) <= 7 * (INR K * bpow radix2 (-53)) /\
  ((Z.of_nat K <= 2 ^ 26)%Z -> Rabs (B2R (b64_sum l) - 1) < 1 / 10000000).
Proof.
  intros ce K draws HK LK HD HE. destruct (p_all_close ce K draws HK LK) as (l&A&B&C&D&E); auto.
  - destruct draws as [d|]; cbn; auto.
  - exists l. split; auto. split; auto. split; auto. split; auto. split; auto. intros H. eapply Rle_lt_trans; [exact E|]. apply p_ce_close. exact H.
Qed.
Print Assumptions C132_close.

(** The check of smooth_clean (np.allclose) therefore accepts the start after every seed, unless all draws are 0. *)
Theorem C132_clean : forall s K constrained, (Z.of_nat K <= 2 ^ 33)%Z -> (exists x, In x (uniform_after_seed s K) /\ 0 < B2R x) ->
  exists l, smooth_start None K (Some (uniform_after_seed s K)) = Ok l /\ clean_accepts constrained K l = Ok tt.
Proof.
  intros s K c LK HP. exists (normalise (uniform_after_seed s K)). split; [reflexivity|]. destruct (p_draws s K) as [LD _].
  destruct (p_seeded_close (uniform_after_seed s K)) as (_&_&A); auto.
  - rewrite LD. auto.
  - intros x H. destruct (p_draws_range s K x H) as (F&R). split; auto. lra.
  - rewrite LD in A. apply A.
Qed.
Print Assumptions C132_clean.
Example C132_clean_ex : exists x, In x (uniform_after_seed 0 3) /\ 0 < B2R x.
Proof.
  destruct (uniform_after_seed 0 3) as [|x l] eqn:E; [discriminate E|]. exists x. split; [left; reflexivity|].
  assert (B : B2SF x = SpecFloat.S754_finite false 4943272583565992 (-53)).
  { replace x with (hd b64_zero (uniform_after_seed 0 3)) by (rewrite E; reflexivity). vm_compute. reflexivity. }
  destruct x as [s|s| |s m e H]; try discriminate B. injection B as -> -> ->. unfold B2R, F2R. cbn [Fnum Fexp cond_Zopp]. apply Rmult_lt_0_compat; [lra|apply bpow_gt_0].
Qed.

(** The check of smooth compares the sum with 1 exactly.  With one column it accepts every seeded start; *)
Theorem C132_one_column : forall (x : b64) constrained, is_finite x = true -> 0 < B2R x -> exists l, smooth_start None 1 (Some [x]) = Ok l /\ sgd_accepts constrained 1 l = Ok tt.
Proof. intros x c F P. exists (normalise [x]). split; [reflexivity|]. apply p_one_column; auto. Qed.
Print Assumptions C132_one_column.

(** but for every number of columns from 2 to 30 one of the seeds 0, ..., 10 gives a start that smooth itself then rejects with a TypeError, although smooth_clean accepts it. *)
Theorem C132_seeded_refuted : forall K, (2 <= K <= 30)%nat -> exists s l, (s <= 10)%N /\
  smooth_start None K (Some (uniform_after_seed s K)) = Ok l /\ sgd_accepts true K l = Err TypeError.
Proof. exact p_seeded_bad. Qed.
Print Assumptions C132_seeded_refuted.
(** the seed 0 and three columns *)
Example C132_seeded_ex : sgd_accepts true 3 (normalise (uniform_after_seed 0 3)) = Err TypeError /\ clean_accepts true 3 (normalise (uniform_after_seed 0 3)) = Ok tt /\
  sgd_accepts true 3 (normalise (uniform_after_seed 2 3)) = Ok tt.
Proof. repeat split; vm_compute; reflexivity. Qed.

(** Normalising twice, as for a classification (class_loss "l2", class_eps 1e-4), does not help; *)
Theorem C132_class_refuted : forall K, (3 <= K <= 30)%nat -> exists s l, (s <= 27)%N /\
  smooth_start (Some (b64_frac 10000)) K (Some (uniform_after_seed s K)) = Ok l /\ sgd_accepts true K l = Err TypeError.
Proof. exact p_class_bad. Qed.
Print Assumptions C132_class_refuted.
(** the second normalisation does mend some starts (three columns, seed 2), *)
Theorem C132_twice : let once := normalise (map (fun x => b64_add x (b64_div (b64_frac 10000) (b64_of_nat 3))) (normalise (uniform_after_seed 2 3))) in
  sgd_accepts true 3 once = Err TypeError /\ exists l, smooth_start (Some (b64_frac 10000)) 3 (Some (uniform_after_seed 2 3)) = Ok l /\ sgd_accepts true 3 l = Ok tt.
Proof. exact p_twice. Qed.
Print Assumptions C132_twice.
(** but even the default start is rejected for 31 columns. *)
Theorem C132_class_default_refuted : exists K l, (1 <= K)%nat /\ smooth_start (Some (b64_frac 10000)) K None = Ok l /\ sgd_accepts true K l = Err TypeError.
Proof. destruct p_class_default as (l&A&B). exists 31%nat, l. split; [lia|auto]. Qed.
Print Assumptions C132_class_default_refuted.

(** The value that the error message suggests, np.ones(K)/K, is accepted when K is a power of two, *)
Theorem C132_suggested_power : forall k, (k <= 52)%nat -> sgd_accepts true (2 ^ k) (suggested_start (2 ^ k)) = Ok tt.
Proof. exact p_suggested_pow. Qed.
Print Assumptions C132_suggested_power.
(** and for K up to 128 it is itself rejected exactly for the following 73 values of K. *)
Theorem C132_suggested : forall K, (1 <= K <= 128)%nat -> (sgd_accepts true K (suggested_start K) = Err TypeError <->
  In K [6; 7; 13; 14; 15; 19; 20; 21; 22; 23; 27; 28; 29; 31; 37; 38; 45; 46; 47; 48; 49; 52; 53; 54; 56; 58; 59; 61; 62; 63; 68; 69; 70; 71; 72; 77; 78; 79; 80; 82; 84; 85; 87; 88; 93; 94; 95; 97; 98; 99;
    100; 101; 102; 103; 104; 105; 106; 109; 110; 111; 112; 115; 116; 117; 118; 119; 120; 122; 123; 124; 125; 126; 127]%nat).
Proof. exact p_suggested. Qed.
Print Assumptions C132_suggested.
