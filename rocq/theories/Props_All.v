(** C127, C128: what smooth_all's weights depend on, and when the tuning data determine them. *)
From Verif Require Import Base TreeSpec Spec M_Level SpecSmooth SpecTune SpecLevel SpecRel SpecRel2 SpecAll.
From Verif Require Import L_Base L_Gamma L_Gamma2 L_Smooth3 L_Tune L_Level7 L_Level9 L_All L_All2 L_All3 L_All4 Props_Level Props_Prog.
From Coq Require Import Reals Lra Lia Permutation QArith.
Local Open Scope R_scope.

(** ** C127: what smooth_all looks at *)

(** C127: of its data smooth_all uses, tree by tree, only each leaf's share of the tuning observations and the leaf's mean response: two data sets that give every leaf, at a rate common to the tree's leaves, the same number of observations and the same sum of responses have the same result, forest, weights and errors alike.  Neither the training data nor the spread of the responses within a leaf matter. *)
Theorem C127_same : forall fuel feps solve check (o o' : all_opts R) oob boot oob' boot' ts, Forall wf_tree ts -> same_settings o o' ->
  length (a_y o) = length (a_X o) -> length (a_y o') = length (a_X o') ->
  (forall q t, nth_error ts q = Some t -> exists d d', tuning_set o oob boot q d /\ tuning_set o' oob' boot' q d' /\ usable d /\ length (snd d') = length (fst d') /\ in_proportion t d d') ->
  smooth_all_with fuel feps solve check o' oob' boot' ts = smooth_all_with fuel feps solve check o oob boot ts.
Proof. exact p_all_same. Qed.
Print Assumptions C127_same.

(** ... so the tuning data may be given in any order and any number of times (the stochastic descent of smooth, whose step is a sum, does not have this, C113) ... *)
Theorem C127_tune : forall fuel feps solve check (o : all_opts R) oob boot ts m X Y X' Y', Forall wf_tree ts -> (0 < m)%nat -> length Y = length X -> length Y' = length X' ->
  times m (combine X Y) (combine X' Y') ->
  smooth_all_with fuel feps solve check (all_with_tune o X' Y') oob boot ts = smooth_all_with fuel feps solve check (all_with_tune o X Y) oob boot ts.
Proof. exact p_all_tune. Qed.
Print Assumptions C127_tune.

(** ... and so may the rows of every tree's out-of-bag or bootstrap sample ... *)
Theorem C127_sample : forall fuel feps solve check (o : all_opts R) oob boot oob' boot' ts m, Forall wf_tree ts -> (0 < m)%nat ->
  (forall q, times m (oob q) (oob' q)) -> (forall q, times m (boot q) (boot' q)) ->
  smooth_all_with fuel feps solve check o oob' boot' ts = smooth_all_with fuel feps solve check o oob boot ts.
Proof. exact p_all_sample. Qed.
Print Assumptions C127_sample.

(** ... and the trees, whatever the solver: the weights stay the same and the smoothed trees come in the new order. *)
Theorem C127_trees : forall fuel feps solve check (o : all_opts R) oob boot oob' boot' ts ts' pi, Forall wf_tree ts -> trees_reordered pi ts ts' ->
  (forall q, (q < length ts)%nat -> oob' q = oob (pi q) /\ boot' q = boot (pi q)) ->
  forall f lamb, smooth_all_with fuel feps solve check o oob boot ts = Ok (f, lamb) ->
  exists f', smooth_all_with fuel feps solve check o oob' boot' ts' = Ok (f', lamb) /\ trees_reordered pi f f'.
Proof. intros fuel feps solve check o oob boot oob' boot' ts ts' pi WF RO SB. eapply p_all_order; eauto. Qed.
Print Assumptions C127_trees.

Definition ex_all3 : all_opts R := ex_all [2;4;8]%Z true false false.
Definition ex_lf (q x : nat) : nat := match x with O => 0 | _ => 1 end.
Lemma ex_routed : routed (@ex3_reg R _) exX (ex_lf 0).
Proof.
  destruct (routed_ex (@ex3_reg R _) exX) as (lf & RT); [reflexivity|]. destruct (ex_prog_leaf lf RT) as (A & B & C).
  intros x Hx. assert (E : ex_lf 0 x = lf x) by (destruct x as [|[|[|x]]]; [auto|auto|auto|cbn in Hx; lia]). rewrite E. apply RT. exact Hx.
Qed.
(** the responses 4 and 8 of the two observations in the right leaf replaced by their mean, everything twice *)
Example C127_ex_same : forall fuel feps solve check,
  smooth_all_with fuel feps solve check (all_with_tune ex_all3 (exX ++ exX) (exrow [2;6;6;2;6;6]%Z)) (fun _ => []) (fun _ => []) [@ex3_reg R _]
  = smooth_all_with fuel feps solve check (all_with_tune ex_all3 exX (exrow [2;4;8]%Z)) (fun _ => []) (fun _ => []) [@ex3_reg R _].
Proof.
  intros fuel feps solve check. apply C127_same; [repeat constructor|repeat split|reflexivity|reflexivity|].
  intros [|q] t N; [|destruct q; discriminate N]. injection N as <-. exists (exX, exrow [2;4;8]%Z), (exX ++ exX, exrow [2;6;6;2;6;6]%Z).
  split; [reflexivity|]. split; [reflexivity|]. split; [split; [discriminate|reflexivity]|]. split; [reflexivity|].
  exists 2, (ex_lf 0), (fun k => match k with O | 3%nat => 0%nat | _ => 1%nat end). split; [lra|]. split; [exact ex_routed|]. split.
  - intros x Hx. do 6 (destruct x as [|x]; [first [exact (ex_routed 0%nat ltac:(cbn; lia))|exact (ex_routed 1%nat ltac:(cbn; lia))|exact (ex_routed 2%nat ltac:(cbn; lia))]|]). cbn in Hx. lia.
  - intros i Hi. destruct i as [|[|i]]; [| |cbn in Hi; lia]; split; unfold sum_sel, ex_lf; cbn; rewrite ?INR_IPR; unfold IPR, IPR_2; cbn; lra.
Qed.
(** the second data set holds the first one's observations twice, in another order; over Q both give the same weights *)
Example C127_ex_tune : times 2 (combine [1;2;3] [4;5;6])%nat (combine [3;2;1;1;2;3] [6;5;4;4;5;6])%nat /\
  let run X y := smooth_all 5 (1#8000)%Q (fun _ G a => Some [nth 0 a 0; nth 1 (nth 0 G []) 0]%Q) (fun _ _ => true)
    (all_with_tune (ex_all [2;4;8]%Z true false false) X y) (fun _ => []) (fun _ => []) [@ex3_reg Q _] in
  exists f lamb, run exX (exrow [2;4;8]%Z) = Ok (f, lamb) /\ exists f', run (exX ++ rev exX) (exrow [2;4;8;8;4;2]%Z) = Ok (f', lamb).
Proof.
  split.
  - unfold times. cbn. apply (Permutation_app (l := [(3,6);(2,5);(1,4)]%nat) (l' := [(1,4);(2,5);(3,6)]%nat)); [apply Permutation_sym, (Permutation_rev [(1,4);(2,5);(3,6)]%nat)|apply Permutation_refl].
  - cbv zeta. do 2 eexists. split; [vm_compute; reflexivity|]. eexists. vm_compute. reflexivity.
Qed.
(** a sample drawn twice over *)
Example C127_ex_sample : times 2 [0;2;2]%nat [2;2;2;0;0;2]%nat.
Proof. unfold times. cbn. apply (Permutation_trans (l' := [2;2;0;2;0;2]%nat)); [do 2 apply perm_skip; apply perm_swap|]. apply (Permutation_trans (l' := [2;0;2;2;0;2]%nat)); [apply perm_skip, perm_swap|]. apply (Permutation_trans (l' := [0;2;2;2;0;2]%nat)); [apply perm_swap|]. do 3 apply perm_skip. apply perm_swap. Qed.
(** two trees swapped *)
Example C127_ex_trees : trees_reordered (fun q => 1 - q)%nat [@ex3_reg Q _; ex5_reg] [ex5_reg; ex3_reg].
Proof. split; [reflexivity|]. split; [apply perm_swap|]. intros [|[|q]] Hq; [reflexivity|reflexivity|cbn in Hq; lia]. Qed.

(** ** C128: the tuning data determine the weights *)

(** C128: if the leaves the tuning observations reach tell any two weight vectors apart, smooth_all returns at once for every amount of fuel, without lifting the diagonal, and its weights are the one feasible vector of least tuning error. *)
Theorem C128_exact : forall fuel feps solve in_null (o : all_opts R) oob boot ts D data lf, Forall wf_tree ts -> deepest ts D -> Forall pos_leaves ts ->
  length (a_y o) = length (a_X o) -> all_data o oob boot ts data lf -> (forall q, (q < length ts)%nat -> usable (data q)) ->
  determined ts (a_parents_all o) (S D) data lf -> a_sanity o = false -> solves (a_no_constraint o) (S D) solve ->
  exists f lamb, smooth_all fuel feps solve in_null o oob boot ts = Ok (f, lamb) /\ feasible (a_no_constraint o) (S D) lamb /\
    forall l m, feasible (a_no_constraint o) (S D) l ->
      (forall q t i k, nth_error ts q = Some t -> (i < n_leaves t)%nat -> (k < S D)%nat -> level_mean t (a_parents_all o) i k (m q i k)) ->
      let sse := mean_sse (length ts) data lf (fun q i => leaf_v (nth q f no_tree) 0 i) in
      let sse_l := mean_sse (length ts) data lf (fun q i => sumto (S D) (fun k => nth k l 0 * m q i k)) in
      sse <= sse_l /\ (sse_l <= sse -> l = lamb).
Proof. exact p_all_exact. Qed.
Print Assumptions C128_exact.

(** ... so the choice of a correct solver, the machine epsilon and the null space test do not matter ... *)
Theorem C128_solvers : forall fuel feps solve in_null fuel' feps' solve' in_null' (o : all_opts R) oob boot ts D data lf, Forall wf_tree ts -> deepest ts D -> Forall pos_leaves ts ->
  length (a_y o) = length (a_X o) -> all_data o oob boot ts data lf -> (forall q, (q < length ts)%nat -> usable (data q)) ->
  determined ts (a_parents_all o) (S D) data lf -> a_sanity o = false -> solves (a_no_constraint o) (S D) solve -> solves (a_no_constraint o) (S D) solve' ->
  smooth_all fuel' feps' solve' in_null' o oob boot ts = smooth_all fuel feps solve in_null o oob boot ts.
Proof. exact p_all_solvers. Qed.
Print Assumptions C128_solvers.

(** ... a forest that holds every tree m times gets the same weights ... *)
Theorem C128_copies : forall m fuel feps solve in_null (o : all_opts R) oob boot oob' boot' ts ts' D data lf, (0 < m)%nat -> ts <> [] -> trees_copied m ts ts' ->
  (forall q, (q < length ts')%nat -> oob' q = oob (q mod length ts) /\ boot' q = boot (q mod length ts)) ->
  Forall wf_tree ts -> deepest ts D -> Forall pos_leaves ts ->
  length (a_y o) = length (a_X o) -> all_data o oob boot ts data lf -> (forall q, (q < length ts)%nat -> usable (data q)) ->
  determined ts (a_parents_all o) (S D) data lf -> a_sanity o = false -> solves (a_no_constraint o) (S D) solve ->
  exists f f' lamb, smooth_all fuel feps solve in_null o oob boot ts = Ok (f, lamb) /\ smooth_all fuel feps solve in_null o oob' boot' ts' = Ok (f', lamb) /\ trees_copied m f f'.
Proof. exact p_all_copies. Qed.
Print Assumptions C128_copies.

(** ... and so does a forest whose response is measured in other units; its leaf values change with the units. *)
Theorem C128_units : forall c fuel feps solve in_null (o : all_opts R) oob boot ts D data lf, 0 < c -> Forall wf_tree ts -> deepest ts D -> Forall pos_leaves ts ->
  length (a_y o) = length (a_X o) -> all_data o oob boot ts data lf -> (forall q, (q < length ts)%nat -> usable (data q)) ->
  determined ts (a_parents_all o) (S D) data lf -> a_sanity o = false -> solves (a_no_constraint o) (S D) solve ->
  exists f lamb, smooth_all fuel feps solve in_null o oob boot ts = Ok (f, lamb) /\
    smooth_all fuel feps solve in_null (all_scaled c o) oob boot (map (scale_tree c) ts) = Ok (map (scale_tree c) f, lamb).
Proof. exact p_all_units. Qed.
Print Assumptions C128_units.

(** the two-leaf tree: an observation's prediction is l0 times its leaf's value plus l1 times the other leaf's *)
Definition ex_mean (i k : nat) : R := if Nat.eqb i k then 20 else 30.
Lemma ex_level_mean : forall i k, (i < 2)%nat -> (k < 2)%nat -> level_mean (@ex3_reg R _) false i k (ex_mean i k).
Proof.
  intros i k Hi Hk. assert (WF : Forall wf_tree [@ex3_reg R _]) by repeat constructor.
  pose proof (lmean_ok ex_all3 [@ex3_reg R _] WF 0%nat (@ex3_reg R _) i k eq_refl Hi) as H. replace (ex_mean i k) with (lmean ex_all3 (@ex3_reg R _) i k); [exact H|]. clear H.
  unfold lmean, kmean, kmass, ex_mean. change (n_leaves (@ex3_reg R _)) with 2%nat.
  assert (C : forall j, (j < 2)%nat -> csel (@ex3_reg R _) Standard (a_parents_all ex_all3) i k j = Nat.eqb k (if Nat.eqb i j then 0 else 1)).
  { intros j Hj. destruct i as [|[|i]]; [| |lia]; (destruct j as [|[|j]]; [| |lia]); (destruct k as [|[|k]]; [| |lia]); reflexivity. }
  assert (NY : forall j, leaf_ny (@ex3_reg R _) Reg 0 j = leaf_w (@ex3_reg R _) j * leaf_v (@ex3_reg R _) 0 j) by reflexivity.
  cbn [sumto]. rewrite !C by lia. rewrite !NY. destruct ex3_nums as (V0 & V1 & W0 & W1). rewrite V0, V1, W0, W1.
  destruct i as [|[|i]]; [| |lia]; (destruct k as [|[|k]]; [| |lia]); cbn [Nat.eqb]; (destruct (Req_EM_T _ _) as [Z|Z]; [exfalso; lra|field]; lra).
Qed.
Lemma ex_data : all_data ex_all3 (fun _ => []) (fun _ => []) [@ex3_reg R _] (fun _ => (exX, exrow [2;4;8]%Z)) ex_lf.
Proof. intros [|q] t N; [|destruct q; discriminate N]. injection N as <-. split; [reflexivity|exact ex_routed]. Qed.
Lemma ex_determined : determined [@ex3_reg R _] false 2 (fun _ => (exX, exrow [2;4;8]%Z)) ex_lf.
Proof.
  intros l l' L L' NE. destruct l as [|a [|b [|]]]; try discriminate L. destruct l' as [|a' [|b' [|]]]; try discriminate L'.
  destruct (Req_EM_T (a * 20 + b * 30) (a' * 20 + b' * 30)) as [E|D].
  - exists 0%nat, (@ex3_reg R _), 1%nat, (ex_mean 1). split; [reflexivity|]. split; [cbn; lia|]. split; [intros k Hk; apply ex_level_mean; cbn; lia|].
    unfold ex_mean. cbn. intros E'. apply NE. assert (a = a') by lra. assert (b = b') by lra. congruence.
  - exists 0%nat, (@ex3_reg R _), 0%nat, (ex_mean 0). split; [reflexivity|]. split; [cbn; lia|]. split; [intros k Hk; apply ex_level_mean; cbn; lia|].
    unfold ex_mean. cbn. intros E'. apply D. lra.
Qed.
Lemma ex_solves : solves true 2 cramer.
Proof. split; [apply cramer_total|apply cramer_opt]. Qed.
Example C128_ex : exists f lamb, smooth_all 0 1 cramer (fun _ _ => false) ex_all3 (fun _ => []) (fun _ => []) [@ex3_reg R _] = Ok (f, lamb) /\
  smooth_all 9 2 cramer (fun _ _ => true) ex_all3 (fun _ => []) (fun _ => []) [@ex3_reg R _] = Ok (f, lamb) /\
  (exists f3, smooth_all 0 1 cramer (fun _ _ => false) ex_all3 (fun _ => []) (fun _ => []) [@ex3_reg R _; ex3_reg; ex3_reg] = Ok (f3, lamb)) /\
  (exists f2, smooth_all 0 1 cramer (fun _ _ => false) (all_scaled 2 ex_all3) (fun _ => []) (fun _ => []) [scale_tree 2 (@ex3_reg R _)] = Ok (f2, lamb)) /\
  mean_sse 1 (fun _ => (exX, exrow [2;4;8]%Z)) ex_lf (fun q i => leaf_v (nth q f no_tree) 0 i) <= mean_sse 1 (fun _ => (exX, exrow [2;4;8]%Z)) ex_lf (fun q i => ex_mean i 1).
Proof.
  assert (WF : Forall wf_tree [@ex3_reg R _]) by repeat constructor. assert (PL : Forall pos_leaves [@ex3_reg R _]) by (repeat constructor; apply ex3_pos).
  assert (US : forall q, (q < 1)%nat -> usable ((fun _ : nat => (@exX R _, @exrow R _ [2;4;8]%Z)) q)) by (intros q _; split; [discriminate|reflexivity]).
  destruct (C128_exact 0 1 cramer (fun _ _ => false) ex_all3 (fun _ => []) (fun _ => []) [@ex3_reg R _] 1 _ ex_lf WF ex3_deepest PL eq_refl ex_data US ex_determined eq_refl ex_solves) as (f & l & E & _ & OPT).
  exists f, l. split; [exact E|]. split.
  { rewrite <- E. exact (C128_solvers 0 1 cramer (fun _ _ => false) 9 2 cramer (fun _ _ => true) ex_all3 (fun _ => []) (fun _ => []) [@ex3_reg R _] 1 _ ex_lf WF ex3_deepest PL eq_refl ex_data US ex_determined eq_refl ex_solves ex_solves). }
  split.
  { destruct (C128_copies 3 0 1 cramer (fun _ _ => false) ex_all3 (fun _ => []) (fun _ => []) (fun _ => []) (fun _ => []) [@ex3_reg R _] [@ex3_reg R _; ex3_reg; ex3_reg] 1 (fun _ => (exX, exrow [2;4;8]%Z)) ex_lf) as (f1 & f3 & l1 & E1 & E3 & _); try assumption; try apply ex3_deepest; try apply ex_data; try apply ex_determined; try apply ex_solves; try reflexivity; try lia; try discriminate.
    - split; [reflexivity|]. intros q Hq. destruct q as [|[|[|q]]]; [reflexivity|reflexivity|reflexivity|cbn in Hq; lia].
    - intros; split; reflexivity.
    - exists f3. rewrite E3. congruence. }
  split.
  { destruct (C128_units 2 0 1 cramer (fun _ _ => false) ex_all3 (fun _ => []) (fun _ => []) [@ex3_reg R _] 1 _ ex_lf ltac:(lra) WF ex3_deepest PL eq_refl ex_data US ex_determined eq_refl ex_solves) as (f1 & l1 & E1 & E2). exists (map (scale_tree 2) f1). assert (l1 = l) by congruence. subst l1. exact E2. }
  destruct (OPT [0;1] (fun _ => ex_mean)) as [LE _].
  - reflexivity.
  - intros [|q] t i k N Hi Hk; [|destruct q; discriminate N]. injection N as <-. apply ex_level_mean; auto.
  - cbv zeta in LE. cbn [length] in LE. eapply Rle_trans; [exact LE|]. apply Req_le. unfold mean_sse. apply sumto_ext. intros q Hq. f_equal. apply sumto_ext. intros x Hx. f_equal. f_equal. cbn. ring.
Qed.
