(** Props_Oobs: what smooth_clean sees of the observations. *)
From Coq Require Import Reals Lra Lia QArith Permutation.
From Verif Require Import Base TreeSpec Spec M_Tree M_Gamma M_Levels M_Prox M_Grad M_Sgd M_Smooth M_Clean
  SpecSmooth SpecTune SpecClean SpecRel SpecOobs L_Base L_Gamma L_Oobs Props_Clean.
Local Open Scope R_scope.

(** ** C125: the out-of-bag leaves and responses are all smooth_clean sees *)

(** C125: two data sets that agree, up to the numbering of the observations, on which observation is out of bag for which tree, on the leaves of these trees and on the responses of the observations that are out of bag somewhere: every run of smooth_clean on one (any start, step size, descent, distance, sampling) ends as the run on the other, with the same forest, weights and costs or with the same error. *)
Theorem C125_same : forall ts (o : clean_opts R) X' y' pi oob oob' draws draws', Forall wf_tree ts -> ts <> [] -> k_X o <> [] -> length (k_y o) = length (k_X o) ->
  oob_rows oob (length ts) (length (k_X o)) -> oob_rows oob' (length ts) (length (k_X o)) ->
  same_oob ts pi oob oob' (k_X o) X' (k_y o) y' -> same_draws pi (length (k_X o)) draws draws' ->
  smooth_clean (Forest Reg ts) (clean_with o X' y') oob' draws' = smooth_clean (Forest Reg ts) o oob draws.
Proof. exact p_same_oob. Qed.
Print Assumptions C125_same.

(** So the order of the observations does not matter, ... *)
Theorem C125_order : forall ts (o : clean_opts R) pi oob oob' draws, Forall wf_tree ts -> ts <> [] -> k_X o <> [] -> length (k_y o) = length (k_X o) ->
  oob_rows oob (length ts) (length (k_X o)) -> oob_rows oob' (length ts) (length (k_X o)) ->
  Permutation (map pi (seq 0 (length (k_X o)))) (seq 0 (length (k_X o))) ->
  (forall i q, (i < length (k_X o))%nat -> (q < length ts)%nat -> (In i (oob' q) <-> In (pi i) (oob q))) ->
  (forall d i, In d draws -> In i d -> (i < length (k_X o))%nat) ->
  smooth_clean (Forest Reg ts) (clean_with o (map (fun i => nth (pi i) (k_X o) []) (seq 0 (length (k_X o)))) (map (fun i => nth (pi i) (k_y o) 0) (seq 0 (length (k_X o))))) oob' draws
  = smooth_clean (Forest Reg ts) o oob (map (map pi) draws).
Proof. exact p_oob_order. Qed.
Print Assumptions C125_order.

(** ... nor do the observations every tree was trained on, nor order and repetitions in the out-of-bag lists. *)
Theorem C125_unused : forall ts (o : clean_opts R) X' y' oob oob' draws, Forall wf_tree ts -> ts <> [] -> k_X o <> [] -> length (k_y o) = length (k_X o) ->
  oob_rows oob (length ts) (length (k_X o)) -> length X' = length (k_X o) -> length y' = length (k_y o) ->
  (forall i q, (q < length ts)%nat -> (In i (oob' q) <-> In i (oob q))) ->
  (forall i q, (q < length ts)%nat -> In i (oob q) -> nth i X' [] = nth i (k_X o) [] /\ nth i y' 0 = nth i (k_y o) 0) ->
  (forall d i, In d draws -> In i d -> (i < length (k_X o))%nat) ->
  smooth_clean (Forest Reg ts) (clean_with o X' y') oob' draws = smooth_clean (Forest Reg ts) o oob draws.
Proof. exact p_oob_unused. Qed.
Print Assumptions C125_unused.

(** The three observations turned round. *)
Definition turn (i : nat) : nat := nth i [2;0;1]%nat i.
Example C125_ex : forall san full (t : R) draws, (forall d i, In d draws -> In i d -> (i < 3)%nat) ->
  smooth_clean (Forest Reg ex_ts) (clean_with (ex_clean san full t) (map exrow [[3;5];[0;0];[3;1]]%Z) (exrow [8;2;4]%Z)) (fun q => nth q [[1;2];[0;2]]%nat []) draws
  = smooth_clean (Forest Reg ex_ts) (ex_clean san full t) ex_oob (map (map turn) draws).
Proof.
  intros. apply (C125_order ex_ts (ex_clean san full t) turn); try apply ex_ok; try discriminate; auto.
  - intros [|[|q]] o Hq Hi; cbn in *; lia.
  - cbn. apply Permutation_sym, (Permutation_cons_app [2]%nat [1]%nat 0%nat). cbn. apply perm_swap.
  - intros i q Hi Hq. cbn in Hi, Hq. do 3 (destruct i as [|i]; [destruct q as [|[|q]]; cbn; try lia; tauto|]). lia.
Qed.
(** With observation 0 in the sample of both trees, its features and its response may be anything. *)
Example C125_ex_unused : forall san full (t a b c : R) draws, (forall d i, In d draws -> In i d -> (i < 3)%nat) ->
  smooth_clean (Forest Reg ex_ts) (clean_with (ex_clean san full t) ([a; b] :: tl exX) (c :: tl (exrow [2;4;8]%Z))) (fun q => nth q [[1;1];[2;1]]%nat []) draws
  = smooth_clean (Forest Reg ex_ts) (ex_clean san full t) (fun q => nth q [[1];[1;2]]%nat []) draws.
Proof.
  intros. apply C125_unused; try apply ex_ok; try discriminate; auto.
  - intros [|[|q]] o Hq Hi; cbn in *; lia.
  - intros i [|[|q]] Hq; cbn in *; [lia|lia|lia].
  - intros i [|[|q]] Hq Hi; cbn in Hi, Hq; try lia; destruct i as [|i]; try lia; split; reflexivity.
Qed.

(** The units of the responses do matter: the first summand of the gradient (C34) does not scale with them.  Responses and trees in another unit (twice the numbers), the step size divided by the square of the factor, so that a scaled gradient would give the same steps: other weights. *)
Definition ex_unit (c : Q) : result (list Q) :=
  do '(_, lamb, _) <- smooth_clean (Forest Reg (map (scale_tree c) ex_ts))
     {| k_X := exX; k_y := map (Qmult c) (exrow [2;4;8]%Z); k_no_constraint := true; k_sanity := false; k_t_fix := ((1#100) / (c * c))%Q;
        k_all_obs := false; k_use_full := false; k_n_obs := 3; k_lamb_draws := None; k_style := Standard;
        k_dist := DDepth false; k_adam := None |} ex_oob [[0;1;2]]%nat;
  Ok (map Qred lamb).
Theorem C125_units_refuted : exists c lamb lamb', Qlt 0 c /\ Forall (@wf_tree Q) (map (scale_tree c) ex_ts) /\
  ex_unit 1 = Ok lamb /\ ex_unit c = Ok lamb' /\ lamb <> lamb'.
Proof.
  exists 2%Q. do 2 eexists. split; [reflexivity|]. split; [repeat constructor|]. split; [vm_compute; reflexivity|]. split; [vm_compute; reflexivity|]. discriminate.
Qed.
Print Assumptions C125_units_refuted.
