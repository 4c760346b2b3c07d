(** Props_Clean: property theorems about smooth_clean.py. *)
From Verif Require Import Base TreeSpec Spec M_Tree M_Gamma M_Levels M_Prox M_Grad M_Sgd M_Smooth M_Clean M_Float SpecSmooth SpecTune SpecClean.
From Verif Require Import L_Base L_Gamma L_Smooth L_Clean L_Clean2 L_Clean3 L_Float.
From Coq Require Import Reals Lra Lia QArith.
Local Open Scope R_scope.

(** ** Running example: two trees, three observations; observation 0 is out of bag for tree 0,
    observation 2 for tree 1, observation 1 for both. *)
Ltac exnum := unfold leaf_w, node_w, leaf_v, node_v; cbn; rewrite ?INR_IPR; unfold IPR, IPR_2; cbn; lra.
Definition ex_ts {T} {NT : Num T} : list (tree T) := [ex5_reg; ex3_reg].
Definition ex_oob (q : nat) : list nat := nth q [[0;1];[1;2]]%nat [].
Definition ex_clean {T} {NT : Num T} (san full : bool) (t : T) : clean_opts T :=
  {| k_X := exX; k_y := exrow [2;4;8]%Z; k_no_constraint := false; k_sanity := san; k_t_fix := t;
     k_all_obs := false; k_use_full := full; k_n_obs := 3; k_lamb_draws := None; k_style := Standard;
     k_dist := DDepth false; k_adam := None |}.
Lemma ex_ok : Forall (@wf_tree R) ex_ts /\ Forall (wf_values Reg) (@ex_ts R _) /\ Forall pos_leaves ex_ts /\
  @ex_ts R _ <> [] /\ oob_rows ex_oob (length (@ex_ts R _)) (length (@exX R _)).
Proof.
  split; [repeat constructor|]. split; [|split; [|split; [discriminate|]]].
  - repeat constructor; intros v Hv.
    + do 5 (destruct v as [|v]; [reflexivity|]). cbn in Hv. lia.
    + do 3 (destruct v as [|v]; [reflexivity|]). cbn in Hv. lia.
  - repeat constructor; intros j Hj.
    + do 3 (destruct j as [|j]; [exnum|]). cbn in Hj. lia.
    + do 2 (destruct j as [|j]; [exnum|]). cbn in Hj. lia.
  - intros [|[|q]] o Hq Hi; cbn in *; lia.
Qed.

(** ** C32 *)

(** C32: every observation's entry for tree q is the stacked row of its leaf, inside the rows of tree q; the weights are 0 for in-bag trees, 1 over the number of out-of-bag trees otherwise, hence sum to 1, or to 0 without out-of-bag tree. *)
Theorem C32_oob_info : forall (ts : list (tree R)) oob X, Forall wf_tree ts -> ts <> [] -> X <> [] -> oob_rows oob (length ts) (length X) ->
  exists idx w lf, generate_oob_info ts oob X = Ok (idx, w) /\ leaves_of ts X lf /\
  length idx = length X /\ length w = (length X * length ts)%nat /\
  forall o, (o < length X)%nat -> length (nth o idx []) = length ts /\
    (forall q, (q < length ts)%nat -> nth q (nth o idx []) 0%nat = leaf_row ts lf q o /\ (offset ts q <= leaf_row ts lf q o < offset ts (S q))%nat) /\
    (forall q, (q < length ts)%nat -> 0 <= nth (length ts * o + q) w 0 /\
       (out_of_bag oob o q = false -> nth (length ts * o + q) w 0 = 0) /\
       (out_of_bag oob o q = true -> nth (length ts * o + q) w 0 = 1 / oob_count oob (length ts) o)) /\
    ((exists q, (q < length ts)%nat /\ out_of_bag oob o q = true) -> sumto (length ts) (fun q => nth (length ts * o + q) w 0) = 1) /\
    ((forall q, (q < length ts)%nat -> out_of_bag oob o q = false) -> sumto (length ts) (fun q => nth (length ts * o + q) w 0) = 0).
Proof. exact p_C32. Qed.
Print Assumptions C32_oob_info.

Example C32_ex : generate_oob_info (@ex_ts Q _) ex_oob exX = Ok ([[0;3];[1;4];[2;4]]%nat, [1;0;1#2;1#2;0;1]%Q).
Proof. vm_compute. reflexivity. Qed.
Example C32_ex_hyp : Forall (@wf_tree R) ex_ts /\ @ex_ts R _ <> [] /\ @exX R _ <> [] /\ oob_rows ex_oob (length (@ex_ts R _)) (length (@exX R _)).
Proof. destruct ex_ok as (A&_&_&B&C). do 2 (split; [assumption|]). split; [discriminate|assumption]. Qed.

(** ** C33 *)

(** C33: the prediction for an ever-out-of-bag observation is the plain mean, over the trees not trained on it, of Gamma lamb / eta lamb at its leaf. *)
Theorem C33_prediction : forall ts oob X lf idx w Gamma eta obs lamb, oob_setting ts oob X lf idx w Gamma eta -> drawn X obs ->
  (forall o q, In o obs -> (q < length ts)%nat -> out_of_bag oob o q = true ->
     rowsum eta lamb (leaf_row ts lf q o) = 0 -> rowsum Gamma lamb (leaf_row ts lf q o) = 0) ->
  exists y ev, calc_y_oob lamb Gamma eta idx w obs = Ok (y, ev) /\ length y = length obs /\ length ev = length obs /\
  forall j, (j < length obs)%nat -> let o := nth j obs 0%nat in
    (nth j ev false = true <-> exists q, (q < length ts)%nat /\ out_of_bag oob o q = true) /\
    (nth j ev false = true -> nth j y 0 = oob_mean oob (length ts) o (fun q => smoothed Gamma eta lamb (leaf_row ts lf q o))) /\
    (nth j ev false = false -> nth j y 0 = 0).
Proof. intros ts oob X lf idx w Gamma eta obs lamb (A&B&C&D&E&F&G) (H&I). exact (p_C33 ts oob X lf idx w Gamma eta obs A B C D E F G I H lamb). Qed.
Print Assumptions C33_prediction.

(** ... the cost is the mean squared error of these predictions over the observations that are ever out of bag. *)
Theorem C33_cost : forall ts oob X lf idx w Gamma eta y lamb, oob_setting ts oob X lf idx w Gamma eta -> X <> [] -> length y = length X ->
  (forall o q, (o < length X)%nat -> (q < length ts)%nat -> out_of_bag oob o q = true ->
     rowsum eta lamb (leaf_row ts lf q o) = 0 -> rowsum Gamma lamb (leaf_row ts lf q o) = 0) ->
  full_cost {| c_Gamma := Gamma; c_eta := eta; c_idx := idx; c_w := w; c_y := y |} lamb =
  Ok (oob_mse oob (length ts) (seq 0 (length X)) y (fun o => oob_mean oob (length ts) o (fun q => smoothed Gamma eta lamb (leaf_row ts lf q o)))).
Proof. intros ts oob X lf idx w Gamma eta y lamb (A&B&C&D&E&F&G) NX LY. exact (p_C33_cost ts oob X lf idx w Gamma eta y A B C D E F G LY lamb NX). Qed.
Print Assumptions C33_cost.

(** ... and for the matrices smooth_clean uses, these are the mean predictions, and the out-of-bag error, of the forest it returns. *)
Theorem C33_forest : forall ts (o : clean_opts R) oob draws f lamb c lf,
  smooth_clean (Forest Reg ts) o oob draws = Ok (f, lamb, c) ->
  Forall wf_tree ts -> Forall pos_leaves ts -> ts <> [] -> k_X o <> [] -> oob_rows oob (length ts) (length (k_X o)) ->
  leaves_of ts (k_X o) lf -> (forall x, In x lamb -> 0 <= x) ->
  exists G E Ti idx w y ev, clean_matrices o ts = Ok (G, E, Ti) /\ generate_oob_info ts oob (k_X o) = Ok (idx, w) /\
    calc_y_oob lamb (concat G) E idx w (seq 0 (length (k_X o))) = Ok (y, ev) /\
    (forall i, (i < length (k_X o))%nat -> (nth i ev false = true <-> exists q, (q < length ts)%nat /\ out_of_bag oob i q = true) /\
       (nth i ev false = true -> nth i y 0 = oob_mean oob (length ts) i (fun q => leaf_v (nth q f no_tree) 0 (lf q i)))) /\
    (length (k_y o) = length (k_X o) ->
       full_cost {| c_Gamma := concat G; c_eta := E; c_idx := idx; c_w := w; c_y := k_y o |} lamb =
       Ok (oob_mse oob (length ts) (seq 0 (length (k_X o))) (k_y o) (fun i => oob_mean oob (length ts) i (fun q => leaf_v (nth q f no_tree) 0 (lf q i))))).
Proof. exact p_C33_forest. Qed.
Print Assumptions C33_forest.

Definition five (x : R) : mat R := repeat [x; x] 5.
Lemma ex_setting : exists lf idx w, oob_setting ex_ts ex_oob exX lf idx w (five 2) (five 1).
Proof.
  destruct C32_ex_hyp as (A&B&C&D). destruct (C32_oob_info _ _ _ A B C D) as (idx&w&lf&E&L&_).
  exists lf, idx, w. do 5 (split; [assumption|]). split; reflexivity.
Qed.
Lemma five_sum : forall x r, (r < 5)%nat -> rowsum (five x) [1; 0] r = x.
Proof. intros x r H. do 5 (destruct r as [|r]; [unfold rowsum; cbn; ring|]). lia. Qed.
Lemma ex_row : forall lf idx w G H o q, oob_setting ex_ts ex_oob exX lf idx w G H -> (q < 2)%nat -> (o < 3)%nat -> (leaf_row ex_ts lf q o < 5)%nat.
Proof.
  intros lf idx w G H o q (A&_&_&L&_) Hq Ho. pose proof (fun t E => L q t o E Ho) as L1.
  destruct q as [|[|q]]; [| |lia]; (specialize (L1 _ eq_refl); destruct L1 as [L1 _]; cbn in L1); unfold leaf_row;
    [change (offset (@ex_ts R _) 0) with 0%nat|change (offset (@ex_ts R _) 1) with 3%nat].
  - change (n_leaves (@ex5_reg R _)) with 3%nat in L1. lia.
  - change (n_leaves (@ex3_reg R _)) with 2%nat in L1. lia.
Qed.
Example C33_ex : forall lf idx w, oob_setting ex_ts ex_oob exX lf idx w (five 2) (five 1) -> exists y ev,
  calc_y_oob [1; 0] (five 2) (five 1) idx w [1]%nat = Ok (y, ev) /\ nth 0 y 0 = 2.
Proof.
  intros lf idx w OS. destruct (C33_prediction _ _ _ _ _ _ _ _ [1]%nat [1;0] OS) as (y&ev&E&_&_&V).
  - split; [discriminate|]. intros o [<-|[]]. cbn. lia.
  - intros o q [<-|[]] Hq _ Z. exfalso. rewrite five_sum in Z; [lra|]. eapply ex_row; eauto; lia.
  - exists y, ev. split; auto. destruct (V 0%nat ltac:(cbn; lia)) as (V1&V2&_). cbn [nth] in V1, V2. rewrite V2.
    + change (length (@ex_ts R _)) with 2%nat. unfold oob_mean, oob_count, sum_sel, out_of_bag. cbn -[five smoothed leaf_row ex_ts]. unfold smoothed. rewrite !five_sum by (eapply ex_row; eauto; lia).
      destruct (Req_EM_T 1 0); lra.
    + apply V1. exists 0%nat. split; [cbn; lia|reflexivity].
Qed.

(** ** C34 *)

(** C34: what calc_y_oob_grad returns. *)
Theorem C34_code : forall ts oob X lf idx w Gamma eta obs lamb, oob_setting ts oob X lf idx w Gamma eta -> drawn X obs ->
  exists g, calc_y_oob_grad lamb Gamma eta idx w obs = Ok g /\ length g = length obs /\
  forall j, (j < length obs)%nat -> let o := nth j obs 0%nat in length (nth j g []) = length lamb /\
  forall k, (k < length lamb)%nat ->
    (forall q, (q < length ts)%nat -> out_of_bag oob o q = true -> rowsum eta lamb (leaf_row ts lf q o) <> 0) ->
    nth k (nth j g []) 0 = oob_mean oob (length ts) o (fun q => let r := leaf_row ts lf q o in
      let G := rowsum Gamma lamb r in let H := rowsum eta lamb r in
      nth k (nth r Gamma []) 0 / (if Req_EM_T G 0 then 1 else G) - G * nth k (nth r eta []) 0 / (H * H)).
Proof. intros ts oob X lf idx w Gamma eta obs lamb (A&B&C&D&E&F&G) (H&I). exact (grad_forest ts oob X lf idx w Gamma eta obs A B C D E F G I H lamb). Qed.
Print Assumptions C34_code.

(** ... the derivative of the prediction of calc_y_oob with respect to weight k is the mean of (G_k H - G H_k) / H^2. *)
Theorem C34_derivative : forall ts oob X lf idx w Gamma eta obs lamb k j, oob_setting ts oob X lf idx w Gamma eta -> drawn X obs ->
  (k < length lamb)%nat -> (j < length obs)%nat -> let o := nth j obs 0%nat in
  (forall q, (q < length ts)%nat -> out_of_bag oob o q = true -> rowsum eta lamb (leaf_row ts lf q o) <> 0) ->
  exists f delta, 0 < delta /\
    (forall x, Rabs (x - nth k lamb 0) < delta -> exists y ev, calc_y_oob (upd lamb k x) Gamma eta idx w obs = Ok (y, ev) /\ nth j y 0 = f x) /\
    derivable_pt_lim f (nth k lamb 0) (oob_mean oob (length ts) o (fun q => let r := leaf_row ts lf q o in
      let G := rowsum Gamma lamb r in let H := rowsum eta lamb r in
      (nth k (nth r Gamma []) 0 * H - G * nth k (nth r eta []) 0) / (H * H))).
Proof. intros ts oob X lf idx w Gamma eta obs lamb k j (A&B&C&D&E&F&G) (H&I). exact (y_oob_derivative ts oob X lf idx w Gamma eta obs A B C D E F G I H lamb k j). Qed.
Print Assumptions C34_derivative.

(** ... the two differ by the mean of G_k (1/G - 1/H). *)
Theorem C34_error : forall ts oob X lf idx w Gamma eta obs lamb k, oob_setting ts oob X lf idx w Gamma eta -> drawn X obs -> (k < length lamb)%nat ->
  (forall o q, In o obs -> (q < length ts)%nat -> out_of_bag oob o q = true ->
     rowsum eta lamb (leaf_row ts lf q o) <> 0 /\ rowsum Gamma lamb (leaf_row ts lf q o) <> 0) ->
  exists g, calc_y_oob_grad lamb Gamma eta idx w obs = Ok g /\ forall j, (j < length obs)%nat -> let o := nth j obs 0%nat in
    nth k (nth j g []) 0 - oob_mean oob (length ts) o (fun q => let r := leaf_row ts lf q o in
      let G := rowsum Gamma lamb r in let H := rowsum eta lamb r in
      (nth k (nth r Gamma []) 0 * H - G * nth k (nth r eta []) 0) / (H * H)) =
    oob_mean oob (length ts) o (fun q => let r := leaf_row ts lf q o in nth k (nth r Gamma []) 0 * (/ rowsum Gamma lamb r - / rowsum eta lamb r)).
Proof.
  intros ts oob X lf idx w Gamma eta obs lamb k (A&B&C&D&E&F&G) (H&I) Hk NZ.
  apply (grad_error ts oob X lf idx w Gamma eta); auto; intros o q P1 P2 P3; apply (NZ o q P1 P2 P3).
Qed.
Print Assumptions C34_error.

(** ... hence agree when G = H at all leaves involved, and then calc_l2_grad is the gradient of the cost over the drawn observations. *)
Theorem C34_agrees : forall ts oob X lf idx w Gamma eta obs lamb k y, oob_setting ts oob X lf idx w Gamma eta -> drawn X obs -> (k < length lamb)%nat ->
  length y = length X ->
  (forall o q, In o obs -> (q < length ts)%nat -> out_of_bag oob o q = true ->
     rowsum eta lamb (leaf_row ts lf q o) <> 0 /\ rowsum Gamma lamb (leaf_row ts lf q o) = rowsum eta lamb (leaf_row ts lf q o)) ->
  (exists g, calc_y_oob_grad lamb Gamma eta idx w obs = Ok g /\ forall j, (j < length obs)%nat -> let o := nth j obs 0%nat in
    nth k (nth j g []) 0 = oob_mean oob (length ts) o (fun q => let r := leaf_row ts lf q o in
      let G := rowsum Gamma lamb r in let H := rowsum eta lamb r in
      (nth k (nth r Gamma []) 0 * H - G * nth k (nth r eta []) 0) / (H * H))) /\
  (exists r f, calc_l2_grad lamb Gamma eta idx w obs y = Ok r /\ length r = length lamb /\
    (forall x, part_cost {| c_Gamma := Gamma; c_eta := eta; c_idx := idx; c_w := w; c_y := y |} (upd lamb k x) obs = Ok (f x)) /\
    derivable_pt_lim f (nth k lamb 0) (nth k r 0)).
Proof.
  intros ts oob X lf idx w Gamma eta obs lamb k y (A&B&C&D&E&F&G) (H&I) Hk LY NZ. split.
  - apply (grad_agrees ts oob X lf idx w Gamma eta); auto; intros o q P1 P2 P3; apply (NZ o q P1 P2 P3).
  - apply (l2_agrees ts oob X lf idx w Gamma eta y); auto; intros o q P1 P2 P3; apply (NZ o q P1 P2 P3).
Qed.
Print Assumptions C34_agrees.

Example C34_ex_agrees : exists lf idx w, oob_setting ex_ts ex_oob exX lf idx w (five 2) (five 2) /\ drawn exX [0;1;2]%nat /\
  forall o q, In o [0;1;2]%nat -> (q < length (@ex_ts R _))%nat ->
     rowsum (five 2) [1;0] (leaf_row ex_ts lf q o) <> 0 /\ rowsum (five 2) [1;0] (leaf_row ex_ts lf q o) = rowsum (five 2) [1;0] (leaf_row ex_ts lf q o).
Proof.
  destruct ex_setting as (lf&idx&w&A&B&C&D&E&_). assert (OS : oob_setting ex_ts ex_oob exX lf idx w (five 2) (five 2)) by (do 5 (split; [assumption|]); split; reflexivity).
  exists lf, idx, w. split; auto. split.
  - split; [discriminate|]. intros o Ho. cbn in Ho. change (length (@exX R _)) with 3%nat. lia.
  - intros o q Ho Hq. cbn in Ho. change (length (@ex_ts R _)) with 2%nat in Hq. rewrite five_sum; [lra|]. eapply ex_row; eauto. lia.
Qed.

(** C34, negative part: calc_y_oob_grad is not the gradient of calc_y_oob. *)
Theorem C34_refuted : exists ts oob X lf idx w Gamma eta obs lamb g f d delta,
  oob_setting ts oob X lf idx w Gamma eta /\ drawn X obs /\
  (forall r, (r < length Gamma)%nat -> rowsum Gamma lamb r <> 0 /\ rowsum eta lamb r <> 0) /\
  calc_y_oob_grad lamb Gamma eta idx w obs = Ok g /\ 0 < delta /\
  (forall x, Rabs (x - nth 0 lamb 0) < delta -> exists y ev, calc_y_oob (upd lamb 0 x) Gamma eta idx w obs = Ok (y, ev) /\ nth 0 y 0 = f x) /\
  derivable_pt_lim f (nth 0 lamb 0) d /\ nth 0 (nth 0 g []) 0 <> d.
Proof.
  destruct ex_setting as (lf&idx&w&OS). assert (DR : drawn exX [0]%nat) by (split; [discriminate|intros o [<-|[]]; cbn; lia]).
  destruct (C34_error _ _ _ _ _ _ _ _ [0]%nat [1;0] 0 OS DR ltac:(cbn; lia)) as (g&E&V).
  { intros o q [<-|[]] Hq _. rewrite !five_sum; [lra| |]; eapply ex_row; eauto; lia. }
  destruct (C34_derivative _ _ _ _ _ _ _ _ [0]%nat [1;0] 0 0 OS DR ltac:(cbn; lia) ltac:(cbn; lia)) as (f&delta&Pd&F&DF).
  { intros q Hq _. rewrite five_sum; [lra|]; eapply ex_row; eauto; cbn; lia. }
  exists ex_ts, ex_oob, exX, lf, idx, w, (five 2), (five 1), [0]%nat, [1;0], g, f. eexists. exists delta.
  split; auto. split; auto. split; [intros r Hr; rewrite !five_sum by auto; lra|]. split; auto. split; auto. split; [exact F|]. split; [exact DF|].
  intros Z. specialize (V 0%nat ltac:(cbn; lia)). cbv zeta in V. rewrite Z in V. clear - V OS.
  cbv zeta in V. rewrite Rminus_diag_eq in V by reflexivity. change (length (@ex_ts R _)) with 2%nat in V. unfold oob_mean, oob_count, sum_sel, out_of_bag in V. cbn -[five rowsum leaf_row ex_ts] in V.
  rewrite !five_sum in V by (eapply ex_row; eauto; lia).
  assert (R5 : nth 0 (nth (leaf_row ex_ts lf 0 0) (five 2) []) 0 = 2).
  { assert (LR : (leaf_row ex_ts lf 0 0 < 5)%nat) by (eapply ex_row; eauto; lia). revert LR. generalize (leaf_row ex_ts lf 0 0). intros r LR.
    do 5 (destruct r as [|r]; [reflexivity|]). lia. }
  rewrite R5 in V. lra.
Qed.
Print Assumptions C34_refuted.

(** the same with the matrices of the forest itself: along the first weight alone the prediction does not change, the code's derivative is not 0 *)
Example C34_ex_forest : exists G E Ti idx w, clean_matrices (@ex_clean Q _ false true (1#10)%Q) ex_ts = Ok (G, E, Ti) /\
  generate_oob_info ex_ts ex_oob exX = Ok (idx, w) /\
  calc_y_oob [1;0;0]%Q (concat G) E idx w [0]%nat = Ok ([1]%Q, [true]) /\
  calc_y_oob [2;0;0]%Q (concat G) E idx w [0]%nat = Ok ([1]%Q, [true]) /\
  calc_y_oob [1;0;0]%Q (concat G) E idx w [1]%nat = calc_y_oob [2;0;0]%Q (concat G) E idx w [1]%nat /\
  exists a b c, calc_y_oob_grad [1;0;0]%Q (concat G) E idx w [1]%nat = Ok [[a;b;c]] /\ Qeq_bool a 0 = false.
Proof. do 5 eexists. split; [vm_compute; reflexivity|]. split; [vm_compute; reflexivity|].
  split; [vm_compute; reflexivity|]. split; [vm_compute; reflexivity|]. split; [vm_compute; reflexivity|].
  do 3 eexists. split; vm_compute; reflexivity. Qed.

(** ** C35 *)

(** C35: the iterates are the (Adam or plain) gradient steps followed by the projection and the recorded costs are theirs; with use_full_loss the initial weights are returned as the best ones whatever happened. *)
Theorem C35_trajectory : forall (P : clean_problem R) init n_obs full t cons ad draws best lst costs, draws <> [] ->
  stocastic_grad_descent_clean P init n_obs full t cons ad draws = Ok (best, lst, costs) ->
  exists its gs, length its = S (length draws) /\ length gs = length draws /\ length costs = S (length draws) /\
    nth 0 its [] = init /\ nth (length draws) its [] = lst /\
    (forall s, (s <= length draws)%nat -> length (nth s its []) = length init /\ ((0 < s)%nat -> cons = true -> forall x, In x (nth s its []) -> 0 <= x)) /\
    (forall s, (s < length draws)%nat ->
       calc_l2_grad (nth s its []) (c_Gamma P) (c_eta P) (c_idx P) (c_w P) (nth s draws []) (c_y P) = Ok (nth s gs []) /\
       (exists raw, length raw = length init /\
         (forall k, (k < length init)%nat -> nth k raw 0 =
            match ad with
            | None => nth k (nth s its []) 0 - t * nth k (last (firstn (S s) gs) []) 0
            | Some p => adam_next (ad_alpha p) (ad_b1 p) (ad_b2 p) (ad_eps p) (1 - ad_b1 p)
                          (map (fun g => nth k g 0) (firstn (S s) gs)) (nth k (nth s its []) 0)
            end) /\
         (if cons then exists over, prox_project raw = Ok (nth (S s) its [], over) else nth (S s) its [] = raw)) /\
       (if full then full_cost P (nth (S s) its []) else part_cost P (nth (S s) its []) (nth s draws [])) = Ok (nth (S s) costs 0)) /\
    (if full then full_cost P init else part_cost P init (nth 0 draws [])) = Ok (nth 0 costs 0) /\
    best = if full then init else lst.
Proof. exact p_C35_traj. Qed.
Print Assumptions C35_trajectory.

(** ... without steps the full loss fails (the best weights are never bound) and the other one returns the start. *)
Theorem C35_no_steps : forall (P : clean_problem R) init n_obs t cons ad,
  ncols (c_Gamma P) = length init -> (cons = true -> nsum init = 1 /\ forall x, In x init -> 0 <= x) ->
  stocastic_grad_descent_clean P init n_obs true t cons ad [] = Err UnboundLocalError /\
  stocastic_grad_descent_clean P init n_obs false t cons ad [] = Ok (init, init, []).
Proof. exact clean_no_steps. Qed.
Print Assumptions C35_no_steps.

Example C35_no_steps_ex : ncols [[1;2;3];[4;5;6]] = length [1;0;0] /\ nsum [1;0;0] = 1 /\ forall x, In x [1;0;0] -> 0 <= x.
Proof. split; [reflexivity|]. split; [rewrite !nsum_cons, nsum_nil; lra|]. intros x [<-|[<-|[<-|[]]]]; lra. Qed.

(** ... so smooth_clean with the full loss (or sanity_check) and the default start returns the original forest. *)
Theorem C35_smooth_unchanged : forall ts (o : clean_opts R) oob draws f lamb c,
  smooth_clean (Forest Reg ts) o oob draws = Ok (f, lamb, c) ->
  Forall wf_tree ts -> Forall (wf_values Reg) ts -> Forall pos_leaves ts -> ts <> [] -> separated (as_smooth o) ts ->
  (k_sanity o = true \/ ((k_all_obs o || k_use_full o)%bool = true /\ k_lamb_draws o = None)) -> f = ts.
Proof. exact p_C35_smooth. Qed.
Print Assumptions C35_smooth_unchanged.

(** C35, negative part: the cost of the weights returned as best is not the smallest recorded cost. *)
Theorem C35_refuted : exists (ts : list (tree Q)) (o : clean_opts Q) oob draws f lamb costs,
  Forall (@wf_tree Q) ts /\ k_use_full o = true /\
  smooth_clean (Forest Reg ts) o oob draws = Ok (f, lamb, costs) /\ lamb = [1;0;0]%Q /\ f = ts /\
  exists c0 c1 c2, costs = [c0; c1; c2] /\ Qlt c1 c0 /\ Qlt c2 c1.
Proof.
  exists ex_ts, (ex_clean false true (1#10)%Q), ex_oob, [[0;1;2];[0;1;2]]%nat. do 3 eexists.
  split; [repeat constructor|]. split; [reflexivity|]. split; [vm_compute; reflexivity|].
  split; [reflexivity|]. split; [reflexivity|]. do 3 eexists. split; [reflexivity|]. split; vm_compute; reflexivity.
Qed.
Print Assumptions C35_refuted.

(** ** C36 *)

(** C36: with the weights 1/m in IEEE double arithmetic and numpy's summation, an observation with m out-of-bag trees is kept if m is a power of two, *)
Theorem C36_power_of_two : forall mask k, (k <= 52)%nat -> mask_count mask = (2 ^ k)%nat -> float_ever_oob mask = true.
Proof. exact p_C36_pow. Qed.
Print Assumptions C36_power_of_two.

(** ... an observation that is in the sample of every tree is not kept, *)
Theorem C36_never : forall mask, mask_count mask = 0%nat -> float_ever_oob mask = false.
Proof. exact p_C36_none. Qed.
Print Assumptions C36_never.

(** ... and with at most 7 trees it is kept exactly for m from 1 to 5. *)
Theorem C36_small : forall mask, (length mask <= 7)%nat -> (float_ever_oob mask = true <-> (1 <= mask_count mask <= 5)%nat).
Proof. exact p_C36_small. Qed.
Print Assumptions C36_small.

Example C36_ex : mask_count [true;false;true;true;true;false;false;false;false;false;false] = (2 ^ 2)%nat /\
  mask_count (repeat false 3) = 0%nat /\ mask_count [true;false;true;true] = 3%nat.
Proof. repeat split. Qed.

(** C36, negative part: an observation that is out of bag for 6 trees is dropped, although it is kept in exact arithmetic (C33). *)
Theorem C36_dropped : exists mask, mask_count mask = 6%nat /\ float_ever_oob mask = false.
Proof. exists (repeat true 6). split; [reflexivity|]. vm_compute. reflexivity. Qed.
Print Assumptions C36_dropped.

(** ** C68: the forest returned by smooth_clean *)

(** C68: only leaf values change; each new value is the kernel-weighted mean of the leaf values of its tree with the returned weights, so lies in their range (or is 0, without mass) when the weights are not negative. *)
Theorem C68_forest : forall ts (o : clean_opts R) oob draws f lamb c,
  smooth_clean (Forest Reg ts) o oob draws = Ok (f, lamb, c) -> Forall wf_tree ts -> ts <> [] ->
  length f = length ts /\ forall q t, nth_error ts q = Some t -> exists t', nth_error f q = Some t' /\ same_but_leaf_values t t' /\
    (forall i, (i < n_leaves t)%nat -> exists kap, smooth_kernel (as_smooth o) ts t lamb i kap /\ leaf_v t' 0 i = kmean t Reg kap 0) /\
    (forall lo hi, pos_leaves t -> (forall x, In x lamb -> 0 <= x) -> (forall j, (j < n_leaves t)%nat -> lo <= leaf_v t 0 j <= hi) ->
       forall i, (i < n_leaves t)%nat -> lo <= leaf_v t' 0 i <= hi \/ leaf_v t' 0 i = 0).
Proof. exact p_C68. Qed.
Print Assumptions C68_forest.

(** ... the weights of a constrained call are not negative. *)
Theorem C68_weights : forall ts (o : clean_opts R) oob draws f lamb c,
  smooth_clean (Forest Reg ts) o oob draws = Ok (f, lamb, c) -> Forall wf_tree ts -> ts <> [] ->
  k_no_constraint o = false -> forall x, In x lamb -> 0 <= x.
Proof. exact p_C68_weights. Qed.
Print Assumptions C68_weights.

(** ... and a constrained call with usable data returns. *)
Theorem C68_returns : forall ts (o : clean_opts R) oob draws,
  Forall wf_tree ts -> ts <> [] -> matrices_exist (as_smooth o) ts -> k_X o <> [] -> length (k_y o) = length (k_X o) ->
  oob_rows oob (length ts) (length (k_X o)) -> draws_ok (as_smooth o) -> k_no_constraint o = false ->
  (k_all_obs o = true \/ (k_n_obs o <= length (k_X o))%nat) ->
  (forall d, In d draws -> d <> [] /\ forall i, In i d -> (i < length (k_X o))%nat) ->
  (draws <> [] \/ (k_all_obs o = false /\ k_use_full o = false) \/ k_sanity o = true) ->
  exists f lamb c, smooth_clean (Forest Reg ts) o oob draws = Ok (f, lamb, c).
Proof. exact p_C68_returns. Qed.
Print Assumptions C68_returns.

(** ... anything but a regression forest is refused with ValueError; ... *)
Theorem C68_kind : forall rf (o : clean_opts R) oob draws, (forall ts, rf <> Forest Reg ts) -> smooth_clean rf o oob draws = Err ValueError.
Proof. intros [[|c] ts|] o oob draws H; [exfalso; eapply H; reflexivity|reflexivity|reflexivity]. Qed.
Print Assumptions C68_kind.

(** ... and so, when the descent runs, are more observations per step (50 by default) than there are; with the full loss and no step the call ends in UnboundLocalError. *)
Theorem C68_errors : forall ts (o : clean_opts R) oob draws,
  Forall wf_tree ts -> ts <> [] -> matrices_exist (as_smooth o) ts -> k_X o <> [] ->
  oob_rows oob (length ts) (length (k_X o)) -> draws_ok (as_smooth o) -> k_sanity o = false ->
  (k_all_obs o = false -> draws <> [] -> (length (k_X o) < k_n_obs o)%nat -> smooth_clean (Forest Reg ts) o oob draws = Err ValueError) /\
  (draws = [] -> (k_all_obs o = true \/ k_use_full o = true) -> smooth_clean (Forest Reg ts) o oob draws = Err UnboundLocalError).
Proof. exact p_C68_errors. Qed.
Print Assumptions C68_errors.

(** the default of 50 on three observations *)
Definition ex_clean50 : clean_opts R :=
  {| k_X := exX; k_y := exrow [2;4;8]%Z; k_no_constraint := false; k_sanity := false; k_t_fix := 1;
     k_all_obs := false; k_use_full := false; k_n_obs := 50; k_lamb_draws := None; k_style := Standard;
     k_dist := DDepth false; k_adam := None |}.
Example C68_errors_ex : forall d ds, smooth_clean (Forest Reg ex_ts) ex_clean50 ex_oob (d :: ds) = Err ValueError.
Proof.
  intros d ds. destruct ex_ok as (A&B&C&D&E). apply (C68_errors ex_ts ex_clean50 ex_oob (d :: ds)); auto; try exact I; try discriminate. cbn. lia.
Qed.
Example C68_kind_ex : forall ts, smooth_clean (Forest (Class 2) ts) ex_clean50 ex_oob [] = Err ValueError.
Proof. intros ts. apply C68_kind. discriminate. Qed.

Example C68_ex : forall san full t, exists f lamb c,
  smooth_clean (Forest Reg ex_ts) (ex_clean san full t) ex_oob [[0;2];[1;2]]%nat = Ok (f, lamb, c) /\ (full = true -> f = @ex_ts R _).
Proof.
  intros san full t. destruct ex_ok as (A&B&C&D&E).
  destruct (C68_returns ex_ts (ex_clean san full t) ex_oob [[0;2];[1;2]]%nat) as (f&lamb&c&H); auto; try exact I; try discriminate; try (right; cbn; lia).
  - intros d [<-|[<-|[]]]; (split; [discriminate|]); intros i [<-|[<-|[]]]; cbn; lia.
  - left. discriminate.
  - exists f, lamb, c. split; auto. intros ->. eapply C35_smooth_unchanged; eauto. exact I.
Qed.

Example C33_ex_forest : forall t : R, exists f (lamb c : list R) lf,
  smooth_clean (Forest Reg ex_ts) (ex_clean false false t) ex_oob [[0;2];[1;2]]%nat = Ok (f, lamb, c) /\ leaves_of ex_ts exX lf /\ (forall x, In x lamb -> 0 <= x).
Proof.
  intros t. destruct (C68_ex false false t) as (f&lamb&c&H&_). destruct ex_ok as (A&_&_&B&_).
  destruct (leaves_of_ex (@ex_ts R _) exX A) as (lf&L). exists f, lamb, c, lf. split; auto. split; auto.
  eapply C68_weights; eauto.
Qed.
