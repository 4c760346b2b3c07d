(** Props_Sgd: property theorems about the projection, the gradients, Adam and
    the descent loops. *)
From Verif Require Import Base TreeSpec Spec M_Gamma M_Prox M_Grad M_Sgd L_Base L_Prox L_Sgd L_Grad L_Sgd2.
From Coq Require Import Reals Lra QArith.
Local Open Scope R_scope.

(** ** C20, C21, C22: the projection *)

(** C20: on a descending vector whose positive part sums to at least 1, prox_project returns the point of the simplex nearest to its input. *)
Theorem C20_prox_projection_sorted : forall y : list R, y <> [] -> desc y -> 1 <= nsum (map ppos y) ->
  exists r, prox_project y = Ok (r, map ppos y) /\ simplex (length y) r /\
  forall z, simplex (length y) z -> sqdist r y <= sqdist z y.
Proof. exact prox_optimal. Qed.
Print Assumptions C20_prox_projection_sorted.

Example C20_ex_hyp : desc [3; 1; -2] /\ 1 <= nsum (map ppos [3; 1; -2]).
Proof.
  split; [repeat constructor; lra|]. unfold ppos. cbn [map]. rewrite !nsum_cons, nsum_nil.
  rewrite !Rmax_left by lra. rewrite Rmax_right by lra. lra.
Qed.
Example C20_ex : prox_project [3#4; 1#2; -2]%Q = Ok ([5#8; 3#8; 0], [3#4; 1#2; 0])%Q.
Proof. vm_compute. reflexivity. Qed.

(** C21: on every non-empty vector prox_project returns; no entry is negative or above the positive part of the input; the caller's array keeps its positive part. *)
Theorem C21_prox_general : forall y : list R, y <> [] ->
  exists r, prox_project y = Ok (r, map ppos y) /\ length r = length y /\
  forall i, (i < length y)%nat -> 0 <= nth i r 0 <= ppos (nth i y 0).
Proof. exact prox_general. Qed.
Print Assumptions C21_prox_general.

(** ... when the positive part sums to at most 1 it is returned unchanged ... *)
Theorem C21_prox_small : forall y : list R, y <> [] -> nsum (map ppos y) <= 1 ->
  prox_project y = Ok (map ppos y, map ppos y).
Proof. exact prox_small. Qed.
Print Assumptions C21_prox_small.

(** ... so results can sum to less than 1, and unsorted inputs give sums above 1. *)
Theorem C21_not_on_simplex_refuted :
  (exists (y r : list R) o, prox_project y = Ok (r, o) /\ nsum r < 1) /\
  (exists (y r : list R) o, prox_project y = Ok (r, o) /\ 1 <= nsum (map ppos y) /\ 1 < nsum r).
Proof. exact prox_off_simplex. Qed.
Print Assumptions C21_not_on_simplex_refuted.

Example C21_ex : prox_project [0; 2]%Q = Ok ([0; 3#2], [0; 2])%Q /\ prox_project [1#2; -1]%Q = Ok ([1#2; 0], [1#2; 0])%Q.
Proof. vm_compute. auto. Qed.

(** C22 (descent level; smooth itself is treated in Props_Smooth): the cross-entropy descent fails on its first constrained step. *)
Theorem C22_prox_ce_always_fails : forall (y : list R) eps, prox_project_ce y eps = Err AssertionError.
Proof. exact prox_ce_fails. Qed.
Print Assumptions C22_prox_ce_always_fails.
Theorem C22_sgd_ce_never_returns : forall (lg : R -> R) (P : problem R) init t eps ad draws,
  draws <> [] -> exists e, stocastic_grad_descent_ce lg P init t true eps ad draws = Err e.
Proof. exact sgd_ce_never. Qed.
Print Assumptions C22_sgd_ce_never_returns.
Theorem C22_sgd_ce_assertion : forall (lg : R -> R) (P : problem R) init t eps ad draws,
  draws <> [] -> ncols (p_Gamma P) = length init -> p_tidx P <> [] ->
  stocastic_grad_descent_ce lg P init t true eps ad draws = Err AssertionError.
Proof. exact sgd_ce_fails. Qed.
Print Assumptions C22_sgd_ce_assertion.

(** ** C23, C24: gradients *)

(** C23: every component of take_gradient is the partial derivative of calc_cost, where every row has non-zero mass or is empty. *)
Theorem C23_take_gradient : forall (y w : list R) (G E : mat R) (l : list R) k,
  length w = length y -> length G = length y -> length E = length y -> (k < length l)%nat ->
  (forall i, (i < length y)%nat ->
     dot (nth i E []) l <> 0 \/ ((forall x, In x (nth i E []) -> x = 0) /\ (forall x, In x (nth i G []) -> x = 0))) ->
  exists g f delta, take_gradient y G E w l = Ok g /\ length g = length l /\ 0 < delta /\
    (forall x, Rabs (x - nth k l 0) < delta -> calc_cost y G E w (upd l k x) = Ok (f x)) /\
    derivable_pt_lim f (nth k l 0) (nth k g 0).
Proof. exact take_gradient_derivative. Qed.
Print Assumptions C23_take_gradient.

Example C23_ex : take_gradient [1;2]%Q [[2;1];[0;0]]%Q [[2;2];[0;0]]%Q [1;1]%Q [1#2;1#2]%Q = Ok [-1#8; 1#8]%Q.
Proof. vm_compute. reflexivity. Qed.
Example C23_ex_hyp : let E := [[2;2];[0;0]] in let G := [[2;1];[0;0]] in let l := [1/2;1/2] in
  forall i, (i < 2)%nat ->
     dot (nth i E []) l <> 0 \/ ((forall x, In x (nth i E []) -> x = 0) /\ (forall x, In x (nth i G []) -> x = 0)).
Proof.
  intros E G l i Hi. destruct i as [|[|i]]; [left|right|lia].
  - subst E l. cbn [nth]. rewrite !dot_cons, dot_nil_l. lra.
  - cbn. split; intros x [<-|[<-|[]]]; reflexivity.
Qed.

(** C24: every component of take_gradient_ce is the partial derivative of calc_cost_ce, where every row has positive mass and positive predicted probability. *)
Theorem C24_take_gradient_ce : forall (p w : list R) (G E : mat R) (l : list R) k,
  length w = length p -> length G = length p -> length E = length p -> (k < length l)%nat ->
  (forall i, (i < length p)%nat -> 0 < dot (nth i E []) l /\ 0 < dot (nth i G []) l) ->
  exists g f delta, take_gradient_ce p G E w l = Ok g /\ length g = length l /\ 0 < delta /\
    (forall x, Rabs (x - nth k l 0) < delta -> calc_cost_ce ln p G E w (upd l k x) = f x) /\
    derivable_pt_lim f (nth k l 0) (nth k g 0).
Proof. exact take_gradient_ce_derivative. Qed.
Print Assumptions C24_take_gradient_ce.

Example C24_ex : take_gradient_ce [1;1#2]%Q [[2;1];[1;1]]%Q [[2;2];[1;3]]%Q [1;2]%Q [1#2;1#2]%Q = Ok [-5#6; 5#6]%Q.
Proof. vm_compute. reflexivity. Qed.
Example C24_ex_hyp : let E := [[2;2];[1;3]] in let G := [[2;1];[1;1]] in let l := [1/2;1/2] in
  forall i, (i < 2)%nat -> 0 < dot (nth i E []) l /\ 0 < dot (nth i G []) l.
Proof. intros E G l i Hi. destruct i as [|[|i]]; [| |lia]; subst E G l; cbn [nth]; rewrite !dot_cons, !dot_nil_l; lra. Qed.

(** ** C25: Adam *)

(** C25: after any history of (weights, gradient) calls, oldest first, t is the number of calls, the moments are the exponentially weighted sums of the whole history (a new squared gradient enters with weight 1 - beta_1), and the new weights are one Adam step from the last weights. *)
Theorem C25_adam_history : forall (p : adam_par R) K (h : list (list R * list R)), h <> [] ->
  (forall l g, In (l, g) h -> length l = K /\ length g = K) ->
  exists v, adam_history p None h = Ok (Some v) /\ iv_t v = length h /\ length (iv_lamb v) = K /\
    length (iv_m1 v) = K /\ length (iv_m2 v) = K /\
    forall k, (k < K)%nat -> let gs := map (fun lg => nth k (snd lg) 0) h in
      nth k (iv_m1 v) 0 = (1 - ad_b1 p) * ewsum (ad_b1 p) gs /\
      nth k (iv_m2 v) 0 = (1 - ad_b1 p) * ewsum (ad_b2 p) (map (fun g => g * g) gs) /\
      nth k (iv_lamb v) 0 = adam_next (ad_alpha p) (ad_b1 p) (ad_b2 p) (ad_eps p) (1 - ad_b1 p) gs
                                      (nth k (fst (last h ([], []))) 0).
Proof. exact adam_history_spec. Qed.
Print Assumptions C25_adam_history.

(** ... so with equal decay rates it is published Adam ... *)
Theorem C25_published_when_equal : forall (p : adam_par R) K (h : list (list R * list R)), h <> [] ->
  (forall l g, In (l, g) h -> length l = K /\ length g = K) -> ad_b1 p = ad_b2 p ->
  exists v, adam_history p None h = Ok (Some v) /\
    forall k, (k < K)%nat -> let gs := map (fun lg => nth k (snd lg) 0) h in
      nth k (iv_lamb v) 0 = adam_next (ad_alpha p) (ad_b1 p) (ad_b2 p) (ad_eps p) (1 - ad_b2 p) gs
                                      (nth k (fst (last h ([], []))) 0).
Proof. exact adam_equal. Qed.
Print Assumptions C25_published_when_equal.

(** ... with different rates in (0,1) the very first step already differs whenever the gradient is not 0 ... *)
Theorem C25_differs_otherwise : forall (p : adam_par R) (lam g : R),
  0 < ad_b1 p < 1 -> 0 < ad_b2 p < 1 -> ad_b1 p <> ad_b2 p -> 0 < ad_alpha p -> 0 <= ad_eps p -> g <> 0 ->
  exists v, adam_history p None [([lam], [g])] = Ok (Some v) /\
    nth 0 (iv_lamb v) 0 <> adam_next (ad_alpha p) (ad_b1 p) (ad_b2 p) (ad_eps p) (1 - ad_b2 p) [g] lam.
Proof. exact adam_differs. Qed.
Print Assumptions C25_differs_otherwise.

(** ... for the default rates 0.9 and 0.999 the first step has a tenth of the published length ... *)
Theorem C25_default_first_step : forall (p : adam_par R) (lam g : R),
  ad_b1 p = 9/10 -> ad_b2 p = 999/1000 ->
  exists v, adam_history p None [([lam], [g])] = Ok (Some v) /\
    nth 0 (iv_lamb v) 0 = lam - ad_alpha p * g / (10 * Rabs g + ad_eps p) /\
    adam_next (ad_alpha p) (ad_b1 p) (ad_b2 p) (ad_eps p) (1 - ad_b2 p) [g] lam
      = lam - ad_alpha p * g / (Rabs g + ad_eps p).
Proof. exact adam_default. Qed.
Print Assumptions C25_default_first_step.

(** ... and adam_step itself raises NameError exactly when both starting arguments are absent. *)
Theorem C25_nameerror : forall gf l0 (p : adam_par R) iv, (forall x, gf x <> Err NameError) ->
  (adam_step gf l0 p iv = Err NameError <-> l0 = None /\ iv = None).
Proof. exact adam_nameerror. Qed.
Print Assumptions C25_nameerror.

Example C25_ex : adam_history {| ad_alpha := 1; ad_b1 := 1/2; ad_b2 := 1/4; ad_eps := 1 |} None
   [([1;0], [2;3]); ([0;0], [1;1])] <> Ok None.
Proof. cbn. discriminate. Qed.

(** ** C17, C18, C30: the descent loop *)

(** C17: the run is a chain of iterates.  Iterate 0 is the start, the last one is returned; every cost is the full cost of its iterate; each iterate comes from the previous one by a gradient (or Adam) step on the rows of the drawn tree (draw modulo the number of trees, which is one more than the largest tree index), projected when constrained; the best is the first iterate of least cost. *)
Theorem C17_sgd_trajectory : forall (P : problem R) init t cons ad draws best lst costs,
  length (p_y P) = length (p_tidx P) -> length (p_w P) = length (p_tidx P) ->
  length (p_Gamma P) = length (p_tidx P) -> length (p_eta P) = length (p_tidx P) ->
  stocastic_grad_descent P init t cons ad draws = Ok (best, lst, costs) ->
  exists nt its gs, (forall i, In i (p_tidx P) -> (i < nt)%nat) /\ In (nt - 1)%nat (p_tidx P) /\
    length its = S (length draws) /\ length costs = S (length draws) /\ length gs = length draws /\
    nth 0 its [] = init /\ nth (length draws) its [] = lst /\
    (forall s, (s <= length draws)%nat -> length (nth s its []) = length init /\
       (cons = true -> forall x, In x (nth s its []) -> 0 <= x) /\
       calc_cost (p_y P) (p_Gamma P) (p_eta P) (p_w P) (nth s its []) = Ok (nth s costs 0)) /\
    (forall s, (s < length draws)%nat ->
       (exists y w G E, let rows := rows_of (nth s draws 0%nat mod nt) (p_tidx P) in
          picked (p_y P) rows y /\ picked (p_w P) rows w /\ picked (p_Gamma P) rows G /\ picked (p_eta P) rows E /\
          take_gradient y G E w (nth s its []) = Ok (nth s gs [])) /\
       exists raw, length raw = length init /\
         (forall k, (k < length init)%nat -> nth k raw 0 =
            match ad with
            | None => nth k (nth s its []) 0 - t * nth k (last (firstn (S s) gs) []) 0
            | Some p => adam_next (ad_alpha p) (ad_b1 p) (ad_b2 p) (ad_eps p) (1 - ad_b1 p)
                          (map (fun g => nth k g 0) (firstn (S s) gs)) (nth k (nth s its []) 0)
            end) /\
         (if cons then exists over, prox_project raw = Ok (nth (S s) its [], over) else nth (S s) its [] = raw)) /\
    exists b, (b <= length draws)%nat /\ best = nth b its [] /\
      (forall s, (s <= length draws)%nat -> nth b costs 0 <= nth s costs 0) /\
      (forall s, (s < b)%nat -> nth b costs 0 < nth s costs 0).
Proof. exact sgd_trajectory_rows. Qed.
Print Assumptions C17_sgd_trajectory.

(** ... hence the best weights cost no more than the start, and what is recorded. *)
Theorem C17_best_not_worse : forall (P : problem R) init t cons ad draws best lst costs,
  stocastic_grad_descent P init t cons ad draws = Ok (best, lst, costs) ->
  exists cb c0, calc_cost (p_y P) (p_Gamma P) (p_eta P) (p_w P) best = Ok cb /\
    calc_cost (p_y P) (p_Gamma P) (p_eta P) (p_w P) init = Ok c0 /\ cb <= c0 /\ hd_error costs = Some c0 /\
    In cb costs /\ forall c, In c costs -> cb <= c.
Proof. exact sgd_best. Qed.
Print Assumptions C17_best_not_worse.

(** ... and with nonnegative mass and no response without mass, a constrained run from the simplex never fails. *)
Theorem C17_constrained_total : forall (P : problem R) init t ad draws,
  length (p_Gamma P) = length (p_eta P) ->
  (forall g e, In (g, e) (combine (p_Gamma P) (p_eta P)) ->
     length g = length init /\ length e = length init /\
     (forall k, 0 <= nth k e 0) /\ (forall k, nth k e 0 = 0 -> nth k g 0 = 0)) ->
  ncols (p_Gamma P) = length init -> p_tidx P <> [] -> simplex (length init) init ->
  exists r, stocastic_grad_descent P init t true ad draws = Ok r.
Proof. exact sgd_total'. Qed.
Print Assumptions C17_constrained_total.

Example ex_P : problem R := {| p_y := [1;2]; p_w := [1;1]; p_Gamma := [[2;1];[4;3]]; p_eta := [[2;2];[1;3]]; p_tidx := [0;1]%nat |}.
Example C17_ex_hyp : length (p_Gamma ex_P) = length (p_eta ex_P) /\ ncols (p_Gamma ex_P) = 2%nat /\ p_tidx ex_P <> [] /\
  simplex 2 [1/2;1/2] /\ forall g e, In (g, e) (combine (p_Gamma ex_P) (p_eta ex_P)) ->
     length g = 2%nat /\ length e = 2%nat /\ (forall k, 0 <= nth k e 0) /\ (forall k, nth k e 0 = 0 -> nth k g 0 = 0).
Proof.
  split; [reflexivity|]. split; [reflexivity|]. split; [discriminate|]. split.
  - split; [reflexivity|]. split; [intros x [<-|[<-|[]]]; lra|rewrite !nsum_cons, nsum_nil; lra].
  - intros g e [H|[H|[]]]; inversion H; subst; (split; [reflexivity|split; [reflexivity|split]]);
      intros [|[|[|k]]]; cbn; try lra.
Qed.
Example C17_ex : match stocastic_grad_descent {| p_y := [1;2]; p_w := [1;1]; p_Gamma := [[2;1];[4;3]]; p_eta := [[2;2];[1;3]]; p_tidx := [0;1]%nat |}%Q
    [1#2;1#2]%Q (1#1)%Q true None [0;1;0]%nat with
  | Ok (best, lst, [c0;c1;c2;c3]) => (Qle_bool c0 c1, Qle_bool c1 c2, Qle_bool c2 c3) = (false, true, false) /\ map Qred best = [5#8; 3#8]%Q | _ => False end.
Proof. vm_compute. auto. Qed.

(** C18: constrained runs only ever hold nonnegative weights; lengths never change. *)
Theorem C18_nonnegative_iterates : forall (P : problem R) init t cons ad draws best lst costs,
  stocastic_grad_descent P init t cons ad draws = Ok (best, lst, costs) ->
  (length best = length init /\ (cons = true -> forall x, In x best -> 0 <= x)) /\
  (length lst = length init /\ (cons = true -> forall x, In x lst -> 0 <= x)) /\
  forall s, (s <= length draws)%nat -> exists bs ls cs,
    stocastic_grad_descent P init t cons ad (firstn s draws) = Ok (bs, ls, cs) /\
    length ls = length init /\ (cons = true -> forall x, In x ls -> 0 <= x).
Proof. exact sgd_nonneg. Qed.
Print Assumptions C18_nonnegative_iterates.

(** C30 (descent level): TypeError exactly when the lengths disagree or a constrained start is off the simplex. *)
Theorem C30_sgd_typeerror : forall (P : problem R) init t cons ad draws,
  stocastic_grad_descent P init t cons ad draws = Err TypeError <->
  ncols (p_Gamma P) <> length init \/ (cons = true /\ (nsum init <> 1 \/ exists x, In x init /\ x < 0)).
Proof. exact sgd_typeerror. Qed.
Print Assumptions C30_sgd_typeerror.
