(** M_Grad: model of the costs and gradients (smooth_base.py:762-1054) and of
    adam_step (adam_sgd.py:11-71). *)
From Verif Require Import Base.

Section Model.
Context {T : Type} {NT : Num T}.
Local Open Scope num_scope.
Local Notation mat := (list (list T)).

(** [eta_fill[eta_fill == 0] = 1] (smooth_base.py:802, 854, 993, 1047) *)
Definition fill1 (e : list T) : list T := map (fun x => if x =? n0 then n1 else x) e.

(** [np.all(Gamma_fill[eta_fill == 0] == 0)] (smooth_base.py:799, 851, 990) *)
Definition zero_ok (Gf Ef : list T) : bool :=
  forallb (fun b => b) (map2 (fun g e => if e =? n0 then g =? n0 else true) Gf Ef).

(** smooth_base.py:796-802 / 848-854 / 988-993: [Gamma @ lamb], the filled [eta @ lamb];
    AssertionError when a row has zero mass but a non-zero response sum *)
Definition fills (Gamma eta : mat) (lamb : list T) : result (list T * list T) :=
  let Gf := mv Gamma lamb in
  let Ef := mv eta lamb in
  if zero_ok Gf Ef then Ok (Gf, fill1 Ef) else Err AssertionError.

(** smooth_base.py:956-997 [calc_cost] *)
Definition calc_cost (y : list T) (Gamma eta : mat) (w lamb : list T) : result T :=
  do '(Gf, Ef) <- fills Gamma eta lamb;
  let r := map2 nsub y (map2 ndiv Gf Ef) in
  Ok (nsum (map2 (fun ri wi => ri * ri * wi) r w)).

(** column k of a matrix *)
Definition col (k : nat) (M : mat) : list T := map (fun r => nth k r n0) M.

(** smooth_base.py:762-810 [take_gradient]; component k is
    -2 * sum_i r_i w_i (Gamma_ik/Ef_i - Gf_i/Ef_i^2 * eta_ik) *)
Definition take_gradient (y : list T) (Gamma eta : mat) (w lamb : list T) : result (list T) :=
  do '(Gf, Ef) <- fills Gamma eta lamb;
  let r := map2 nsub y (map2 ndiv Gf Ef) in
  let rw := map2 nmul r w in
  Ok (map (fun k =>
        - ((n1 + n1) * nsum (map2 nmul rw
             (map2 nsub (map2 (fun e g => n1 / e * g) Ef (col k Gamma))
                        (map2 nmul (map2 (fun g e => g / (e * e)) Gf Ef) (col k eta))))))
      (seq 0 (length lamb))).

(** smooth_base.py:812-863 [take_gradient_ce].  [eta_fill2] aliases [eta_fill]
    (line 850), so both are the filled vector. *)
Definition take_gradient_ce (p : list T) (Gamma eta : mat) (w lamb : list T) : result (list T) :=
  do '(Gf, Ef) <- fills Gamma eta lamb;
  let phat := map2 ndiv Gf Ef in
  let left_npp := map2 ndiv (map2 (fun wi pi => - wi * pi) w p) phat in
  Ok (map (fun k => dot
        (map2 (fun num e => num / (e * e))
           (map2 nsub (map2 nmul (col k Gamma) Ef) (map2 nmul (col k eta) Gf)) Ef) left_npp)
      (seq 0 (length lamb))).

(** smooth_base.py:999-1054 [calc_cost_ce]; [lg] is np.log.  The two asserts of
    lines 1038-1041 are inside a try whose handler only opens the debugger
    (pdb.set_trace, line 1043); the model continues, as a developer typing "c"
    would. *)
Definition calc_cost_ce (lg : T -> T) (p : list T) (Gamma eta : mat) (w lamb : list T) : T :=
  let Gf := mv Gamma lamb in
  let Ef := fill1 (mv eta lamb) in
  let phat := map2 ndiv Gf Ef in
  let use := map2 (fun wi pi => negb (wi =? n0) && negb (pi =? n0))%bool w p in
  - nsum (map2 nmul (map2 nmul (mask_select use w) (mask_select use p))
                    (map lg (mask_select use phat))).

(** adam_sgd.py:11-15: the numeric parameters *)
Record adam_par := { ad_alpha : T; ad_b1 : T; ad_b2 : T; ad_eps : T }.
(** adam_sgd.py:52-56: the dictionary internal_values *)
Record adam_iv := { iv_t : nat; iv_lamb : list T; iv_m1 : list T; iv_m2 : list T }.

(** adam_sgd.py:61-69: the update proper.  Line 64 uses (1 - beta_1) for the
    second moment too. *)
Definition adam_update (p : adam_par) (iv : adam_iv) (grad : list T) : adam_iv :=
  let tt := S (iv_t iv) in
  let m1 := map2 (fun m g => m * ad_b1 p + (n1 - ad_b1 p) * g) (iv_m1 iv) grad in
  let m2 := map2 (fun m g => m * ad_b2 p + (n1 - ad_b1 p) * (g * g)) (iv_m2 iv) grad in
  let h1 := map (fun m => m / (n1 - npow (ad_b1 p) tt)) m1 in
  let h2 := map (fun m => m / (n1 - npow (ad_b2 p) tt)) m2 in
  {| iv_t := tt;
     iv_lamb := map2 nsub (iv_lamb iv)
                  (map2 (fun a b => ad_alpha p * a / (nsqrt b + ad_eps p)) h1 h2);
     iv_m1 := m1; iv_m2 := m2 |}.

(** adam_sgd.py:11-71 [adam_step] *)
Definition adam_step (grad_fun : list T -> result (list T)) (lamb_init : option (list T))
    (p : adam_par) (iv : option adam_iv) : result (list T * adam_iv) :=
  do iv1 <- match iv, lamb_init with
            | None, None => Err NameError
            | None, Some l => Ok {| iv_t := 0; iv_lamb := l; iv_m1 := repeat n0 (length l);
                                    iv_m2 := repeat n0 (length l) |}
            | Some v, _ => Ok v
            end;
  let iv2 := match lamb_init with
             | Some l => {| iv_t := iv_t iv1; iv_lamb := l; iv_m1 := iv_m1 iv1; iv_m2 := iv_m2 iv1 |}
             | None => iv1
             end in
  do g <- grad_fun (iv_lamb iv2);
  let iv3 := adam_update p iv2 g in
  Ok (iv_lamb iv3, iv3).

(** adam_step called once per pair (weights handed in, gradient found there),
    oldest first, the returned dictionary being handed to the next call as in
    smooth_base.py:1530-1539 *)
Fixpoint adam_history (p : adam_par) (iv : option adam_iv) (h : list (list T * list T))
    : result (option adam_iv) :=
  match h with
  | [] => Ok iv
  | (l, g) :: r => do x <- adam_step (fun _ => Ok g) (Some l) p iv; adam_history p (Some (snd x)) r
  end.

End Model.
Arguments adam_par T : clear implicits.
Arguments adam_iv T : clear implicits.
