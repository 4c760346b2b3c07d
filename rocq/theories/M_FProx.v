(** M_FProx: prox_project (smooth_base.py:110-154) in IEEE double arithmetic. *)
From Verif Require Import Base M_Float M_Start M_Prox.
From Flocq Require Import Core IEEE754.BinarySingleNaN.
From Coq Require Import ZArith List Bool Arith.
Import ListNotations.

(** the operations of the models for binary64 numbers; not an instance, so that no statement about other
    numbers can pick it up *)
Definition BNum : Num b64 := {|
  n0 := b64_zero; n1 := b64_one;
  nadd := b64_add; nsub := b64_sub; nmul := b64_mul; ndiv := b64_div; nopp := Bopp;
  nltb := Bltb; neqb := Beqb;
  nsqrt := @Bsqrt 53 1024 prec_pos prec_emax mode_NE;
  nof := b64_of_nat
|}.

(** smooth_base.py:145 [np.sort(y)[::-1]]: numpy sorts NaN to the end, so here it comes first *)
Definition sort_desc64 (l : list b64) : list b64 :=
  filter is_nan l ++ @sort_desc b64 BNum (filter (fun x => negb (is_nan x)) l).

(** smooth_base.py:110-154 [prox_project]: as M_Prox.prox_project, with numpy's order for NaN *)
Definition prox_project64 (y : list b64) : result (list b64 * list b64) :=
  let y := @clip0 b64 BNum y in
  let sv := @cumsum b64 BNum (sort_desc64 y) in
  let th := @thresholds b64 BNum sv in
  let rho := map2 (fun yi ti => Bltb ti yi) y th in
  do m <- @nmaximum b64 BNum (mask_select rho th);
  let theta := @nmax b64 BNum m b64_zero in
  Ok (@clip0 b64 BNum (map (fun x => b64_sub x theta) y), y).
