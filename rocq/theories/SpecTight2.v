(** SpecTight2: where the points of generate_data come from; other responses for smooth_clean. *)
From Coq Require Import Reals.
From Verif Require Import Base Spec SpecData M_Clean.
Local Open Scope R_scope.

Definition scaled (l1 l2 s1 s2 : R) (z : R * R) : R * R := (l1 + s1 * fst z, l2 + s2 * snd z).

(** the points drawn before points outside the frame are removed, with their class: two strips at the upper and the right edge, the turned square,
    and two strips at the lower and the left edge that share a class; [zs], [us], [us2] as in M_Data *)
Inductive drawn_point (n : nat) (zs : nat -> nat -> R * R) (us : nat -> nat -> R) (us2 : nat -> R * R) : nat -> R * R -> Prop :=
| UpperNormal i : (i < 2 * n / 5)%nat -> drawn_point n zs us us2 2 (scaled 0.5 0.9 0.33 0.05 (zs 0%nat i))
| UpperEven i : (i < 3 * n / 5)%nat -> drawn_point n zs us us2 2 (us 0%nat i, 0.8 + 0.2 * us 1%nat i)
| RightNormal i : (i < 2 * n / 5)%nat -> drawn_point n zs us us2 3 (scaled 0.9 0.5 0.05 0.33 (zs 1%nat i))
| RightEven i : (i < 3 * n / 5)%nat -> drawn_point n zs us us2 3 (0.8 + 0.2 * us 2%nat i, us 3%nat i)
| Square i : (i < n)%nat -> drawn_point n zs us us2 0 (turned (us2 i))
| LowerNormal i : (i < 4 * n / 15)%nat -> drawn_point n zs us us2 1 (scaled 0.5 0.1 0.33 0.05 (zs 2%nat i))
| LowerEven i : (i < 2 * n / 5)%nat -> drawn_point n zs us us2 1 (us 4%nat i, 0.2 * us 5%nat i)
| LeftNormal i : (i < 2 * n / 5)%nat -> drawn_point n zs us us2 1 (scaled 0.1 0.5 0.05 0.33 (zs 3%nat i))
| LeftEven i : (i < 2 * n / 5)%nat -> drawn_point n zs us us2 1 (0.2 * us 6%nat i, us 7%nat i).

(** the same call with other responses *)
Definition with_y (o : clean_opts R) (y : list R) : clean_opts R :=
  {| k_X := k_X o; k_y := y; k_no_constraint := k_no_constraint o; k_sanity := k_sanity o; k_t_fix := k_t_fix o; k_all_obs := k_all_obs o; k_use_full := k_use_full o;
     k_n_obs := k_n_obs o; k_lamb_draws := k_lamb_draws o; k_style := k_style o; k_dist := k_dist o; k_adam := k_adam o |}.
