(** Props_Data: property theorems about the data generators (generate_data.py). *)
From Coq Require Import Reals Lra Lia QArith.
From Verif Require Import Base Spec M_Data SpecData L_Base L_Data L_Data2 L_Data3.
Local Open Scope R_scope.

(** ** C63: spirals *)

(** C63: spirals returns n_classes blocks of ⌊n_total/n_classes⌋ rows, one block per class; row i of class c is at angle t = 2π·u + 2π·c/n_classes + t_shift and, before the noise, at distance √(2π·u + t_shift) from the origin; the row labels start again at 0 in every block; *)
Theorem C63_rows : forall n k noise ts us es1 es2, (0 <= n)%Z -> (0 < k)%Z -> 0 <= ts -> (forall c, unit_draws (us c)) ->
  let K := Z.to_nat k in let m := Z.to_nat (n / k) in
  exists d, spirals cos sin PI n k noise ts us es1 es2 = Ok d /\ length d = (K * m)%nat /\
  forall c i, (c < K)%nat -> (i < m)%nat -> exists r, nth_error d (c * m + i) = Some r /\ sr_class r = c /\ sr_index r = i /\
    sr_t r = 2 * PI * us c i + INR c * (2 * PI / INR K) + ts /\
    sr_x r = sqrt (2 * PI * us c i + ts) * cos (sr_t r) + noise * es1 c i /\ sr_y r = sqrt (2 * PI * us c i + ts) * sin (sr_t r) + noise * es2 c i.
Proof. exact p_C63_rows. Qed.
Print Assumptions C63_rows.

(** ... every row's class is below n_classes and its point without noise within √(2π + t_shift) of the origin and no closer than √t_shift; *)
Theorem C63_radius : forall n k ts us es1 es2 d, (0 <= n)%Z -> (0 < k)%Z -> 0 <= ts -> (forall c, unit_draws (us c)) ->
  spirals cos sin PI n k 0 ts us es1 es2 = Ok d -> forall r, In r d -> (sr_class r < Z.to_nat k)%nat /\ ts <= (sr_x r) ^ 2 + (sr_y r) ^ 2 < 2 * PI + ts.
Proof. exact p_C63_radius. Qed.
Print Assumptions C63_radius.

(** ... without noise, points of different classes never coincide, except in the origin when t_shift is 0; *)
Theorem C63_apart : forall n k ts us es1 es2 d, (0 <= n)%Z -> (0 < k)%Z -> 0 <= ts -> (forall c, unit_draws (us c)) ->
  spirals cos sin PI n k 0 ts us es1 es2 = Ok d ->
  forall r r', In r d -> In r' d -> sr_x r = sr_x r' -> sr_y r = sr_y r' -> sr_class r = sr_class r' \/ (ts = 0 /\ sr_x r = 0 /\ sr_y r = 0).
Proof. exact p_C63_apart. Qed.
Print Assumptions C63_apart.

(** ... wrong numbers raise. *)
Theorem C63_errors : forall n k noise ts us es1 es2,
  ((k < 0)%Z -> @spirals R _ cos sin PI n k noise ts us es1 es2 = Err ValueError) /\
  (k = 0%Z -> @spirals R _ cos sin PI n k noise ts us es1 es2 = Err ZeroDivisionError) /\
  ((0 < k)%Z -> (n <= - k)%Z -> @spirals R _ cos sin PI n k noise ts us es1 es2 = Err ValueError).
Proof. exact p_C63_errors. Qed.
Print Assumptions C63_errors.

(** seven observations in three classes: two rows each (rational arithmetic with simple stand-ins for cos, sin and π) *)
Example C63_ex : match spirals (fun x => x) (fun x => 1 - x)%Q 3%Q 7 3 (1#10) 0 (fun _ i => 1 # Pos.of_nat (2 + i))%Q (fun _ _ => 1) (fun _ _ => 0)%Q with
  | Ok d => map sr_class d = [0;0;1;1;2;2]%nat /\ map sr_index d = [0;1;0;1;0;1]%nat /\ map (fun r => Qred (sr_t r)) d = [3;2;5;4;7;6] | Err _ => False end%Q.
Proof. vm_compute. auto. Qed.
Example C63_ex_hyp : (0 <= 7)%Z /\ (0 < 3)%Z /\ 0 <= 0 /\ unit_draws (fun i => 1 / INR (2 + i)).
Proof.
  split; [lia|]. split; [lia|]. split; [lra|]. intros i. assert (0 < INR (2 + i)) by (apply lt_0_INR; lia). assert (1 < INR (2 + i)) by (apply lt_1_INR; lia).
  unfold Rdiv. rewrite Rmult_1_l. split; [apply Rlt_le, Rinv_0_lt_compat; auto|]. rewrite <- Rinv_1. apply Rinv_lt_contravar; lra.
Qed.

(** ** C78: generate_data *)

(** C78: generate_data returns as many labels as points, at most 67/65·large_n, all in [-0.05, 1.05]²; the labels come as 2..2 3..3 0..0 1..1, class 0 having exactly n = ⌊3·large_n/13⌋ points, those of the turned square in the order drawn, and the uniform points of the other classes never being removed; *)
Theorem C78_data : forall large_n zs us us2, (forall k, unit_draws (us k)) -> unit_draws (fun i => fst (us2 i)) -> unit_draws (fun i => snd (us2 i)) ->
  let n := (3 * large_n / 13)%nat in
  exists d n2 n3 n1, generate_data cos sin PI large_n zs us us2 = (d, repeat 2%nat n2 ++ repeat 3%nat n3 ++ repeat 0%nat n ++ repeat 1%nat n1) /\
    length d = (n2 + n3 + n + n1)%nat /\ (65 * length d <= 67 * large_n)%nat /\
    (forall p, In p d -> within (-0.05) 1.05 (fst p) /\ within (-0.05) 1.05 (snd p)) /\
    (forall i, (i < n)%nat -> nth_error d (n2 + n3 + i) = Some (turned (us2 i))) /\
    (3 * n / 5 <= n2 <= 2 * n / 5 + 3 * n / 5)%nat /\ (3 * n / 5 <= n3 <= 2 * n / 5 + 3 * n / 5)%nat /\
    (2 * (2 * n / 5) <= n1 <= 4 * n / 15 + 3 * (2 * n / 5))%nat.
Proof. exact p_C78. Qed.
Print Assumptions C78_data.

(** ... when no point is removed the classes have these sizes; class 1 is larger than 4/3·n because one of its parts is not scaled by 2/3. *)
Theorem C78_sizes : forall large_n zs us us2, (forall k, unit_draws (us k)) -> unit_draws (fun i => fst (us2 i)) -> unit_draws (fun i => snd (us2 i)) ->
  (forall k i, Rabs (fst (zs k i)) <= 1 /\ Rabs (snd (zs k i)) <= 1) ->
  let n := (3 * large_n / 13)%nat in
  snd (generate_data cos sin PI large_n zs us us2) =
    repeat 2%nat (2 * n / 5 + 3 * n / 5) ++ repeat 3%nat (2 * n / 5 + 3 * n / 5) ++ repeat 0%nat n ++ repeat 1%nat (4 * n / 15 + 3 * (2 * n / 5)).
Proof. exact p_C78_kept. Qed.
Print Assumptions C78_sizes.

(** 65 observations are asked for: n = 15, 67 rows; one class-2 normal draw far outside: 66 *)
Example C78_ex : let far z k i := (if andb (Nat.eqb k 0) (Nat.eqb i 3) then z else 0, 0)%Q in
  let run z := generate_data (fun _ => 1)%Q (fun _ => 0)%Q 3%Q 65 (far z) (fun _ _ => 1#2)%Q (fun _ => (1#2, 1#2))%Q in
  (length (snd (run 0%Q)) = 67 /\ count_occ Nat.eq_dec (snd (run 0%Q)) 1 = 22 /\ length (snd (run 9%Q)) = 66 /\ length (fst (run 9%Q)) = 66)%nat.
Proof. vm_compute. auto. Qed.
Example C78_ex_hyp : unit_draws (fun _ => 1 / 2) /\ forall k i : nat, Rabs (fst ((fun _ _ => (0, 0)) k i)) <= 1 /\ Rabs (snd ((fun _ _ => (0, 0)) k i)) <= 1.
Proof. split; [intros i; lra|]. intros. cbn. rewrite Rabs_R0. lra. Qed.

(** ** C79: generate_data_knn *)

(** C79: generate_data_knn returns n points of the frame, for each the number of the three regions it lies in, and the label: 0 in none, 1 in all, in one or two of them the next draw with probability p[0] resp. p[1]; *)
Theorem C79_knn : forall inside n p p0 p1 u1 u2 bn, nth_error p 0 = Some p0 -> nth_error p 1 = Some p1 -> 0 <= p0 <= 1 -> 0 <= p1 <= 1 -> unit_draws u1 -> unit_draws u2 ->
  let L := region lower_x lower_y in let C := region data_x data_y in let V := region upper_x upper_y in
  exists d y v, @generate_data_knn R _ inside n p u1 u2 bn = Ok (d, y, v) /\ length d = n /\ length y = n /\ length v = n /\
  forall i, (i < n)%nat -> exists a b, nth_error d i = Some (a, b) /\
    a = nano (-13152278) + (nano 987378459 - nano (-13152278)) * u1 i /\ b = nano (-65560200) + (nano 974966800 - nano (-65560200)) * u2 i /\
    within (nano (-13152278)) (nano 987378459) a /\ within (nano (-65560200)) (nano 974966800) b /\
    nth i v 0%nat = length (filter (fun P => inside P (a, b)) [L; C; V]) /\
    nth i y 0%nat = match nth i v 0%nat with
      | 0 => 0 | 1 => if bn 1%nat p0 (count_before 1 v i) then 1 else 0 | 2 => if bn 2%nat p1 (count_before 2 v i) then 1 else 0 | _ => 1 end%nat.
Proof. exact p_C79. Qed.
Print Assumptions C79_knn.

(** ... probabilities that are missing or outside [0,1] raise. *)
Theorem C79_errors : forall inside n p u1 u2 bn,
  (p = [] -> @generate_data_knn R _ inside n p u1 u2 bn = Err IndexError) /\
  (forall p0, nth_error p 0 = Some p0 -> ~ 0 <= p0 <= 1 -> @generate_data_knn R _ inside n p u1 u2 bn = Err ValueError) /\
  (forall p0, p = [p0] -> 0 <= p0 <= 1 -> @generate_data_knn R _ inside n p u1 u2 bn = Err IndexError) /\
  (forall p0 p1, nth_error p 0 = Some p0 -> nth_error p 1 = Some p1 -> 0 <= p0 <= 1 -> ~ 0 <= p1 <= 1 -> @generate_data_knn R _ inside n p u1 u2 bn = Err ValueError).
Proof. exact p_C79_errors. Qed.
Print Assumptions C79_errors.

(** regions approximated by the first table point whose x is larger *)
Example C79_ex : let inside P q := existsb (fun v => Qle_bool (snd v) (snd q) && Qle_bool (fst v) (fst q))%bool (firstn 40 P) in
  match generate_data_knn inside 4 [2#5; 3#5]%Q (fun i => inject_Z (Z.of_nat i) / 4)%Q (fun i => if Nat.eqb i 2 then 1#10 else inject_Z (Z.of_nat i) / 4)%Q (fun v _ i => Nat.eqb v 1) with
  | Ok (d, y, v) => length d = 4%nat /\ v = [0; 3; 1; 3]%nat /\ y = [0; 1; 1; 1]%nat | Err _ => False end.
Proof. vm_compute. auto. Qed.
Example C79_ex_hyp : nth_error [0.4; 0.6] 0 = Some 0.4 /\ nth_error [0.4; 0.6] 1 = Some 0.6 /\ 0 <= 0.4 <= 1 /\ 0 <= 0.6 <= 1.
Proof. split; [reflexivity|]. split; [reflexivity|]. lra. Qed.
