(** M_Data: model of generate_data.py.

    The random draws are given as streams of numbers, one stream per call of np.random; a
    uniform draw on [low, high) is low + (high - low)·u with u in [0,1), a normal draw is
    loc + scale·z.  np.int truncates exact (not binary64) quotients. *)
From Verif Require Import Base.

Section Model.
Context {T : Type} {NT : Num T}.
Local Open Scope num_scope.

(** the number p, by doubling *)
Fixpoint npos (p : positive) : T :=
  match p with
  | xH => n1
  | xO q => let a := npos q in a + a
  | xI q => let a := npos q in n1 + (a + a)
  end.
Definition nofz (z : Z) : T := match z with Z0 => n0 | Zpos p => npos p | Zneg p => - npos p end.

(** the decimal fraction a/b of the source *)
Definition dec (a b : positive) : T := npos a / npos b.

(** np.random.uniform(low, high, size = m) with the stream u *)
Definition uniform (low high : T) (m : nat) (u : nat -> T) : list T := map (fun i => low + (high - low) * u i) (seq 0 m).

(** np.random.normal(size = (m,2), loc = [l1,l2], scale = [s1,s2]) with the stream z *)
Definition normal2 (l1 l2 s1 s2 : T) (m : nat) (z : nat -> T * T) : list (T * T) :=
  map (fun i => (l1 + s1 * fst (z i), l2 + s2 * snd (z i))) (seq 0 m).

(** *** generate_data *)

(** generate_data.py:41 [n = np.int(large_n / (4 + 1/3))] *)
Definition gd_n (large_n : nat) : nat := (3 * large_n / 13)%nat.

(** generate_data.py:43,42 [np.int(n * norm_prob)], [np.int(n * unif_prob)], and the same of n * 2/3 *)
Definition gd_norm (n : nat) : nat := (2 * n / 5)%nat.
Definition gd_unif (n : nat) : nat := (3 * n / 5)%nat.
Definition gd_norm23 (n : nat) : nat := (4 * n / 15)%nat.
Definition gd_unif23 (n : nat) : nat := (6 * n / 15)%nat.

(** generate_data.py:62-69: the rotation by -10 degrees and the shift, of one point *)
Definition gd_rotate (co si : T -> T) (pi : T) (p : T * T) : T * T :=
  let a := - npos 10 * (pi / npos 180) in
  (fst p * co a + snd p * si a + dec 175 1000, fst p * - si a + snd p * co a + dec 75 1000).

(** generate_data.py:99-103 [keep_logic], one point *)
Definition gd_keep (p : T * T) : bool :=
  negb ((n1 + dec 5 100 <? fst p) || (fst p <? n0 - dec 5 100) || (n1 + dec 5 100 <? snd p) || (snd p <? n0 - dec 5 100)).

(** generate_data.py:13-106 [generate_data]; [zs k], [us k]: the k-th call of np.random.normal
    resp. np.random.uniform, [us2] the call of line 61 that draws pairs *)
Definition generate_data (co si : T -> T) (pi : T) (large_n : nat) (zs : nat -> nat -> T * T) (us : nat -> nat -> T) (us2 : nat -> T * T)
    : list (T * T) * list nat :=
  let n := gd_n large_n in
  let d1_n := normal2 (dec 5 10) (dec 9 10) (dec 33 100) (dec 5 100) (gd_norm n) (zs 0%nat) in
  let d1_u := combine (uniform n0 n1 (gd_unif n) (us 0%nat)) (uniform (dec 8 10) n1 (gd_unif n) (us 1%nat)) in
  let d2_n := normal2 (dec 9 10) (dec 5 10) (dec 5 100) (dec 33 100) (gd_norm n) (zs 1%nat) in
  let d2_u := combine (uniform (dec 8 10) n1 (gd_unif n) (us 2%nat)) (uniform n0 n1 (gd_unif n) (us 3%nat)) in
  let d3_pre := map (fun i => (dec 5 10 * fst (us2 i), dec 5 10 * snd (us2 i))) (seq 0 n) in
  let d3_u := map (gd_rotate co si pi) d3_pre in
  let d4_1_n := normal2 (dec 5 10) (dec 1 10) (dec 33 100) (dec 5 100) (gd_norm23 n) (zs 2%nat) in
  let d4_1_u := combine (uniform n0 n1 (gd_unif23 n) (us 4%nat)) (uniform n0 (dec 2 10) (gd_unif23 n) (us 5%nat)) in
  let d4_2_n := normal2 (dec 1 10) (dec 5 10) (dec 5 100) (dec 33 100) (gd_norm n) (zs 3%nat) in
  let d4_2_u := combine (uniform n0 (dec 2 10) (gd_unif23 n) (us 6%nat)) (uniform n0 n1 (gd_unif23 n) (us 7%nat)) in
  let data := d1_n ++ d1_u ++ d2_n ++ d2_u ++ d3_u ++ d4_1_n ++ d4_1_u ++ d4_2_n ++ d4_2_u in
  let n_square := sumn (map (@length (T * T)) [d4_1_n; d4_1_u; d4_2_n; d4_2_u]) in
  let y := repeat 2%nat (length d1_n + length d1_u) ++ repeat 3%nat (length d2_n + length d2_u) ++ repeat 0%nat (length d3_u) ++ repeat 1%nat n_square in
  let keep := map gd_keep data in
  (mask_select keep data, mask_select keep y).

(** *** spirals *)

Record srow := { sr_index : nat; sr_t : T; sr_x : T; sr_y : T; sr_class : nat }.

(** generate_data.py:308-325, the rows of one class; without ignore_index their labels are again
    0..n_each-1 *)
Definition spiral_class (co si : T -> T) (pi noise t_shift : T) (n_each : nat) (c : nat) (shift : T) (u e1 e2 : nat -> T) : list srow :=
  let tt := map (fun v => v + shift + t_shift) (uniform n0 (npos 2 * pi) n_each u) in
  map (fun i => let t := nth i tt n0 in
         {| sr_index := i; sr_t := t; sr_x := nsqrt (t - shift) * co t + noise * e1 i; sr_y := nsqrt (t - shift) * si t + noise * e2 i; sr_class := c |})
      (seq 0 n_each).

(** generate_data.py:281-327 [spirals]; np.linspace(0, 2·pi, num = k, endpoint = False) is i·(2·pi/k).
    np.sqrt of a negative number (t_shift < 0) is nan in Python and not modelled. *)
Definition spirals (co si : T -> T) (pi : T) (n_total n_classes : Z) (noise t_shift : T) (us es1 es2 : nat -> nat -> T) : result (list srow) :=
  if (n_classes <? 0)%Z then Err ValueError
  else if (n_classes =? 0)%Z then Err ZeroDivisionError
  else
    let k := Z.to_nat n_classes in
    let shifts := map (fun i => nof i * (npos 2 * pi / nof k)) (seq 0 k) in
    let n_each := Z.quot n_total n_classes in
    if (n_each <? 0)%Z then Err ValueError
    else Ok (fold_left (fun acc c => acc ++ spiral_class co si pi noise t_shift (Z.to_nat n_each) c (nth c shifts n0) (us c) (es1 c) (es2 c)) (seq 0 k) []).

(** *** generate_data_knn *)

(** generate_data.py:131-155 [data], in units of 1e-9 *)
Definition data_x : list Z := [
    8754602; 13429834; 27455531; 50831692; 122518587; 187971838; 230048928; 261217143; 259658733; 251866679;
    279918072; 317319930; 353163378; 378097950; 374981128; 376539539; 409266165; 440434380; 463810541;
    487186702; 535497435; 549523132; 583808169; 593158633; 593158633; 588483401; 561990418; 540172668;
    521471739; 526146971; 588483401; 600950687; 600950687; 608742741; 728740368; 748999708; 759908583;
    775492691; 792635209; 806660906; 823803424; 845621175; 845621175; 872114157; 900165551; 915749658;
    915749658; 921983301; 931333766; 939125820; 962501981; 985878142]%Z.
Definition data_y : list Z := [
    40202020; 88155710; 106804370; 125453030; 160086260; 112132560; 93483900; 93483900; 160086260; 205375860;
    216032240; 186727200; 146765790; 146765790; 202711770; 255993650; 279970500; 279970500; 242673180;
    224024520; 250665470; 279970500; 375877900; 410511120; 482441670; 527731270; 575684970; 623638670;
    655607800; 722210160; 743522910; 754179290; 815453460; 850086690; 836766210; 807461180; 772827950;
    700897400; 636959140; 549044030; 527731270; 511746710; 511746710; 511746710; 519738990; 519738990;
    490433950; 407847030; 370549710; 351901050; 333252390; 311939630]%Z.

(** generate_data.py:158-181 [upper], in units of 1e-9 *)
Definition upper_x : list Z := [
    (-13152278); 8168012; 52331469; 96494926; 136089750; 174161696; 210710764; 242691198; 235076809;
    235076809; 268580121; 302083434; 326449479; 346246891; 359952791; 367567180; 373658692; 402593371;
    433050927; 457416973; 472645751; 492443163; 519854964; 539652376; 560972665; 571632810; 570109932;
    562495543; 545743887; 528992231; 510717697; 501580430; 501580430; 500057552; 519854964; 541175253;
    559449787; 574678566; 772652684; 793972974; 809201752; 818339019; 827476286; 847273698; 874685499;
    903620178; 924940468; 941692124; 947783635; 950829391; 964535291; 979764070; 987378459]%Z.
Definition upper_y : list Z := [
    54216900; 130029100; 169583300; 189360500; 189360500; 166287200; 146510100; 136621500; 195952800;
    225618500; 242099400; 238803200; 222322300; 205841400; 202545200; 255284100; 298134500; 311319300;
    321207800; 304726900; 291542200; 284949800; 301430700; 340984900; 387131500; 426685700; 479424700;
    502498000; 528867400; 561829300; 591494900; 624456800; 683788100; 736527000; 779377400; 812339300;
    842004900; 865078200; 874966800; 812339300; 749711800; 693676600; 657418600; 627753000; 607975900;
    611272000; 611272000; 568421600; 538756000; 502498000; 453055200; 423389500; 410204800]%Z.

(** generate_data.py:183-203 [lower], in units of 1e-9 *)
Definition lower_x : list Z := [
    43194200; 72128880; 113246580; 143704140; 181776080; 219848030; 267057240; 297514800; 299037680;
    323403720; 356907040; 401070490; 404116250; 419345030; 437619560; 461985610; 487874530; 542698130;
    583815830; 602090370; 629502170; 624933530; 614273390; 585338710; 560972670; 556404030; 594475980;
    621887780; 621887780; 661482600; 704123180; 736103620; 752855270; 763515420; 774175560; 793972970;
    835090680; 860979600; 883822770; 897528670; 911234570; 941692120; 979764070]%Z.
Definition lower_y : list Z := [
    34439800; 67401640; 90474930; 73994010; 50920720; 44328350; 44328350; 83882560; 126732950; 116844400;
    106955850; 110252030; 156398610; 212433740; 205841380; 195952820; 186064270; 205841380; 265172690;
    321207820; 413500980; 469536110; 528867430; 584902560; 634345320; 670603350; 690380460; 716749930;
    776081250; 799154530; 812339270; 769488880; 687084270; 588198750; 489313220; 449759010; 420093350;
    420093350; 413500980; 354169670; 317911640; 271765060; 248691770]%Z.


Definition knn_col (l : list Z) : list T := map (fun z => nofz z / npos 1000000000) l.

(** np.min, np.max of a non-empty list *)
Definition nmin (l : list T) : T := match l with [] => n0 | x :: r => fold_left (fun a b => if b <? a then b else a) r x end.
Definition nmax (l : list T) : T := match l with [] => n0 | x :: r => fold_left (fun a b => if a <? b then b else a) r x end.

(** generate_data.py:205-214 *)
Definition left_add : T := nmin [nmin (knn_col lower_x); nmin (knn_col upper_x); nmin (knn_col data_x)].
Definition right_add : T := nmax [nmax (knn_col lower_x); nmax (knn_col upper_x); nmax (knn_col data_x)].
Definition above : T := nmax (knn_col upper_y) + dec 1 10.
Definition below : T := nmin (knn_col lower_y) - dec 1 10.

(** generate_data.py:218-235: the polygon above a line *)
Definition knn_poly (xs ys : list Z) : list (T * T) :=
  let y := knn_col ys in
  (left_add, nth 0 y n0) :: combine (knn_col xs) y ++ [(right_add, last y n0); (right_add, above); (left_add, above)].

(** generate_data.py:108-276 [generate_data_knn]; [inside] is matplotlib's Path(..).contains_points for
    one point, [bn v p] the stream of Bernoulli draws of the call for value v with probability p
    (numpy raises ValueError for p outside [0,1]). *)
Definition generate_data_knn (inside : list (T * T) -> T * T -> bool) (n : nat) (p : list T) (u1 u2 : nat -> T) (bn : nat -> T -> nat -> bool)
    : result (list (T * T) * list nat * list nat) :=
  let new := combine (uniform left_add right_add n u1) (uniform below above n u2) in
  let in_l := map (inside (knn_poly lower_x lower_y)) new in
  let in_c := map (inside (knn_poly data_x data_y)) new in
  let in_u := map (inside (knn_poly upper_x upper_y)) new in
  let b2n (b : bool) := if b then 1%nat else 0%nat in
  let value := map2 Nat.add (map2 Nat.add (map b2n in_l) (map b2n in_c)) (map b2n in_u) in
  let y0 := repeat 0%nat (length new) in
  let mask v := map (fun a => Nat.eqb a v) value in
  let binom v pv m := if (pv <? n0) || (n1 <? pv) then Err ValueError else Ok (map (fun i => b2n (bn v pv i)) (seq 0 m)) in
  let count v := sumn (map b2n (mask v)) in
  match nth_error p 0 with None => Err IndexError | Some p0 =>
  do d1 <- binom 1%nat p0 (count 1%nat);
  let y1 := mask_assign (mask 1%nat) y0 d1 in
  match nth_error p 1 with None => Err IndexError | Some p1 =>
  do d2 <- binom 2%nat p1 (count 2%nat);
  let y2 := mask_assign (mask 2%nat) y1 d2 in
  let y3 := mask_assign (mask 3%nat) y2 (repeat 1%nat (count 3%nat)) in
  Ok (new, y3, value)
  end end.
End Model.
