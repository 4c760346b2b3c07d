(** M_Prelim: model of the scripts main_old/prelim_examination*.py (called by the rest of their name below;
    "base" is prelim_examination.py).  preeng:27-187 is the text all of them follow.  Reading the data files,
    drawing, splitting and fitting are arguments; plots, progress bars and the PDF files are left out. *)
From Coq Require Import Ascii.
From Coq Require Strings.String.
From Verif Require Import Base TreeSpec M_Tree M_Gamma M_Smooth M_Data M_Main M_Predict M_Analysis.
Import Coq.Strings.String.StringSyntax.
Local Open Scope string_scope.
Local Open Scope list_scope.

Section Model.
Context {T : Type} {NT : Num T}.
Local Open Scope num_scope.

(** ** Arrays with two axes *)

(** an array as its shape and its entries *)
Record arr2 := { r_0 : nat; r_1 : nat; at2 : nat -> nat -> T }.

(** [np.zeros((a, b))] *)
Definition zeros2 (a b : nat) : arr2 := {| r_0 := a; r_1 := b; at2 := fun _ _ => n0 |}.

(** [A[i,:] = l]: one value is broadcast, another wrong number is a ValueError *)
Definition set_row2 (A : arr2) (i : nat) (l : list T) : result arr2 :=
  if negb (Nat.ltb i (r_0 A)) then Err IndexError
  else if Nat.eqb (length l) (r_1 A) then
    Ok {| r_0 := r_0 A; r_1 := r_1 A; at2 := fun a b => if Nat.eqb a i then nth b l n0 else at2 A a b |}
  else match l with
       | [v] => Ok {| r_0 := r_0 A; r_1 := r_1 A; at2 := fun a b => if Nat.eqb a i then v else at2 A a b |}
       | _ => Err ValueError
       end.

(** [l[i] = v] for an array with one axis *)
Definition set_at (l : list T) (i : nat) (v : T) : result (list T) :=
  if Nat.ltb i (length l) then Ok (firstn i l ++ v :: skipn (S i) l) else Err IndexError.

(** ** One simulation *)

(** data_all and y_all: rows of features and their labels *)
Definition frame : Type := (mat T * list T)%type.

(** a fitted forest: its kind, the attribute classes_ and its trees *)
Record fitted := { f_kind : kind; f_classes : list T; f_trees : list (tree T) }.

(** preeng:41, 45: [scoring], set together with the type of the forest *)
Definition scoring (ty : rf_type) (y p : list T) : result T :=
  match ty with TReg => mean_squared_error y p | TClass => accuracy_score y p | TOther => Err ValueError end.

(** preeng:27-68 [regression_prep].  [fit ty max_depth ntree train] is lines 62-63; the number of the pass is an
    argument of [fit] too, as the fit draws random numbers. *)
Definition regression_prep (fit : nat -> rf_type -> nat -> nat -> frame -> fitted) (train test : frame)
    (range : list nat) (ty : rf_type) (ntree : nat) : result (list T) :=
  match ty with
  | TOther => Err ValueError
  | _ =>
    foldM (fun v (it : nat * nat) =>
        let m := fit (fst it) ty (snd it) ntree train in
        do p <- predict_rows (f_kind m) (f_classes m) (f_trees m) (fst test);
        do s <- scoring ty (snd test) p;
        set_at v (fst it) s)
      (combine (seq 0 (length range)) range) (repeat n0 (length range))
  end.

(** ** The table *)

(** half the width of the band: the standard deviation (arabic_char:103-104, microsoft:97-98, online_news:100-101) or that
    divided by the root of the number of simulations (preeng:84-88 and the other scripts) *)
Inductive band := SdBand | SeBand.

(** a row of the table (preeng:86-89) *)
Record vis_row := { v_mu : T; v_lower : T; v_upper : T; v_idx : nat }.

(** preeng:70-101 [depth_error_vis], the returned table; the axes are (simulation, depth).  Columns of different lengths make
    pd.DataFrame raise a ValueError.  For an array without rows the means are nan in Python, 0/0 here. *)
Definition depth_error_vis2 (b : band) (cv : arr2) (idx_range : option (list nat)) : result (list vis_row) :=
  let idx := match idx_range with None => seq 0 (r_1 cv) | Some l => l end in
  if negb (Nat.eqb (length idx) (r_1 cv)) then Err ValueError
  else Ok (map (fun j =>
    let col := map (fun s => at2 cv s j) (seq 0 (r_0 cv)) in
    let h := match b with SdBand => std col | SeBand => std col / nsqrt (nof (r_0 cv)) end in
    {| v_mu := mean col; v_lower := mean col + h; v_upper := mean col - h; v_idx := nth j idx O |})
    (seq 0 (r_1 cv))).

(** ** The scripts *)

(** where they differ: the file name up to the number of trees; whether each simulation makes its own data; the type of the
    forests with 10 and with 300 trees; n_sim; depth_range; the depth_range handed to regression_prep; the band; whether
    the table for 300 trees is computed from score_mat300 (else from score_mat10) *)
Record prelim := {
  pl_name : str; pl_fresh : bool; pl_type : rf_type; pl_type2 : rf_type; pl_sims : nat;
  pl_range : list nat; pl_prep : list nat; pl_band : band; pl_own : bool
}.

(** what a script gets from outside: the data it reads, the data made in simulation [s] of part [k] (0: 10 trees, 1: 300
    trees), the rows train_test_split puts into the two parts, the fits *)
Record outside := {
  u_file : frame; u_make : nat -> nat -> frame; u_split : nat -> nat -> list nat * list nat;
  u_fit : nat -> nat -> nat -> rf_type -> nat -> nat -> frame -> fitted
}.

(** the rows [is] of the data *)
Definition pick (d : frame) (is : list nat) : frame := (map (fun i => nth i (fst d) []) is, map (fun i => nth i (snd d) n0) is).

(** the data of a simulation: data_all, y_all of the script, overwritten in the loop by some (microsoft:131-134) *)
Definition sim_data (p : prelim) (u : outside) (k s : nat) : frame := if pl_fresh p then u_make u k s else u_file u.

(** preeng:114-130 and 152-170: score_mat after the loop *)
Definition sims (p : prelim) (u : outside) (k : nat) (ty : rf_type) (ntree : nat) : result arr2 :=
  foldM (fun A s =>
      let d := sim_data p u k s in
      do v <- regression_prep (u_fit u k s) (pick d (fst (u_split u k s))) (pick d (snd (u_split u k s))) (pl_prep p) ty ntree;
      set_row2 A s v)
    (seq 0 (pl_sims p)) (zeros2 (pl_sims p) (length (pl_range p))).

(** preeng:144-147, 184-187: the name of the file *)
Definition csv_name (p : prelim) (ntree : nat) : str := pl_name p ++ lit "_tree" ++ str_nat ntree ++ lit ".csv".

(** preeng:104-187: the CSV files written, in order, and the exception that ended the script, if any *)
Definition prelim_run (p : prelim) (u : outside) : list (str * list vis_row) * option exn :=
  match sims p u 0 (pl_type p) 10 with
  | Err e => ([], Some e)
  | Ok m10 =>
    match depth_error_vis2 (pl_band p) m10 (Some (pl_range p)) with
    | Err e => ([], Some e)
    | Ok t10 =>
      let w := [(csv_name p 10, t10)] in
      match sims p u 1 (pl_type2 p) 300 with
      | Err e => (w, Some e)
      | Ok m300 =>
        match depth_error_vis2 (pl_band p) (if pl_own p then m300 else m10) (Some (pl_range p)) with
        | Err e => (w, Some e)
        | Ok t300 => (w ++ [(csv_name p 300, t300)], None)
        end
      end
    end
  end.

End Model.

(** [np.arange(a, b, s)] for s > 0 *)
Definition arange (a b s : nat) : list nat := map (fun i => (a + s * i)%nat) (seq 0 ((b - a + (s - 1)) / s)).

Section Scripts.

(** preeng:54 and all others: the range given to regression_prep *)
Let r24 : list nat := arange 2 50 2.
Let img (s : String.string) : str := lit "../images/data_vis_depth_" ++ lit s.
Let std_script (nm : String.string) (fresh : bool) (ty : rf_type) (n : nat) (own : bool) : prelim :=
  {| pl_name := img nm; pl_fresh := fresh; pl_type := ty; pl_type2 := ty; pl_sims := n; pl_range := r24; pl_prep := r24;
     pl_band := SeBand; pl_own := own |}.

(** arabic_char:119-200; the labels of the 300-tree forests are scored as numbers (line 180), and the name is that of online_news *)
Definition arabic_char : prelim :=
  {| pl_name := lit "images/data_vis_depth_onlinenewspopularity"; pl_fresh := false; pl_type := TClass; pl_type2 := TReg;
     pl_sims := 20; pl_range := r24; pl_prep := r24; pl_band := SdBand; pl_own := false |}.
(** online_news:116-197 *)
Definition online_news : prelim :=
  {| pl_name := lit "images/data_vis_depth_onlinenewspopularity"; pl_fresh := false; pl_type := TReg; pl_type2 := TReg;
     pl_sims := 20; pl_range := r24; pl_prep := r24; pl_band := SdBand; pl_own := false |}.
(** glass:131-219 *)
Definition glass : prelim := std_script "glass_class" false TClass 100 true.
(** microsoft:114-207 *)
Definition microsoft : prelim :=
  {| pl_name := img "microsoft_reg"; pl_fresh := true; pl_type := TReg; pl_type2 := TReg; pl_sims := 20; pl_range := r24;
     pl_prep := r24; pl_band := SdBand; pl_own := false |}.
(** microsoft_class:119-212 *)
Definition microsoft_class : prelim := std_script "microsoft_class" true TClass 100 true.
(** moons:100-193 *)
Definition moons : prelim := std_script "moon_class" true TClass 100 true.
(** preeng:104-187 *)
Definition preeng : prelim := std_script "prgeng_reg" false TReg 20 true.
(** prgeng:104-187 *)
Definition prgeng : prelim := std_script "prgeng_reg" false TReg 20 true.
(** spiral:114-209 *)
Definition spiral : prelim := std_script "spiral3_class" true TClass 100 false.
(** splice:140-233; the data read in lines 22-39 are overwritten in lines 157-160 and 203-206 *)
Definition splice : prelim := std_script "splice_class" true TClass 100 true.
(** tania:110-193; depth_range has 11 entries (line 113), the argument of regression_prep 24 (line 133) *)
Definition tania : prelim :=
  {| pl_name := img "tania_class"; pl_fresh := false; pl_type := TClass; pl_type2 := TClass; pl_sims := 20;
     pl_range := arange 5 60 5; pl_prep := r24; pl_band := SeBand; pl_own := true |}.
(** titantic:155-242 *)
Definition titantic : prelim := std_script "titantic_class" false TClass 20 true.

End Scripts.

(** spiral:131-137, 178-184: the data of a simulation.  The columns of [spirals] are t, x, y, class; the result of
    [data_all.drop(columns = ["class", "t"])] (lines 133, 180) is thrown away. *)
Definition spiral_frame {T} {NT : Num T} (rows : list (@srow T)) : @frame T :=
  (map (fun r => [sr_t r; sr_x r; sr_y r; nof (sr_class r)]) rows, map (fun r => nof (sr_class r)) rows).

(** ** Names *)

(** a statement at top level: the names it reads, then the names it binds *)
Record stmt := { st_reads : list str; st_binds : list str }.

(** running statements in order: reading an unbound name is a NameError *)
Definition run_names (l : list stmt) (env : list str) : result (list str) :=
  foldM (fun env st =>
    if forallb (fun n => existsb (str_eqb n) env) (st_reads st) then Ok (st_binds st ++ env) else Err NameError) l env.

Definition stm (r b : list String.string) : stmt := {| st_reads := map lit r; st_binds := map lit b |}.

(** base:1-55; [star] are the names of the module plotnine (line 8).  Names read inside functions are left out. *)
Definition base_script (star : list str) : list stmt :=
  [stm [] ["np"]; stm [] ["pd"]; stm [] ["plt"]; stm [] ["sklearn"]; stm [] ["sklearn"]; stm [] ["progressbar"]; stm [] ["sklearn"];
   {| st_reads := []; st_binds := star |}; stm [] ["pdb"]; stm [] ["sys"]; stm [] ["re"]; stm [] ["smooth_rf"];
   stm [] ["path"]; stm ["pd"; "path"] ["data_train"]; stm ["data_train"] ["data_train"]; stm [] ["cleanup"];
   stm ["data_train"; "cleanup"] ["gene_expand_df"]; stm ["pd"; "gene_expand_df"] ["gene_expand_df_dummy"];
   stm ["pd"; "data_train"] ["y_all"]; stm ["gene_expand_df_dummy"] ["data_all"];
   stm [] ["reg_and_class"]; stm ["reg_or_class"] ["data_name"]; stm [] ["n_sim"]; stm ["np"] ["depth_range"]; stm [] ["n_tree"]].
(** splice:1-18, 22-39, 140-149, the corresponding part of splice *)
Definition splice_script (star : list str) : list stmt :=
  [stm [] ["np"]; stm [] ["pd"]; stm [] ["plt"]; stm [] ["sklearn"]; stm [] ["sklearn"]; stm [] ["progressbar"]; stm [] ["sklearn"];
   {| st_reads := []; st_binds := star |}; stm [] ["pdb"]; stm [] ["sys"]; stm [] ["re"]; stm [] ["smooth_rf"];
   stm [] ["path"]; stm ["pd"; "path"] ["data_train"]; stm ["data_train"] ["data_train"]; stm [] ["cleanup"];
   stm ["data_train"; "cleanup"] ["gene_expand_df"]; stm ["pd"; "gene_expand_df"] ["gene_expand_df_dummy"];
   stm ["pd"; "data_train"] ["y_all"]; stm ["gene_expand_df_dummy"] ["data_all"];
   stm [] ["reg_or_class"]; stm ["reg_or_class"] ["data_name"]; stm [] ["n_sim"]; stm ["np"] ["depth_range"]; stm [] ["n_tree"]].
