(** M_Cmd: model of the command lines and the files of main/1.0-depth_run_adam.py (1.0), main/1.1-depth_run_class_adam.py (1.1),
    main_old/depth_run.py (old 1.0) and main_old/depth_run_class.py (old 1.1).  Reading the data files, plots and progress bars are left out;
    negative numbers of trees or steps are not modelled. *)
From Coq Require Import Ascii.
From Coq Require Strings.String.
From Verif Require Import Base TreeSpec M_Tree M_Gamma M_Levels M_Grad M_Sgd M_Smooth M_Clean M_Analysis M_Main.
Import Coq.Strings.String.StringSyntax.
Local Open Scope string_scope.
Local Open Scope list_scope.

(** the four scripts *)
Inductive script := Adam10 | Adam11 | Old10 | Old11.
(** those with the argument loss (1.1:138-140, old 1.1:79-81) *)
Definition has_loss (sc : script) : bool := match sc with Adam11 | Old11 => true | _ => false end.

(** [sys.argv[k]] *)
Definition arg (argv : list str) (k : nat) : result str :=
  match nth_error argv k with Some s => Ok s | None => Err IndexError end.

Section Model.
Context {T : Type} {NT : Num T}.

(** the arguments in the form the scripts read them; [q_eb] the four that are read for s == "eb" only *)
Record cmd := {
  q_data : str; q_trees : nat; q_tuning : str; q_cin : str; q_s : str; q_d : str; q_inner : str; q_loss : str;
  q_eb : option (str * str * nat * T)
}.

(** 1.0:34, 79-150, 1.1:38, 99-160, old 1.0:34, 68-132, old 1.1:36, 46-112: the arguments in the order they are read.  [int_of] and
    [float_of] are np.int and np.float of a string (None for a ValueError). *)
Definition read_args (int_of : str -> option nat) (float_of : str -> option T) (sc : script) (argv : list str) : result cmd :=
  let int s := match int_of s with Some n => Ok n | None => Err ValueError end in
  let float s := match float_of s with Some x => Ok x | None => Err ValueError end in
  do data <- arg argv 1;
  do n <- arg argv 2;
  do trees <- int n;
  do tuning <- arg argv 3;
  do c_in <- arg argv 4;
  do s <- arg argv 5;
  do d <- arg argv 6;
  do inner <- arg argv 7;
  do loss <- (if has_loss sc then arg argv 8 else Ok []);
  let k := if has_loss sc then 9 else 8 in
  do eb <- (if str_eqb s (lit "eb") then
              do i <- arg argv k;
              do b <- arg argv (k + 1);
              do m <- arg argv (k + 2);
              do mi <- int m;
              do t <- arg argv (k + 3);
              do tt <- float t;
              Ok (Some (i, b, mi, tt))
            else Ok None);
  Ok {| q_data := data; q_trees := trees; q_tuning := tuning; q_cin := c_in; q_s := s; q_d := d; q_inner := inner; q_loss := loss; q_eb := eb |}.

(** reg_or_class (1.0:34-76, 1.1:38-91, old 1.0:34-66, old 1.1:36-41).  The name is unbound for another data set in 1.1 and old 1.1. *)
Definition cmd_type (sc : script) (data : str) : result rf_type :=
  match sc with
  | Adam10 | Old10 => Ok (if str_eqb data (lit "splice") then TClass else TReg)
  | Adam11 => if (str_eqb data (lit "moon") || str_eqb data (lit "microsoft") || str_eqb data (lit "titantic"))%bool then Ok TClass else Err NameError
  | Old11 => if str_eqb data (lit "moon") then Ok TClass else Err NameError
  end.

(** the data sets check_rf_grow generates or splits (1.0:203-219, 1.1:215-236, old 1.0:184-198, old 1.1:168-184) *)
Definition cmd_data (sc : script) (data : str) : data_opt :=
  let is s := str_eqb data (lit s) in
  match sc with
  | Adam10 => if (is "microsoft" || is "knn")%bool then Generated else if (is "online_news" || is "splice" || is "prgeng")%bool then SplitData else OtherData
  | Adam11 => if (is "microsoft" || is "knn" || is "moon")%bool then Generated else if (is "online_news" || is "splice" || is "titantic")%bool then SplitData else OtherData
  | Old10 => if (is "microsoft" || is "knn")%bool then Generated else if (is "online_news" || is "splice")%bool then SplitData else OtherData
  | Old11 => if (is "microsoft" || is "knn" || is "moon")%bool then Generated else if (is "online_news" || is "splice")%bool then SplitData else OtherData
  end.

(** [np.arange(2,50,2)] *)
Definition cmd_depths : list nat := map (fun k => 2 * S k) (seq 0 24).

(** 1.0:409-429, 1.1:432-449, old 1.0:386-404, old 1.1:376-395: the arguments of check_rf_grow.  A string outside the options leaves a
    name unbound (the NameErrors before are not raised).  For s == "lb" the four last arguments are empty strings, which are not used. *)
Definition settings (sc : script) (q : cmd) : result (grow_args T) :=
  do ty <- cmd_type sc (q_data q);
  do con <- (if str_eqb (q_cin q) (lit "c") then Ok true else if str_eqb (q_cin q) (lit "nc") then Ok false else Err NameError);
  do sty <- (if str_eqb (q_s q) (lit "lb") then Ok LevelBase else if str_eqb (q_s q) (lit "eb") then Ok ElementBased else Err NameError);
  do pa <- (if str_eqb (q_d q) (lit "l") then Ok false else if str_eqb (q_d q) (lit "p") then Ok true else Err NameError);
  do '(ini, bat, mi, t) <- match q_eb q with
      | None => Ok (OtherInit, OtherBatch, 0, n0)
      | Some (i, b, mi, t) =>
          do ini <- (if str_eqb i (lit "rf") then Ok RfInit else if str_eqb i (lit "r") then Ok RandomInit else Err NameError);
          do bat <- (if str_eqb b (lit "tree") then Ok SingleTree else if str_eqb b (lit "all") then Ok AllTrees else Err NameError);
          Ok (ini, bat, mi, t)
      end;
  Ok {| w_type := ty; w_depths := cmd_depths; w_draws := 20; w_data := cmd_data sc (q_data q);
        w_tuning := if str_eqb (q_tuning q) (lit "resample") then TuneResample else if str_eqb (q_tuning q) (lit "oracle") then TuneOracle else TuneOob;
        w_constrained := con; w_style := sty; w_parents := pa; w_batch := bat; w_init := ini; w_max_iter := mi; w_t := t;
        w_loss := if str_eqb (q_loss q) (lit "l2") then L2 else CE |}.

(** check_rf_grow of the script: 1.0 and 1.1 as in M_Main; old 1.0:136-308 and old 1.1:117-300 are the same but for the call of smooth
    (old 1.0:281-295, old 1.1:271-285), whose names subgrad_max_num and subgrad_t_fix smooth does not have: a TypeError in the first pass *)
Definition cmd_grow (lg : T -> T) score level (sc : script) (w : grow_args T) (cells : nat -> nat -> cell T) : result (arr3 T * option (arr3 T)) :=
  match sc, w_style w with
  | Old10, ElementBased | Old11, ElementBased => do _ <- cell_data w (cells 0 0); Err TypeError
  | _, _ => check_rf_grow lg score level w cells
  end.

(** a file: the table or the plot made of it *)
Inductive file := ErrTable (l : list (err_row T)) | ErrPlot (l : list (err_row T)) | CostTable (l : list (cost_row T)) | CostPlot (l : list (cost_row T)).

(** 1.0:436-530, 1.1:456-565, old 1.0:408-505, old 1.1:399-502: the name of a file.  [fs] is str of a float. *)
Definition file_name (fs : T -> str) (sc : script) (q : cmd) (stem ext : str) : str :=
  let style := if str_eqb (q_s q) (lit "lb") then lit "level-base" else lit "element-based" in
  lit "../images/" ++ stem ++ q_data q ++ lit "_" ++
  (if has_loss sc then lit "class" ++ lit "_" ++ lit "loss-" ++ q_loss q ++ lit "_" else []) ++
  lit "trees" ++ str_nat (q_trees q) ++ lit "_" ++
  q_tuning q ++ lit "_" ++ q_cin q ++ lit "_" ++ style ++ lit "_" ++
  lit "distance-" ++ q_d q ++ lit "_tree_depth_dist-" ++ q_inner q ++
  match q_eb q with
  | None => []
  | Some (i, b, mi, t) =>
      lit "_" ++ lit "init_lamb-" ++ (if str_eqb i (lit "rf") then lit "rf-init" else lit "random-init") ++ lit "_" ++
      lit "fix_t-" ++ fs t ++ lit "_" ++ (if str_eqb b (lit "tree") then lit "single-tree" else lit "all-trees") ++ lit "_" ++ str_nat mi
  end ++
  match sc, q_eb q with Adam10, Some _ | Adam11, _ => lit "_adam" | _, _ => [] end ++ ext.

(** the whole script: the files it writes, in order.  [cells data trees] is the outside of the passes (M_Main). *)
Definition run_script (int_of : str -> option nat) (float_of : str -> option T) (fs : T -> str) (lg : T -> T) score level
    (cells : str -> nat -> nat -> nat -> cell T) (sc : script) (argv : list str) : result (list (str * file)) :=
  do q <- read_args int_of float_of sc argv;
  do w <- settings sc q;
  do '(Sm, C) <- cmd_grow lg score level sc w (cells (q_data q) (q_trees q));
  do tab <- depth_error_vis Sm (Some cmd_depths);
  let name stem ext := file_name fs sc q (lit stem) (lit ext) in
  match C with
  | None => Ok [(name "data_vis_depth_" ".csv", ErrTable tab); (name "depth_vis_" ".pdf", ErrPlot tab)]
  | Some c =>
      do ctab <- cost_vis c (Some cmd_depths);
      Ok [(name "data_vis_depth_" ".csv", ErrTable tab); (name "depth_vis_" ".pdf", ErrPlot tab);
          (name "data_vis_cost_" ".csv", CostTable ctab); (name "cost_vis_" ".pdf", CostPlot ctab)]
  end.

End Model.
Arguments cmd T : clear implicits.
Arguments file T : clear implicits.
