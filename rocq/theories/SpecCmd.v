(** SpecCmd: what can be asked of the four depth scripts on the command line. *)
From Coq Require Import Ascii.
From Coq Require Strings.String.
From Verif Require Import Base TreeSpec M_Tree M_Gamma M_Grad M_Smooth M_Analysis M_Main M_Cmd.
Import Coq.Strings.String.StringSyntax.
Local Open Scope string_scope.
Local Open Scope list_scope.

Inductive dset := Microsoft | Knn | OnlineNews | Splice | Prgeng | Moon | Titantic.
Definition dset_str (d : dset) : str :=
  match d with Microsoft => lit "microsoft" | Knn => lit "knn" | OnlineNews => lit "online_news" | Splice => lit "splice"
             | Prgeng => lit "prgeng" | Moon => lit "moon" | Titantic => lit "titantic" end.
(** the data sets a script knows *)
Definition offers (sc : script) (d : dset) : Prop :=
  match sc with
  | Adam10 => In d [Microsoft; Knn; OnlineNews; Splice; Prgeng]
  | Adam11 => In d [Moon; Microsoft; Titantic]
  | Old10 => In d [Microsoft; Knn; OnlineNews; Splice]
  | Old11 => d = Moon
  end.
Definition class_script (sc : script) : Prop := sc = Adam11 \/ sc = Old11.
Definition old_script (sc : script) : Prop := sc = Old10 \/ sc = Old11.

(** random start or the forest's own, all trees or one per step, number of steps, step size *)
Record element T := { b_random : bool; b_all : bool; b_steps : nat; b_t : T }.
Arguments b_random {T}. Arguments b_all {T}. Arguments b_steps {T}. Arguments b_t {T}.
(** a request; no [g_element] for level-base *)
Record choice T := { g_data : dset; g_trees : nat; g_tuning : tuning_opt; g_con : bool; g_parents : bool; g_inner : dstyle;
                     g_loss : option loss_choice; g_element : option (element T) }.
Arguments g_data {T}. Arguments g_trees {T}. Arguments g_tuning {T}. Arguments g_con {T}. Arguments g_parents {T}. Arguments g_inner {T}.
Arguments g_loss {T}. Arguments g_element {T}.

Definition tuning_str (t : tuning_opt) : str := match t with TuneResample => lit "resample" | TuneOob => lit "oob" | TuneOracle => lit "oracle" end.
Definition inner_str (s : dstyle) : str := match s with Standard => lit "standard" | MaxStyle => lit "max" | MinStyle => lit "min" end.
Definition loss_str (l : loss_choice) : str := match l with CE => lit "ce" | L2 => lit "l2" end.

(** the command line [argv] makes the request [g] *)
Definition asks {T} (int_of : str -> option nat) (float_of : str -> option T) (sc : script) (argv : list str) (g : choice T) : Prop :=
  offers sc (g_data g) /\ (g_loss g <> None <-> class_script sc) /\
  exists s0 n rest, int_of n = Some (g_trees g) /\
  argv = s0 :: dset_str (g_data g) :: n :: tuning_str (g_tuning g) :: (if g_con g then lit "c" else lit "nc") ::
    (match g_element g with None => lit "lb" | Some _ => lit "eb" end) :: (if g_parents g then lit "p" else lit "l") :: inner_str (g_inner g) ::
    match g_loss g with Some l => [loss_str l] | None => [] end ++ rest /\
  match g_element g with
  | None => True
  | Some b => exists m t rest', rest = (if b_random b then lit "r" else lit "rf") :: (if b_all b then lit "all" else lit "tree") :: m :: t :: rest' /\
      int_of m = Some (b_steps b) /\ float_of t = Some (b_t b)
  end.

(** the arguments of check_rf_grow a request stands for *)
Definition is_class (sc : script) (d : dset) : Prop := class_script sc \/ d = Splice.
Definition stands_for {T} (sc : script) (g : choice T) (w : grow_args T) : Prop :=
  (w_type w = TClass <-> is_class sc (g_data g)) /\ (w_type w = TReg <-> ~ is_class sc (g_data g)) /\
  w_depths w = [2;4;6;8;10;12;14;16;18;20;22;24;26;28;30;32;34;36;38;40;42;44;46;48] /\ w_draws w = 20 /\
  w_data w = match g_data g with OnlineNews | Splice | Prgeng | Titantic => SplitData | _ => Generated end /\
  w_tuning w = g_tuning g /\ w_constrained w = g_con g /\ w_parents w = g_parents g /\
  match g_element g with
  | None => w_style w = LevelBase
  | Some b => w_style w = ElementBased /\ w_init w = (if b_random b then RandomInit else RfInit) /\ w_batch w = (if b_all b then AllTrees else SingleTree) /\
              w_max_iter w = b_steps b /\ w_t w = b_t b
  end.

(** two command lines that differ in place [k] only *)
Definition same_but (k : nat) (a b : list str) : Prop := length a = length b /\ forall i, i <> k -> nth_error a i = nth_error b i.

(** two results with the same contents of files, or the same exception *)
Definition same_contents {N A} (x y : result (list (N * A))) : Prop :=
  match x, y with Ok l, Ok m => map snd l = map snd m | Err e, Err f => e = f | _, _ => False end.
