(** Props_OldCmp: main_old/depth_vs_smooth_full.py, the older comparison of depth selection and smoothing. *)
From Coq Require Import Ascii.
From Coq Require Strings.String.
From Verif Require Import Base TreeSpec Spec M_Tree M_Gamma M_Levels M_Prox M_Grad M_Sgd M_Smooth M_Analysis M_Main M_Predict M_Prelim M_Cmd M_OldCmp SpecSmooth SpecMain.
From Verif Require Import L_OldCmp.
From Coq Require Import Reals Lra QArith.
Import Coq.Strings.String.StringSyntax.
Local Open Scope string_scope.
Local Open Scope list_scope.
Local Open Scope R_scope.

(** ** C129: the older comparison script *)

(** C129: for a regression both searches return all costs and the first candidate of smallest cost with that cost, ... *)
Theorem C129_reg : forall (score : rf_type -> nat -> R) range, exists bd bs,
  old_depth_search score TReg range = Ok (bd, bs, map (fun d => 1 - score TReg d) range, range) /\
  old_node_size_search score TReg range = Ok (bd, bs, map (fun d => 1 - score TReg d) range, range) /\
  match range with
  | [] => bd = None /\ bs = PInf
  | _ => exists d, bd = Some d /\ bs = Fin (1 - score TReg d) /\ first_best (fun d => 1 - score TReg d) range d
  end.
Proof. exact p_C129_reg. Qed.
Print Assumptions C129_reg.

(** ... for a classification they return all costs but never a candidate, whatever the scores (the best one starts at minus infinity and has to be undercut), ... *)
Theorem C129_class : forall (score : rf_type -> nat -> R) range,
  old_depth_search score TClass range = Ok (None, NInf, map (fun d => 1 - score TClass d) range, range) /\
  old_node_size_search score TClass range = Ok (None, NInf, map (fun d => 1 - score TClass d) range, range).
Proof. exact p_C129_class. Qed.
Print Assumptions C129_class.

(** ... and another type fails as soon as there is a candidate. *)
Theorem C129_unknown : forall (score : rf_type -> nat -> R) range, range <> [] ->
  old_depth_search score TOther range = Err UnboundLocalError /\ old_node_size_search score TOther range = Err UnboundLocalError.
Proof. intros score [|x l] H; [congruence|auto]. Qed.
Print Assumptions C129_unknown.

Example C129_ex_search :
  old_depth_search (fun _ d => nth d [0; 1#2; 4#5; 4#5; 3#5] 0)%Q TReg [1;2;3]%nat = Ok (Some 2%nat, Fin (1#5)%Q, [(1#2); (1#5); (1#5)]%Q, [1;2;3]%nat) /\
  old_depth_search (fun _ d => nth d [0; 1#2; 4#5; 4#5; 3#5] 0)%Q TClass [1;2;3]%nat = Ok (None, NInf, [(1#2); (1#5); (1#5)]%Q, [1;2;3]%nat).
Proof. split; vm_compute; reflexivity. Qed.

(** The script never gets to its files: ... *)
Theorem C129_never : forall (lg : R -> R) news us argv, exists e, old_compare lg news us argv = Err e.
Proof. exact p_C129_never. Qed.
Print Assumptions C129_never.

(** ... without an argument it ends in IndexError, with an unknown data set in NameError, with a data file that cannot be read in that error,
    and otherwise, when the fits succeed, in the ValueError of smooth for the distance "standard"; ... *)
Theorem C129_errors : forall (lg : R -> R) news us argv,
  ((length argv < 2)%nat -> old_compare lg news us argv = Err IndexError) /\
  (forall ds, nth_error argv 1 = Some ds -> ds <> lit "online_news" -> ds <> lit "microsoft" -> old_compare lg news us argv = Err NameError) /\
  (forall e, nth_error argv 1 = Some (lit "online_news") -> news = Err e -> old_compare lg news us argv = Err e) /\
  (forall ds, nth_error argv 1 = Some ds -> ds = lit "online_news" \/ ds = lit "microsoft" -> news = Ok tt ->
     (forall p, exists ts, u_fit (us 0%nat) p = Ok ts) -> old_compare lg news us argv = Err ValueError).
Proof. exact p_C129_errors. Qed.
Print Assumptions C129_errors.

(** ... the fits before it use the first best of the even depths below 50 and the first best of these numbers as min_samples_split, in this order. *)
Theorem C129_fits : forall (lg : R -> R) news us argv ds train test d k e,
  nth_error argv 1 = Some ds -> news = Ok tt -> old_data ds (us 0%nat) = Ok (train, test) -> fst test <> [] ->
  first_best (fun d => 1 - u_oob (us 0%nat) (MaxDepth d)) cmd_depths d -> first_best (fun k => 1 - u_oob (us 0%nat) (MinSplit k)) cmd_depths k ->
  (u_fit (us 0%nat) (MaxDepth d) = Err e -> old_compare lg news us argv = Err e) /\
  (forall ts, u_fit (us 0%nat) (MaxDepth d) = Ok ts -> u_fit (us 0%nat) (MinSplit k) = Err e -> old_compare lg news us argv = Err e).
Proof. exact p_C129_fits. Qed.
Print Assumptions C129_fits.

(** Example: scores that are best at depth 4 and at node size 2; the fit at node size 2 fails or succeeds *)
Definition ex_out {T} {NT : Num T} (fails : bool) : outside T :=
  {| u_split := ((exX, [n1; n0; n1]), (exX, [n0; n0; n1])); u_gen := fun _ _ => (exX, [n0; n0; n1]);
     u_oob := fun p => match p with MaxDepth 4 => n1 | _ => n0 end;
     u_fit := fun p => match p with MinSplit 2 => if fails then Err TypeError else Ok [ex3_reg] | _ => Ok [ex5_reg] end;
     u_rand := fun _ => ex_rand [] |}.
Example C129_ex : old_compare (T := Q) (fun x => x) (Ok tt) (fun _ => ex_out true) [lit "x.py"; lit "online_news"] = Err TypeError /\
  old_compare (T := Q) (fun x => x) (Ok tt) (fun _ => ex_out false) [lit "x.py"; lit "microsoft"] = Err ValueError /\
  old_compare (T := Q) (fun x => x) (Ok tt) (fun _ => ex_out false) [lit "x.py"; lit "titanic"] = Err NameError.
Proof. split; [|split]; vm_compute; reflexivity. Qed.
Example C129_ex_best : first_best (fun d => 1 - u_oob (@ex_out R _ true) (MaxDepth d)) cmd_depths 4 /\
  first_best (fun k => 1 - u_oob (@ex_out R _ true) (MinSplit k)) cmd_depths 2 /\
  (forall p, exists ts, u_fit (@ex_out R _ false) p = Ok ts) /\ fst (snd (u_split (@ex_out R _ true))) <> [].
Proof.
  split; [|split; [|split]].
  - exists [2%nat], (map (fun k => 2 * S k)%nat (seq 2 22)). split; [reflexivity|]. split.
    + intros x [<-|[]]. cbn. lra.
    + intros x H. cbn in H. repeat (destruct H as [<-|H]; [cbn; lra|]). destruct H.
  - exists [], (map (fun k => 2 * S k)%nat (seq 1 23)). split; [reflexivity|]. split; [intros x []|]. intros x _. cbn. lra.
  - intros p. cbn. destruct p as [|d|[|[|[|?]]]]; eauto.
  - discriminate.
Qed.
