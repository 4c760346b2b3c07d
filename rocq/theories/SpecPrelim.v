(** SpecPrelim: what the scripts prelim_examination*.py should compute. *)
From Verif Require Import Base TreeSpec M_Tree M_Gamma M_Smooth M_Data M_Main M_Predict M_Prelim Spec SpecMain SpecPredict.
From Coq Require Import Reals.
Local Open Scope R_scope.

(** the score of predictions [p] of labels [y]: mean squared error, or the share of right labels *)
Definition rated (ty : rf_type) (n : nat) (y p : nat -> R) : R :=
  match ty with
  | TReg => mse_of n y p
  | _ => INR (length (filter (fun o => if Req_EM_T (y o) (p o) then true else false) (seq 0 n))) / INR n
  end.

(** the score of the forest [m] on [test] *)
Definition forest_rated (ty : rf_type) (m : @fitted R) (test : @frame R) : R :=
  rated ty (length (fst test)) (fun o => nth o (snd test) 0) (fun o => forest_predict (f_kind m) (f_classes m) (f_trees m) (nth o (fst test) [])).

(** the test data of simulation [s] in part [k], and the forest with [ntree] trees of depth number [j] fitted on the training data *)
Definition test_part (p : prelim) (u : @outside R) (k s : nat) : @frame R := pick (sim_data p u k s) (snd (u_split u k s)).
Definition nth_forest (p : prelim) (u : @outside R) (k s : nat) (ty : rf_type) (ntree j : nat) : @fitted R :=
  u_fit u k s j ty (nth j (pl_prep p) O) ntree (pick (sim_data p u k s) (fst (u_split u k s))).

(** every simulation has something to test on *)
Definition has_tests (p : prelim) (u : @outside R) : Prop := forall k s, snd (u_split u k s) <> [].

(** the table [tab] has one row per depth: mean over the simulations of the scores [f s j], the band [mean + h, mean - h] with
    [h] the standard deviation, divided by the root of the number of simulations if [b] says so *)
Definition describes (b : band) (n : nat) (range : list nat) (f : nat -> nat -> R) (tab : list (@vis_row R)) : Prop :=
  length tab = length range /\
  forall j, (j < length range)%nat -> exists r sd, nth_error tab j = Some r /\ v_idx r = nth j range O /\
    v_mu r = average n (fun s => f s j) /\ spread n (fun s => f s j) sd /\
    let h := match b with SdBand => sd | SeBand => sd / sqrt (INR n) end in v_lower r = v_mu r + h /\ v_upper r = v_mu r - h.

(** the even depths below 50 *)
Definition even_depths : list nat := [2;4;6;8;10;12;14;16;18;20;22;24;26;28;30;32;34;36;38;40;42;44;46;48]%nat.

(** two environments that differ in the data read from the file only; in the data made in the loop only *)
Definition same_but_file (u u' : @outside R) : Prop := u_make u' = u_make u /\ u_split u' = u_split u /\ u_fit u' = u_fit u.
Definition same_but_made (u u' : @outside R) : Prop := u_file u' = u_file u /\ u_split u' = u_split u /\ u_fit u' = u_fit u.
