(** Props_Oob: property theorems about _append_oob_values (tune_prune.py). *)
From Coq Require Import Reals Lra Lia QArith Sorting.Sorted.
From Verif Require Import Base TreeSpec Spec M_Tree M_Gamma M_Levels M_Prox M_Grad M_Sgd M_Smooth M_Prune M_Oob SpecSmooth SpecDepth SpecOob.
From Verif Require Import L_Base L_Oob.
Local Open Scope R_scope.

(** ** C80: out-of-bag columns of the pruning table *)

(** C80 (result): with at least one out-of-bag row, rows inside the data and, for a classifier, every
    class among the out-of-bag labels, the function returns. *)
Theorem C80_returns : forall df kd (t : tree R) X y oob, wf_tree t -> oob <> [] ->
  (forall i, In i oob -> (i < length X)%nat /\ (i < length y)%nat) ->
  match kd with
  | Reg => True
  | Class nc => (forall yt, rows_of y oob yt -> all_labels nc yt) /\ (0 < nc)%nat /\
                (forall v, (v < size t)%nat -> length (nth v (t_value t) []) = nc)
  end ->
  exists out, append_oob_values df (TreeObj kd t) X y oob = Ok out.
Proof. exact p_C80_returns. Qed.
Print Assumptions C80_returns.

(** three training rows, the first and the last out of bag, with labels 0 and 1 *)
Lemma ex_labels : forall yt, rows_of (@exrow R _ [0;5;1]%Z) [0;2]%nat yt -> all_labels 2 yt.
Proof.
  intros yt [L N]. destruct yt as [|a [|b [|]]]; try (cbn in L; lia).
  pose proof (N 0%nat ltac:(cbn; lia)) as N0. pose proof (N 1%nat ltac:(cbn; lia)) as N1. cbn in N0, N1.
  injection N0 as <-. injection N1 as <-. split.
  - intros [|[|c]] Hc; [left; reflexivity|right; left; reflexivity|lia].
  - intros u [<-|[<-|[]]]; [exists 0%nat|exists 1%nat]; split; auto.
Qed.
Example C80_returns_ex : exists out, append_oob_values [] (TreeObj (Class 2) (@ex5_class R _)) exX (exrow [0;5;1]%Z) [0;2]%nat = Ok out.
Proof.
  apply C80_returns; [reflexivity|discriminate| |].
  - intros i [<-|[<-|[]]]; cbn; lia.
  - split; [exact ex_labels|]. split; [lia|]. intros v Hv.
    change (size (@ex5_class R _)) with 5%nat in Hv. do 5 (destruct v as [|v]; [reflexivity|]). lia.
Qed.

(** C80 (rows): the new columns are put below the table, not beside it: the result has the rows of the
    table, without the new entries, followed by one row per node without the old ones. *)
Theorem C80_not_joined : forall df kd (t : tree R) X y oob out, wf_tree t ->
  append_oob_values df (TreeObj kd t) X y oob = Ok out ->
  (length out = length df + size t)%nat /\ (forall r, In r out -> fst r = None \/ snd r = None) /\
  forall v r, nth_error df v = Some r -> nth_error out v = Some (Some r, None).
Proof. exact p_C80_not_joined. Qed.
Print Assumptions C80_not_joined.

(** C80 (regression): n_oob counts the out-of-bag observations passing through the node, R_oob({t}) is the sum of
    their squared errors against the node's value divided by the number of all out-of-bag observations. *)
Theorem C80_regression : forall df (t : tree R) X y oob out, wf_tree t -> append_oob_values df (TreeObj Reg t) X y oob = Ok out ->
  exists Xt yt new, rows_of X oob Xt /\ rows_of y oob yt /\ stacked df new out /\ length new = size t /\
  forall v sel, (v < size t)%nat -> passes t Xt v sel ->
    exists r, nth_error new v = Some r /\
      or_n r = sum_sel (length oob) sel (fun _ => 1) /\
      or_risk r = sum_sel (length oob) sel (fun i => (nth i yt 0 - node_v t 0 v) * (nth i yt 0 - node_v t 0 v)) / INR (length oob).
Proof. exact p_C80_reg. Qed.
Print Assumptions C80_regression.

(** C80 (not the node's error): it is the node's mean squared error only after division by the node's share of the
    out-of-bag observations. *)
Theorem C80_regression_diluted : forall df (t : tree R) X y oob out, wf_tree t -> append_oob_values df (TreeObj Reg t) X y oob = Ok out ->
  exists Xt yt new, rows_of X oob Xt /\ rows_of y oob yt /\ stacked df new out /\
  forall v sel, (v < size t)%nat -> passes t Xt v sel ->
    exists r, nth_error new v = Some r /\
      (or_n r <> 0 -> or_risk r = or_n r / INR (length oob) *
         (sum_sel (length oob) sel (fun i => (nth i yt 0 - node_v t 0 v) * (nth i yt 0 - node_v t 0 v)) / or_n r)).
Proof. exact p_C80_diluted. Qed.
Print Assumptions C80_regression_diluted.

(** the leaf 4 holds one of three observations, with squared error 1, and gets 1/3 *)
Example C80_regression_ex : (append_oob_values [] (TreeObj Reg (@ex5_reg Q _)) exX (exrow [2;4;8]%Z) [0;1;2]%nat =
  Ok [(None, Some (mkOrow (3#1) (20#3))); (None, Some (mkOrow 1 (1#3))); (None, Some (mkOrow (2#1) (10#3)));
      (None, Some (mkOrow 1 (1#3))); (None, Some (mkOrow 1 (1#3)))])%Q.
Proof. vm_compute. reflexivity. Qed.
Example C80_regression_ex_hyp : wf_tree (@ex5_reg R _) /\
  exists out, append_oob_values [] (TreeObj Reg (@ex5_reg R _)) exX (exrow [2;4;8]%Z) [0;1;2]%nat = Ok out.
Proof. split; [reflexivity|]. apply C80_returns; [reflexivity|discriminate| |exact I]. intros i [<-|[<-|[<-|[]]]]; cbn; lia. Qed.

(** C80 (classification): R_oob({t}) is the share of the node's out-of-bag observations whose label stands at
    the place of the node's most frequent class in the list of labels that occur out of bag. *)
Theorem C80_classification : forall df nc (t : tree R) X y oob out, wf_tree t -> append_oob_values df (TreeObj (Class nc) t) X y oob = Ok out ->
  exists Xt yt new, rows_of X oob Xt /\ rows_of y oob yt /\ stacked df new out /\ length new = size t /\
  forall v sel cats m, (v < size t)%nat -> passes t Xt v sel -> label_list yt cats -> majority t v m ->
    (m < length cats)%nat /\
    exists r, nth_error new v = Some r /\
      or_n r = sum_sel (length oob) sel (fun _ => 1) /\
      (or_n r = 0 -> or_risk r = 0) /\
      (or_n r <> 0 -> or_risk r = sum_sel (length oob) sel (fun i => if Req_EM_T (nth i yt 0) (nth m cats 0) then 1 else 0) / or_n r).
Proof. exact p_C80_class. Qed.
Print Assumptions C80_classification.

(** C80 (accuracy): when all classes occur out of bag, this is one minus the misclassification rate: the column named
    R_oob({t}) is largest for a perfect node. *)
Theorem C80_accuracy_not_error : forall df nc K (t : tree R) X y oob out, wf_tree t -> append_oob_values df (TreeObj (Class nc) t) X y oob = Ok out ->
  (forall yt, rows_of y oob yt -> all_labels K yt) ->
  exists Xt yt new, rows_of X oob Xt /\ rows_of y oob yt /\ stacked df new out /\
  forall v sel m, (v < size t)%nat -> passes t Xt v sel -> majority t v m ->
    exists r, nth_error new v = Some r /\
      (or_n r <> 0 -> or_risk r = 1 - sum_sel (length oob) sel (fun i => if Req_EM_T (nth i yt 0) (INR m) then 0 else 1) / or_n r).
Proof. exact p_C80_labels. Qed.
Print Assumptions C80_accuracy_not_error.

(** leaf 1 predicts class 0 and holds one observation of class 0: its "risk" is 1; leaf 4 predicts class 0, holds
    one of class 1: 0 *)
Example C80_class_ex : (append_oob_values [] (TreeObj (Class 2) (@ex5_class Q _)) exX (exrow [0;5;1]%Z) [0;2]%nat =
  Ok [(None, Some (mkOrow (2#1) (1#2))); (None, Some (mkOrow 1 1)); (None, Some (mkOrow 1 0));
      (None, Some (mkOrow 0 0)); (None, Some (mkOrow 1 0))])%Q.
Proof. vm_compute. reflexivity. Qed.

(** C80 (missing class): if fewer labels occur out of bag than the column of some node's most frequent class
    needs, IndexError is raised. *)
Theorem C80_missing_class_raises : forall df nc (t : tree R) X y oob cats yt v m, wf_tree t ->
  (forall i, In i oob -> (i < length X)%nat /\ (i < length y)%nat) -> oob <> [] -> rows_of y oob yt -> label_list yt cats ->
  (v < size t)%nat -> majority t v m -> (length cats <= m)%nat ->
  append_oob_values df (TreeObj (Class nc) t) X y oob = Err IndexError.
Proof. exact p_C80_missing. Qed.
Print Assumptions C80_missing_class_raises.

(** both out-of-bag observations have class 0, node 3 predicts class 1 *)
Example C80_missing_ex : append_oob_values [] (TreeObj (Class 2) (@ex5_class R _)) exX (exrow [0;5;0]%Z) [0;2]%nat = Err IndexError.
Proof.
  apply (C80_missing_class_raises [] 2 ex5_class exX (exrow [0;5;0]%Z) [0;2]%nat [0] [0;0] 3 1).
  - reflexivity.
  - intros i [<-|[<-|[]]]; cbn; lia.
  - discriminate.
  - split; [reflexivity|]. intros [|[|k]] Hk; [reflexivity|reflexivity|cbn in Hk; lia].
  - split; [repeat constructor|]. intros u. cbn. tauto.
  - cbn; lia.
  - split; [cbn; lia|]. split.
    + intros [|[|c]] Hc; [change (0 <= 1); lra|apply Rle_refl|cbn in Hc; lia].
    + intros [|c] Hc; [change (0 < 1); lra|lia].
  - cbn; lia.
Qed.

(** C80 (wrong class): with a class missing the columns shift and the wrong label is compared silently: there is a
    tree and a sample in which a node predicting class 1 holds only observations of class 2 and
    is reported as if all of them agreed. *)
Theorem C80_shifted_refuted : exists (t : tree Q) X y oob out,
  wf_tree t /\ append_oob_values [] (TreeObj (Class 3) t) X y oob = Ok out /\
  argmax (nth 2 (t_value t) []) = 1%nat /\ map (fun i => nth i y 0%Q) oob = [0; 2#1]%Q /\
  nth_error out 2 = Some (None, Some (mkOrow 1 1))%Q.
Proof.
  exists (mkTree [1;-1;-1]%Z [2;-1;-1]%Z [0;0;0]%nat [1;0;0] [[2;2;1];[2;0;0];[0;2;1]] [5;2;3] [1;0;0])%Q.
  exists [[0];[2]]%Q, [0;2]%Q, [0;1]%nat. eexists. repeat split; vm_compute; reflexivity.
Qed.
Print Assumptions C80_shifted_refuted.
