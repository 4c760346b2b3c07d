(** M_Predict: model of the predictions and scores that the scripts under main/ compute from (smoothed) forests.  The prediction of a forest is
    scikit-learn's; a wrong number of columns and missing values (which it rejects) are not modelled. *)
From Verif Require Import Base TreeSpec M_Tree M_Gamma M_Levels M_Smooth M_Grad M_Prune M_Depth M_Main.

Section Model.
Context {T : Type} {NT : Num T}.
Local Open Scope num_scope.
Implicit Type t : tree T.

(** scikit-learn's [predict_proba] of one tree, one observation: the value row of its leaf divided by the sum of the row, or by 1 when the sum is 0 *)
Definition tree_proba t (x : list T) : list T :=
  let v := nth (end_node t x) (t_value t) [] in
  let s := nsum v in
  map (fun a => a / (if s =? n0 then n1 else s)) v.

(** scikit-learn's [RandomForestClassifier.predict_proba], one observation: the mean over the trees, class by class *)
Definition forest_proba (nc : nat) (ts : list (tree T)) (x : list T) : list T :=
  map (fun c => nsum (map (fun t => nth c (tree_proba t x) n0) ts) / nof (length ts)) (seq 0 nc).

(** [random_forest.predict] (main/analysis_both.py:151, main/analysis.py:159, main/analysis_both_clean.py:240, main/pytorch_example.py:77-79), one observation.
    Regression: the mean of the trees' predictions.  Classification: the label (an entry of the attribute [classes_]) whose probability is largest. *)
Definition forest_predict (kd : kind) (classes : list T) (ts : list (tree T)) (x : list T) : T :=
  match kd with
  | Reg => nsum (map (fun t => predict Reg t x) ts) / nof (length ts)
  | Class nc => nth (argmax (forest_proba nc ts x)) classes n0
  end.

(** the same for an array; scikit-learn rejects an array without rows *)
Definition predict_rows (kd : kind) (classes : list T) (ts : list (tree T)) (X : mat T) : result (list T) :=
  match X with [] => Err ValueError | _ => Ok (map (forest_predict kd classes ts) X) end.

(** [sklearn.metrics.mean_squared_error] (main/analysis_both.py:145) *)
Definition mean_squared_error (y p : list T) : result T :=
  if Nat.eqb (length y) (length p) then Ok (nsum (map2 (fun a b => (a - b) * (a - b)) y p) / nof (length y)) else Err ValueError.
(** [sklearn.metrics.accuracy_score] (main/analysis_both.py:147) *)
Definition accuracy_score (y p : list T) : result T :=
  if Nat.eqb (length y) (length p) then Ok (nsum (map2 (fun a b => if a =? b then n1 else n0) y p) / nof (length y)) else Err ValueError.

(** main/analysis_both.py:143-152, main/analysis.py:151-160, main/analysis_both_clean.py:217-241 [assess_rf].  An object of another type that can predict
    leaves [scoring] unset, since the ValueError is built but not raised. *)
Definition assess_rf (rf : rf_object T) (classes : list T) (X : mat T) (y : list T) : result T :=
  match rf with
  | Forest kd ts => do p <- predict_rows kd classes ts X;
      match kd with Reg => mean_squared_error y p | Class _ => accuracy_score y p end
  | OtherObject => match X with [] => Err ValueError | _ => Err UnboundLocalError end
  end.

(** main/analysis_both.py:127-140, main/analysis.py:135-148, main/analysis_both_clean.py:181-215 [generate_rf]; [fit kd] is the fit of a forest of that kind.
    Again the ValueError is not raised. *)
Definition generate_rf (fit : rf_type -> result (rf_object T)) (reg_or_class : rf_type) : result (rf_object T) :=
  match reg_or_class with TOther => Err UnboundLocalError | r => fit r end.

(** main/pytorch_example.py:27-60, one simulation up to the first call of smooth, which is given distance_style="standard"; [fit] is lines 40-43 *)
Definition torch_example_sim (lg : T -> T) (fit : result (rf_object T)) (data : mat T * list T) (rd : randomness) : result (smooth_out T) :=
  do rf <- fit;
  do dist <- dist_arg SOtherDist true;
  smooth lg rf
    {| o_X_trained := Some (fst data); o_y_trained := Some (snd data); o_X_tune := None; o_y_tune := None;
       o_no_constraint := false; o_sanity := false; o_resample := false; o_t_fix := n1; o_all_trees := false;
       o_lamb_draws := None; o_style := Standard; o_dist := dist; o_class_eps := npow (n1 / nof 10) 4; o_class_loss := CE;
       o_adam := Some {| ad_alpha := n1 / nof 1000; ad_b1 := nof 9 / nof 10; ad_b2 := nof 999 / nof 1000;
                         ad_eps := npow (n1 / nof 10) 8 |} |} rd.
End Model.
