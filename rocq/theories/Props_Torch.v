(** Props_Torch: property theorems about the torch smoother (smooth_pytorch.py). *)
From Coq Require Import Reals Lra Lia QArith.
From Verif Require Import Base TreeSpec Spec SpecSmooth SpecTune SpecDepth SpecBox SpecTorch M_Tree M_Gamma M_Levels M_Smooth M_Grad M_Box M_More M_Torch M_Pytorch.
From Verif Require Import L_Base L_Tree L_Gamma2 L_More L_Torch3 L_Torch4 L_Torch5 L_Torch7 L_Torch8 L_Torch9 L_Torch10 L_Torch11 L_Cost.
Local Open Scope R_scope.

(** ** Example data *)
Definition ex_topts {T} {NT : Num T} (one two x1 x2 : bool) : @torch_opts T :=
  {| to_X_trained := exX; to_y_trained := exrow [2;4;8]%Z; to_X_tune := None; to_y_tune := None; to_resample := false; to_sgd_max_num := 2;
     to_all_trees := false; to_parents_all := false; to_style := Standard; to_which_one := one; to_which_two := two;
     to_x_one := x1; to_x_two := x2; to_init := InitScalar n1 |}.
Definition ex_trows : torch_rows := {| tr_oob := fun _ => [0]%nat; tr_train := fun _ => [0;1;1;2]%nat; tr_boot := fun _ => [2;2]%nat |}.
(** an optimiser that goes through a given list of parameters *)
Definition ex_opt {T} {NT : Num T} (l : list (list (list T * T))) (s : nat) (par : list (list T * T)) (x : @item T) : nat * list (list T * T) := (S s, nth s l par).
Definition ex_ts2 {T} {NT : Num T} : list (tree T) := [ex3_reg; ex5_reg].

Lemma ex_forest : Forall (@wf_tree R) ex_ts2 /\ (forall t, In t (@ex_ts2 R _) -> pos_leaves t) /\ Forall (features_ok 2) (@ex_ts2 R _) /\ data_ok 2 (@exX R _).
Proof.
  split; [repeat constructor|]. split; [|split].
  - intros t [<-|[<-|[]]] j Hj; cbn in Hj; do 3 (destruct j as [|j]; [cbn; rewrite ?INR_IPR; unfold IPR, IPR_2; cbn; lra|]); lia.
  - assert (A3 : features_ok 2 (@ex3_reg R _)) by (intros v Hv; cbn in Hv; do 3 (destruct v as [|v]; [cbn; try discriminate; intros; lia|]); lia).
    assert (A5 : features_ok 2 (@ex5_reg R _)) by (intros v Hv; cbn in Hv; do 5 (destruct v as [|v]; [cbn; try discriminate; intros; lia|]); lia).
    apply Forall_cons; auto.
  - split; [discriminate|]. intros x [<-|[<-|[<-|[]]]]; reflexivity.
Qed.

Lemma ex_setting_ok : forall one two x1 x2 (opt : nat -> list (list R * R) -> @item R -> nat * list (list R * R)),
  (one || two)%bool = true -> (forall s par x, par_ok 3 (num_attrs (ex_topts one two x1 x2) 2) par -> par_ok 3 (num_attrs (ex_topts one two x1 x2) 2) (snd (opt s par x))) ->
  torch_setting Reg (@ex_ts2 R _) (ex_topts one two x1 x2) ex_trows 2 2 opt.
Proof.
  intros one two x1 x2 opt OT HO. destruct ex_forest as (A&B&C&D). split; auto. split; [discriminate|]. split; [cbn; lia|]. split; [discriminate|].
  split; [exact ex35_depth|]. split; auto. split; auto. split; auto. split.
  - split; [reflexivity|]. intros q Hq. split; [discriminate|]. split; [|exact I]. cbn. intros i Hi. intuition lia.
  - split; [|exact HO]. unfold num_attrs. cbn [to_which_one to_which_two ex_topts]. destruct one, two; try discriminate; lia.
Qed.

(** ** C59: the forward pass *)

(** C59: SoftmaxTreeFit.forward on a batch returns for every row weights of the distances that are the softmax of their linear scores -- positive, summing to one -- and the prediction Gamma·weights / eta·weights, which stays between any bounds that hold for every distance; *)
Theorem C59_forward : forall K V par y w (G E X : list (list R)), (0 < K)%nat -> G <> [] -> length E = length G -> length X = length G ->
  rect K G -> rect K E -> rect (K * V) X -> par_ok K V par ->
  exists yh la, forward exp {| m_vars := V; m_dim := K; m_lin := par |}
      {| it_y := batch_vec y; it_Gamma := batch_mat G; it_eta := batch_mat E; it_w := batch_vec w; it_x := batch_mat X |} = Ok (yh, batch_vec w, la) /\
  sh yh = [1%nat; length G; 1%nat] /\ length (dat yh) = length G /\ sh la = [1%nat; length G; K; 1%nat] /\
  forall i, (i < length G)%nat ->
    (forall k, (k < K)%nat -> get la [0%nat; i; k; 0%nat] = soft K (score K V par (nth i X [])) k) /\
    (forall k, (k < K)%nat -> 0 < get la [0%nat; i; k; 0%nat]) /\ sumto K (fun k => get la [0%nat; i; k; 0%nat]) = 1 /\
    nth i (dat yh) 0 = ratio K (nth i G []) (nth i E []) (fun k => get la [0%nat; i; k; 0%nat]) /\
    forall lo hi, (forall k, (k < K)%nat -> 0 <= nth k (nth i E []) 0 /\ lo * nth k (nth i E []) 0 <= nth k (nth i G []) 0 <= hi * nth k (nth i E []) 0) ->
      (exists k, (k < K)%nat /\ 0 < nth k (nth i E []) 0) -> lo <= nth i (dat yh) 0 <= hi.
Proof. exact p_C59_forward. Qed.
Print Assumptions C59_forward.

(** ... a larger score gives a larger weight; *)
Theorem C59_order : forall K s k k', (0 < K)%nat -> s k < s k' -> soft K s k < soft K s k'.
Proof. exact soft_order. Qed.
Print Assumptions C59_order.

(** ... a scalar init must be positive (ValueError), without attributes the linear models cannot be made (ZeroDivisionError), and otherwise, whatever the attributes, distance 0 has weight e^x / (e^x + K - 1), all others 1 / (e^x + K - 1); *)
Theorem C59_init : forall V K x, (0 < K)%nat ->
  (x <= 0 -> softmax_tree_fit V K (InitScalar x) = Err ValueError) /\
  (0 < x -> V = 0%nat -> softmax_tree_fit V K (InitScalar x) = Err ZeroDivisionError) /\
  (0 < x -> (0 < V)%nat -> exists par, softmax_tree_fit V K (InitScalar x) = Ok {| m_vars := V; m_dim := K; m_lin := par |} /\ length par = K /\
    (forall l, (l < K)%nat -> length (fst (nth l par ([], 0))) = V) /\
    forall xs k, (k < K)%nat ->
      soft K (score K V par xs) k = (if Nat.eqb k 0 then exp x else 1) / (exp x + INR (K - 1))).
Proof. exact p_C59_init. Qed.
Print Assumptions C59_init.

(** two rows, two distances, one variable; [ex] = 1 + x² *)
Example C59_ex : match forward (fun x : Q => 1 + x * x)%Q {| m_vars := 1; m_dim := 2; m_lin := [([1], 0); ([2], 1)] |}%Q
    {| it_y := batch_vec [1;2]; it_Gamma := batch_mat [[4;6];[3;5]]; it_eta := batch_mat [[2;1];[1;1]]; it_w := batch_vec [1;1];
       it_x := batch_mat [[1;0];[0;1]] |}%Q with
  | Ok (yh, _, la) => sh yh = [1;2;1]%nat /\ map Qred (dat yh) = [10#3; 53#11]%Q /\ map Qred (dat la) = [1#2; 1#2; 1#11; 10#11]%Q | Err _ => False end.
Proof. vm_compute. auto. Qed.
Example C59_ex_hyp : rect 2 [[4;6];[3;5]] /\ rect (2 * 1) [[1;0];[0;1]] /\ par_ok 2 1 [([1], 0); ([2], 1)] /\
  (forall k, (k < 2)%nat -> 0 <= nth k (nth 0 [[2;1];[1;1]] []) 0 /\
     2 * nth k (nth 0 [[2;1];[1;1]] []) 0 <= nth k (nth 0 [[4;6];[3;5]] []) 0 <= 6 * nth k (nth 0 [[2;1];[1;1]] []) 0).
Proof.
  split; [intros r [<-|[<-|[]]]; reflexivity|]. split; [intros r [<-|[<-|[]]]; reflexivity|].
  split; [split; [reflexivity|]; intros [|[|l]] Hl; try reflexivity; lia|]. intros [|[|k]] Hk; cbn; try lra; lia.
Qed.

(** ** C60: the dataset *)

(** C60: ForestDataset puts attribute v (the one-dimensional ones first) at distance l into column lamb_dim·v + l, one-dimensional ones the same for all distances; exactly when an array has the wrong shape it raises AssertionError; *)
Theorem C60_dataset : forall y (G E : list (list R)) w tv (one : list (key * list R)) (two : list (key * list (list R))) K,
  (shapes_ok (length E) K one two -> exists X, attr_table (length E) K one two X /\
     forest_dataset y G E w tv one two K = Ok {| ds_y := y; ds_Gamma := G; ds_eta := E; ds_w := w; ds_t := tv; ds_x := X; ds_num := length (nodup Nat.eq_dec tv) |}) /\
  (~ shapes_ok (length E) K one two -> forest_dataset y G E w tv one two K = Err AssertionError).
Proof. exact p_C60_dataset. Qed.
Print Assumptions C60_dataset.

(** ... item q consists of the rows whose entry of t_vec is q, in order, of all five arrays; *)
Theorem C60_items : forall (d : @dataset R) q, length (ds_y d) = length (ds_t d) -> length (ds_w d) = length (ds_t d) -> length (ds_Gamma d) = length (ds_t d) ->
  length (ds_eta d) = length (ds_t d) -> length (ds_x d) = length (ds_t d) ->
  is_batch (ds_y d) (ds_w d) (ds_Gamma d) (ds_eta d) (ds_x d) (ds_t d) q (getitem d q).
Proof. exact p_C60_items. Qed.
Print Assumptions C60_items.

(** ... so every row is in exactly one of the items. *)
Theorem C60_partition : forall (tv : list nat) r, (r < length tv)%nat ->
  exists q, In q tv /\ In r (rows_of q tv) /\ forall q', In r (rows_of q' tv) -> q' = q.
Proof. exact p_C60_partition. Qed.
Print Assumptions C60_partition.

Example C60_ex : match forest_dataset [1;2;3] [[1;2];[3;4];[5;6]] [[1;1];[2;2];[3;3]] [1;1;1] [0;1;0]%nat [(Leaf_n, [7;8;9])] [(Full_d, [[1;2];[3;4];[5;6]])] 2 with
  | Ok d => ds_x d = [[7;7;1;2];[8;8;3;4];[9;9;5;6]] /\ ds_num d = 2%nat /\ it_x (getitem d 0) = batch_mat [[7;7;1;2];[9;9;5;6]] | Err _ => False end%Q /\
  (@forest_dataset Q _ [1;2;3] [[1;2];[3;4];[5;6]] [[1;1];[2;2];[3;3]] [1;1;1] [0;1;0]%nat [(Leaf_n, [7;8])] [] 2 = Err AssertionError)%Q.
Proof. vm_compute. auto. Qed.
Example C60_ex_hyp : shapes_ok 3 2 [(Leaf_n, [7;8;9])] [(Full_d, [[1;2];[3;4];[5;6]])].
Proof. split; [intros e [<-|[]]; reflexivity|]. intros e [<-|[]]. split; [reflexivity|]. intros r [<-|[<-|[<-|[]]]]; reflexivity. Qed.

(** ** C62: the loss functions *)

(** C62: on vectors, weighted_l2 is nonnegative and zero exactly when the predictions equal the targets where the weight is positive; *)
Theorem C62_weighted : forall e (y p w : list R), length y = length w -> length p = length w -> (forall x, In x w -> 0 <= x) -> 0 < nsum w ->
  exists l, weighted_l2_gen e (of_list y) (of_list p) (of_list w) = Ok l /\ 0 <= l /\
    (l = 0 <-> forall i, (i < length w)%nat -> 0 < nth i w 0 -> nth i y 0 = nth i p 0).
Proof. exact p_C62_weighted. Qed.
Print Assumptions C62_weighted.

(** ... it is the weighted mean of the squared errors; *)
Theorem C62_weighted_value : forall e (y p w : list R), length y = length w -> length p = length w ->
  weighted_l2_gen e (of_list y) (of_list p) (of_list w) = Ok (wmse (length w) (fun i => nth i w 0) (fun i => nth i y 0) (fun i => nth i p 0)).
Proof. intros. apply loss_same; auto. Qed.
Print Assumptions C62_weighted_value.

(** ... l2_np is the mean squared error, zero exactly for equal vectors; *)
Theorem C62_l2 : forall y p : list R, length y = length p -> y <> [] ->
  exists l, l2_np (of_list y) (of_list p) = Ok l /\ l = sumto (length y) (fun i => (nth i y 0 - nth i p 0) ^ 2) / INR (length y) /\ 0 <= l /\ (l = 0 <-> y = p).
Proof. exact p_C62_l2. Qed.
Print Assumptions C62_l2.

(** ... acc_np is the share of equal entries: between 0 and 1, and 1 exactly for equal vectors. *)
Theorem C62_acc : forall y p : list R, length y = length p -> y <> [] ->
  acc_np (of_list y) (of_list p) = sum_sel (length y) (fun i => Reqb (nth i y 0) (nth i p 0)) (fun _ => 1) / INR (length y) /\
  0 <= acc_np (of_list y) (of_list p) <= 1 /\ (acc_np (of_list y) (of_list p) = 1 <-> y = p).
Proof. exact p_C62_acc. Qed.
Print Assumptions C62_acc.

(** ... calc_cost (the cost of the linear smoother) is Σ weight·(target - Gamma·λ/eta·λ)², zero exactly when every row with positive weight is met, and an AssertionError if some eta·λ is 0 but Gamma·λ is not. *)
Theorem C62_cost : forall (y w lam : list R) (G E : list (list R)), length w = length y -> length G = length y -> length E = length y ->
  ((forall i, (i < length y)%nat -> exists v, row_value (nth i G []) (nth i E []) lam v) ->
   exists p c, length p = length y /\ (forall i, (i < length y)%nat -> row_value (nth i G []) (nth i E []) lam (nth i p 0)) /\
     calc_cost y G E w lam = Ok c /\ c = sumto (length y) (fun i => nth i w 0 * (nth i y 0 - nth i p 0) ^ 2) /\
     ((forall x, In x w -> 0 <= x) -> 0 <= c /\ (c = 0 <-> forall i, (i < length y)%nat -> 0 < nth i w 0 -> nth i y 0 = nth i p 0))) /\
  (forall i, (i < length y)%nat -> (forall v, ~ row_value (nth i G []) (nth i E []) lam v) -> calc_cost y G E w lam = Err AssertionError).
Proof. exact p_C62_cost. Qed.
Print Assumptions C62_cost.
Example C62_ex_cost : (calc_cost [1;2] [[2;4];[0;0]] [[1;1];[0;0]] [3;1] [1#2;1#2] = Ok 16 /\ calc_cost [1] [[2;4]] [[1;-(1)]] [3] [1#2;1#2] = Err AssertionError)%Q.
Proof. vm_compute. auto. Qed.

Example C62_ex : (weighted_l2 (of_list [1;2;3]) (of_list [1;4;0]) (of_list [2;1;1]) = Ok (13#4) /\
  l2_np (of_list [1;2]) (of_list [1;4]) = Ok 2 /\ acc_np (of_list [1;2;3;3]) (of_list [1;4;0;3]) = 1#2)%Q.
Proof. split; [vm_compute; reflexivity|]. split; vm_compute; reflexivity. Qed.
Example C62_ex_hyp : (forall x, In x [2;1;1] -> 0 <= x) /\ 0 < nsum [2;1;1].
Proof. split; [intros x [<-|[<-|[<-|[]]]]; lra|]. rewrite !nsum_cons, nsum_nil. lra. Qed.

(** ** C73: the loss that is tuned compares every target with every prediction *)

(** C73: with the targets a (1,N) array and the predictions a (1,N,1) array, as smooth_pytorch calls it, weighted_l2 is Σ (prediction - mean target)² plus a constant that does not depend on the predictions; *)
Theorem C73_loss : forall (y w : list R) (yh : tensor R), length w = length y -> sh yh = [1%nat; length y; 1%nat] -> length (dat yh) = length y -> 0 < nsum w ->
  let n := length y in let yv i := nth i y 0 in let wv i := nth i w 0 in let pv i := nth i (dat yh) 0 in
  weighted_l2 (batch_vec y) yh (batch_vec w) = Ok (sumto n (fun i => (pv i - wmean n wv yv) ^ 2) + INR n * wvar n wv yv).
Proof. exact p_C73. Qed.
Print Assumptions C73_loss.

(** ... so the best predictions are all equal to the mean target, and no others are as good; *)
Theorem C73_best : forall n w y p, 0 < sumto n w ->
  all_pairs n w y (fun _ => wmean n w y) <= all_pairs n w y p /\
  (all_pairs n w y p = all_pairs n w y (fun _ => wmean n w y) <-> forall i, (i < n)%nat -> p i = wmean n w y).
Proof. exact all_pairs_best. Qed.
Print Assumptions C73_best.

(** ... the loss is the sum of the squared errors of all pairs over the total weight; *)
Theorem C73_pairs : forall (y w : list R) (yh : tensor R), length w = length y -> sh yh = [1%nat; length y; 1%nat] -> length (dat yh) = length y ->
  weighted_l2 (batch_vec y) yh (batch_vec w) = Ok (all_pairs (length y) (fun i => nth i w 0) (fun i => nth i y 0) (fun i => nth i (dat yh) 0)).
Proof. intros. unfold weighted_l2. apply loss_pairs; auto. Qed.
Print Assumptions C73_pairs.

(** ... so the documented weighted squared error is refuted: predictions equal to the targets can cost more than predictions that are wrong everywhere. *)
Theorem C73_documented_refuted : exists (y w p : list R), length y = 2%nat /\ (forall i, (i < 2)%nat -> nth i p 0 <> nth i y 0) /\
  wmse 2 (fun i => nth i w 0) (fun i => nth i y 0) (fun i => nth i y 0) = 0 /\ 0 < wmse 2 (fun i => nth i w 0) (fun i => nth i y 0) (fun i => nth i p 0) /\
  weighted_l2 (batch_vec y) (mkTensor [1;2;1]%nat y) (batch_vec w) = Ok 4 /\ weighted_l2 (batch_vec y) (mkTensor [1;2;1]%nat p) (batch_vec w) = Ok 2.
Proof.
  exists [0;2], [1;1], [1;1]. split; [reflexivity|]. split; [intros [|[|i]] Hi; cbn; try lra; lia|].
  split; [unfold wmse; cbn; lra|]. split; [unfold wmse; cbn; lra|].
  split; (rewrite C73_pairs by reflexivity); f_equal; unfold all_pairs; cbn; lra.
Qed.
Print Assumptions C73_documented_refuted.

Example C73_ex : (weighted_l2 (batch_vec [0;2]) (mkTensor [1;2;1]%nat [0;2]) (batch_vec [1;1]) = Ok 4)%Q.
Proof. vm_compute. reflexivity. Qed.
Example C73_ex_hyp : 0 < nsum [1;1] /\ 0 < sumto 2 (fun i => nth i [1;1] 0).
Proof. split; [rewrite !nsum_cons, nsum_nil; lra|cbn; lra]. Qed.

(** ** C76: the prepared arrays *)

(** C76: pytorch_numpy_prep succeeds on tuning data for every tree, and row c·B + (leaf i of tree q), B leaves in all, of every array it returns belongs to response column c and that leaf: number of tuning observations in the leaf and their mean response, Gamma and eta rows, tree, attributes of the leaf and of its ancestors. *)
Theorem C76_prep : forall kd ts (o : @prep_opts R) rd M, Forall (@wf_tree R) ts -> ts <> [] -> po_style o <> MinStyle -> is_max_depth ts M ->
  (good_prep kd o rd ts -> exists p, pytorch_numpy_prep (Forest kd ts) o rd = Ok p) /\
  forall p, pytorch_numpy_prep (Forest kd ts) o rd = Ok p ->
  exists y G E w tv xn xd xi xdf xif,
    p = {| pr_y := y; pr_Gamma := G; pr_eta := E; pr_w := w; pr_t := tv; pr_one := [(Leaf_n, xn); (Leaf_d, xd); (Leaf_i, xi)];
           pr_two := [(Full_d, xdf); (Full_i, xif)]; pr_dim := S M; pr_nc := n_gamma kd |} /\
    prepared kd ts o rd M y G E w tv xn xd xi xdf xif.
Proof. exact p_C76. Qed.
Print Assumptions C76_prep.

(** the data asked for is missing, or no forest *)
Theorem C76_errors : forall rf (o : @prep_opts R) rd,
  (rf = OtherObject -> pytorch_numpy_prep rf o rd = Err ValueError) /\
  (rf <> OtherObject -> ~ own_tuning o -> po_X_trained o = None \/ po_y_trained o = None -> pytorch_numpy_prep rf o rd = Err TypeError).
Proof.
  intros rf o rd. split; [intros ->; reflexivity|]. intros NO NW ND. destruct rf as [kd ts|]; [|congruence]. unfold pytorch_numpy_prep.
  destruct (own_dec o) as [(A&_)|(_&->)]; [contradiction|]. destruct ND as [->| ->]; cbn [isNone andb orb]; [reflexivity|]. rewrite Bool.orb_true_r. reflexivity.
Qed.
Print Assumptions C76_errors.

Example C76_ex : match pytorch_numpy_prep (Forest Reg (@ex_ts2 Q _)) (train_opts (Some exX) (Some (exrow [2;4;8]%Z)) Standard false) ex_trows with
  | Ok p => map Qred (pr_y p) = [2; 16#3; 2; 4; 8] /\ pr_w p = [1;3;1;2;1] /\ pr_t p = [0;0;1;1;1]%nat /\
      pr_Gamma p = [[40;60;0];[60;40;0];[2;14;0];[5;9;2];[9;5;2]] /\ pr_eta p = [[2;2;0];[2;2;0];[2;2;0];[1;1;2];[1;1;2]] /\
      pr_one p = [(Leaf_n, [2;2;2;1;1]); (Leaf_d, [1;1;1;2;2]); (Leaf_i, [0;0;0;0;0])] | Err _ => False end%Q.
Proof. vm_compute. do 5 (split; [reflexivity|]). reflexivity. Qed.
Example C76_ex_hyp : good_prep Reg (prep_args (ex_topts true true false false)) ex_trows (@ex_ts2 R _).
Proof.
  right. split; [intros (A&_); discriminate|]. exists exX, (exrow [2;4;8]%Z). split; [reflexivity|]. split; [reflexivity|]. split; [reflexivity|].
  intros q Hq. split; [discriminate|]. split; [|exact I]. cbn. intros i Hi. intuition lia.
Qed.

(** ** C77: centers as attributes *)

(** C77: node_spatial_structure_update adds to the first dictionary, per coordinate, the center of every leaf's box, and to the second the centers of the boxes of the leaf and its ancestors 0..M levels up (the root's beyond it), leaf after leaf; without a dictionary it raises ValueError. *)
Theorem C77_spatial : forall ts p X M (one : option (list (key * list R))) (two : option (list (key * list (list R)))), Forall (@wf_tree R) ts -> ts <> [] ->
  Forall (features_ok p) ts -> data_ok p X -> is_max_depth ts M -> (forall d, one = Some d -> no_centers d) -> (forall d, two = Some d -> no_centers d) ->
  match one, two with
  | None, None => node_spatial_structure_update ts X one two = Err ValueError
  | _, _ => exists one' two', node_spatial_structure_update ts X one two = Ok (one', two') /\
      match one with None => one' = None | Some d => exists d', one' = Some d' /\ with_centers p (leaf_centers p ts X) d d' end /\
      match two with None => two' = None | Some d => exists d', two' = Some d' /\ with_centers p (path_centers p ts X M) d d' end
  end.
Proof. exact p_C77. Qed.
Print Assumptions C77_spatial.

Example C77_ex : (node_spatial_structure_update (@ex_ts2 Q _) exX (Some [(Leaf_n, [1])]) (Some []) =
  Ok (Some [(Leaf_n, [1]); (Center 0, [1#2;2;1#2;2;2]); (Center 1, [5#2;5#2;5#2;1;7#2])],
      Some [(Center 0, [[1#2;3#2;3#2];[2;3#2;3#2];[1#2;3#2;3#2];[2;2;3#2];[2;2;3#2]]);
            (Center 1, [[5#2;5#2;5#2];[5#2;5#2;5#2];[5#2;5#2;5#2];[1;5#2;5#2];[7#2;5#2;5#2]])]))%Q.
Proof. vm_compute. reflexivity. Qed.
Example C77_ex_hyp : Forall (@wf_tree R) ex_ts2 /\ Forall (features_ok 2) (@ex_ts2 R _) /\ data_ok 2 (@exX R _) /\ is_max_depth (@ex_ts2 R _) 2 /\ @no_centers (list R) [(Leaf_n, [1])].
Proof.
  destruct ex_forest as (A&_&C&D). split; auto. split; auto. split; auto. split; [exact ex35_depth|]. intros c v [H|[]]. discriminate.
Qed.

(** ** C61: tuning *)

(** C61: a returning call has made passes·trees steps, step e·trees + i on the rows of tree (draw e i mod trees); the recorded losses are those of the parameters after every step on all rows; loss_min is the smallest of them, and best_model holds the parameters after the last step that attained it; *)
Theorem C61_tuning : forall {St} (kd : kind) (ts : list (tree R)) (o : @torch_opts R) rd p M
    (opt : St -> list (list R * R) -> @item R -> St * list (list R * R)) opt0 draw out,
  torch_setting kd ts o rd p M opt -> init_ok (S M) (num_attrs o p) (to_init o) -> smooth_pytorch exp opt opt0 (Forest kd ts) o rd draw = Ok out ->
  let V := num_attrs o p in let T := length ts in
  exists y G E w tv xn xd xi xdf xif one two X p0 ps ss steps,
    prepared kd ts (prep_args o) rd M y G E w tv xn xd xi xdf xif /\ chosen p M ts o xn xd xi xdf xif one two /\
    attr_table (n_gamma kd * offset ts T) (S M) one two X /\ start_par (S M) V (to_init o) p0 /\
    length steps = (passes o ts * T)%nat /\
    (forall e i, (e < passes o ts)%nat -> (i < T)%nat -> nth_error steps (e * T + i) = Some (draw e i mod T)%nat) /\
    tuning_run opt (is_batch y w G E X tv) steps opt0 p0 ps ss /\
    so_losses out = map (full_loss (S M) V y w G E X) (tl ps) /\ length (so_losses out) = (passes o ts * T)%nat /\
    m_vars (so_best out) = V /\ m_dim (so_best out) = S M /\ m_vars (so_model out) = V /\ m_dim (so_model out) = S M /\
    nth_error ps (length steps) = Some (m_lin (so_model out)) /\
    (exists j, nth_error (tl ps) j = Some (m_lin (so_best out)) /\ so_loss_min out = full_loss (S M) V y w G E X (m_lin (so_best out)) /\
       In (so_loss_min out) (so_losses out) /\
       (forall x, In x (so_losses out) -> so_loss_min out <= x) /\
       (forall i x, (j < i)%nat -> nth_error (so_losses out) i = Some x -> so_loss_min out < x)).
Proof.
  intros St kd ts o rd p M opt opt0 draw out TS IO H V T.
  destruct (run_facts kd ts o rd p M opt opt0 draw TS IO out H) as (_&_&y&G&E&w&tv&xn&xd&xi&xdf&xif&one&two&X&p0&ps&ss&steps&A1&A2&A3&A4&A5&A6&A7&A8&A9&A10&A11&A12&A13&(j&J1&J2&J3&J4)&_).
  exists y, G, E, w, tv, xn, xd, xi, xdf, xif, one, two, X, p0, ps, ss, steps. do 8 (split; [assumption|]).
  split; [rewrite A8, map_length; destruct A7 as (LP&_); destruct ps; cbn in *; lia|]. do 5 (split; [assumption|]).
  exists j. split; auto. split; auto. split; [|auto]. rewrite J2, A8. apply in_map. eapply nth_error_In; eauto.
Qed.
Print Assumptions C61_tuning.

(** ... the tuning data and resample_tune passed to smooth_pytorch make no difference; *)
Theorem C61_tuning_data_ignored : forall {St} ex (opt : St -> list (list R * R) -> @item R -> St * list (list R * R)) opt0 rf (o : @torch_opts R) X Y b rd draw,
  smooth_pytorch ex opt opt0 rf o rd draw =
  smooth_pytorch ex opt opt0 rf {| to_X_trained := to_X_trained o; to_y_trained := to_y_trained o; to_X_tune := X; to_y_tune := Y; to_resample := b;
    to_sgd_max_num := to_sgd_max_num o; to_all_trees := to_all_trees o; to_parents_all := to_parents_all o; to_style := to_style o;
    to_which_one := to_which_one o; to_which_two := to_which_two o; to_x_one := to_x_one o; to_x_two := to_x_two o; to_init := to_init o |} rd draw.
Proof. intros. reflexivity. Qed.
Print Assumptions C61_tuning_data_ignored.

(** ... params_min, documented as the parameters of the smallest loss, names the live parameters of the model: read after the call it holds the last parameters, which are not the best ones when the last loss is not the smallest; *)
Theorem C61_params_min : forall {St} (kd : kind) (ts : list (tree R)) (o : @torch_opts R) rd p M
    (opt : St -> list (list R * R) -> @item R -> St * list (list R * R)) opt0 draw out,
  torch_setting kd ts o rd p M opt -> init_ok (S M) (num_attrs o p) (to_init o) -> smooth_pytorch exp opt opt0 (Forest kd ts) o rd draw = Ok out ->
  map (fun c => nth c (m_lin (so_model out)) ([], 0)) (so_params_min out) = m_lin (so_model out) /\
  (last (so_losses out) 0 <> so_loss_min out -> map (fun c => nth c (m_lin (so_model out)) ([], 0)) (so_params_min out) <> m_lin (so_best out)).
Proof. intros St kd ts o rd p M opt opt0 draw out TS IO. exact (p_C61_alias kd ts o rd p M opt opt0 draw TS IO out). Qed.
Print Assumptions C61_params_min.

(** ... which happens (rational arithmetic, 1 + x² in place of the exponential). *)
Theorem C61_params_min_refuted : exists (ex : Q -> Q) (opt : nat -> list (list Q * Q) -> @item Q -> nat * list (list Q * Q)) rf o rd draw out,
  smooth_pytorch ex opt 0%nat rf o rd draw = Ok out /\
  map (fun c => nth c (m_lin (so_model out)) ([], 0%Q)) (so_params_min out) <> m_lin (so_best out).
Proof.
  exists (fun x => 1 + x * x)%Q, (ex_opt [[([0;0],2);([0;0],1);([0;0],0)]; [([0;0],9);([0;0],0);([0;0],1)]])%Q,
    (Forest Reg ex_ts2), (ex_topts false true false false), ex_trows, (fun e i => (e + i)%nat).
  destruct (smooth_pytorch _ _ _ _ _ _ _) as [out|] eqn:E; [|vm_compute in E; discriminate].
  exists out. split; [reflexivity|].
  assert (A : (match smooth_pytorch (fun x => 1 + x * x)%Q (ex_opt [[([0;0],2);([0;0],1);([0;0],0)]; [([0;0],9);([0;0],0);([0;0],1)]])%Q 0%nat
     (Forest Reg ex_ts2) (ex_topts false true false false) ex_trows (fun e i => (e + i)%nat) with
     | Ok out => Some (map (fun c => nth c (m_lin (so_model out)) ([], 0%Q)) (so_params_min out), m_lin (so_best out)) | Err _ => None end) =
     Some ([([0;0],9);([0;0],0);([0;0],1)], [([0;0],2);([0;0],1);([0;0],0)])%Q) by (vm_compute; reflexivity).
  rewrite E in A. intros Z. rewrite Z in A. injection A as A1 A2. rewrite A1 in A2. discriminate.
Qed.
Print Assumptions C61_params_min_refuted.

(** a run of two steps; the second is worse *)
Example C61_ex : match smooth_pytorch (fun x => 1 + x * x)%Q (ex_opt [[([0;0],2);([0;0],1);([0;0],0)]; [([0;0],9);([0;0],0);([0;0],1)]])%Q 0%nat
     (Forest Reg ex_ts2) (ex_topts false true false false) ex_trows (fun e i => (e + i)%nat) with
  | Ok out => map Qred (so_losses out) = [385243 # 441; 16229982583 # 17380947] /\ Qred (so_loss_min out) = 385243 # 441 /\
      map (fun t => map (map Qred) (t_value t)) (so_forest out) = [[[25]; [160 # 7]; [190 # 7]]; [[4]; [19 # 7]; [7]; [5]; [19 # 3]]] | Err _ => False end%Q.
Proof. vm_compute. auto. Qed.
Example C61_ex_hyp : torch_setting Reg (@ex_ts2 R _) (ex_topts true true false false) ex_trows 2 2 (fun (s : nat) par (x : @item R) => (S s, par)) /\
  init_ok 3 (num_attrs (ex_topts true true false false) 2) (to_init (@ex_topts R _ true true false false)) /\ passes (ex_topts true true false false) (@ex_ts2 R _) = 1%nat /\
  exists out, smooth_pytorch exp (fun (s : nat) par (x : @item R) => (S s, par)) 0%nat (Forest Reg ex_ts2) (ex_topts true true false false) ex_trows (fun e i => (e + i)%nat) = Ok out.
Proof.
  assert (A : torch_setting Reg (@ex_ts2 R _) (ex_topts true true false false) ex_trows 2 2 (fun (s : nat) par (x : @item R) => (S s, par))) by (apply ex_setting_ok; auto).
  assert (B : init_ok 3 (num_attrs (ex_topts true true false false) 2) (to_init (@ex_topts R _ true true false false))) by (cbn; lra).
  split; auto. split; auto. split; [reflexivity|].
  apply (p_C74_outcome _ _ _ _ _ _ _ 0%nat (fun e i => (e + i)%nat) A B); [cbn; intuition lia|cbn; lia|cbn; lia].
Qed.

(** ** C74: which attributes the forest is smoothed with *)

(** C74: smooth_pytorch returns exactly when it makes a step, no centers are asked for with two or more response columns, and at most five attributes are in use -- update_rf always prepares the five attributes of the leaves, so a model with centers besides the default attributes ends in an IndexError; *)
Theorem C74_outcome : forall {St} (kd : kind) (ts : list (tree R)) (o : @torch_opts R) rd p M
    (opt : St -> list (list R * R) -> @item R -> St * list (list R * R)) opt0 draw,
  torch_setting kd ts o rd p M opt -> init_ok (S M) (num_attrs o p) (to_init o) ->
  let bad := (to_x_one o = true \/ to_x_two o = true) /\ (1 < n_gamma kd)%nat /\ (0 < p)%nat in
  let run := smooth_pytorch exp opt opt0 (Forest kd ts) o rd draw in
  (bad -> run = Err AssertionError) /\
  (~ bad -> passes o ts = 0%nat -> run = Err UnboundLocalError) /\
  (~ bad -> (0 < passes o ts)%nat -> (5 < num_attrs o p)%nat -> run = Err IndexError) /\
  (~ bad -> (0 < passes o ts)%nat -> (num_attrs o p <= 5)%nat -> exists out, run = Ok out).
Proof. intros St kd ts o rd p M opt opt0 draw TS IO. exact (p_C74_outcome kd ts o rd p M opt opt0 draw TS IO). Qed.
Print Assumptions C74_outcome.

(** ... without any attribute, and with a start value that is not positive, it fails before the first step; *)
Theorem C74_no_start : forall {St} (kd : kind) (ts : list (tree R)) (o : @torch_opts R) rd p M
    (opt : St -> list (list R * R) -> @item R -> St * list (list R * R)) opt0 draw,
  torch_data kd ts o rd p M -> ~ ((to_x_one o = true \/ to_x_two o = true) /\ (1 < n_gamma kd)%nat /\ (0 < p)%nat) ->
  let run := smooth_pytorch exp opt opt0 (Forest kd ts) o rd draw in
  (forall x, to_init o = InitScalar x -> x <= 0 -> run = Err ValueError) /\
  (num_attrs o p = 0%nat -> (forall x, to_init o = InitScalar x -> 0 < x) -> run = Err ZeroDivisionError).
Proof. exact @p_C74_no_start. Qed.
Print Assumptions C74_no_start.

(** ... in particular with the default attributes and centers of at least one coordinate it never returns; *)
Theorem C74_default_with_centers : forall {St} (kd : kind) (ts : list (tree R)) (o : @torch_opts R) rd p M
    (opt : St -> list (list R * R) -> @item R -> St * list (list R * R)) opt0 draw,
  torch_setting kd ts o rd p M opt -> init_ok (S M) (num_attrs o p) (to_init o) -> (0 < p)%nat ->
  to_which_one o = true -> to_which_two o = true -> to_x_one o = true \/ to_x_two o = true ->
  forall out, smooth_pytorch exp opt opt0 (Forest kd ts) o rd draw <> Ok out.
Proof.
  intros St kd ts o rd p M opt opt0 draw TS IO Hp W1 W2 HX out H.
  destruct (run_facts kd ts o rd p M opt opt0 draw TS IO out H) as (_&V5&_). unfold num_attrs in V5. rewrite W1, W2 in V5.
  destruct HX as [Q|Q]; rewrite Q in V5; lia.
Qed.
Print Assumptions C74_default_with_centers.

(** ... and the forest is smoothed with other attributes than the model was tuned on: with which_dicts = ["two"] the parameters are tuned on depth and impurity of the ancestors l levels up, but applied to the weight and the depth of the leaf; *)
Theorem C74_attributes_swapped : forall {St} (kd : kind) (ts : list (tree R)) (o : @torch_opts R) rd p M
    (opt : St -> list (list R * R) -> @item R -> St * list (list R * R)) opt0 draw out,
  torch_setting kd ts o rd p M opt -> init_ok (S M) (num_attrs o p) (to_init o) ->
  to_which_one o = false -> to_which_two o = true -> to_x_one o = false -> to_x_two o = false ->
  smooth_pytorch exp opt opt0 (Forest kd ts) o rd draw = Ok out ->
  let par := m_lin (so_best out) in
  (exists y G E w tv xn xd xi xdf xif X, prepared kd ts (prep_args o) rd M y G E w tv xn xd xi xdf xif /\
     so_loss_min out = full_loss (S M) 2 y w G E X par /\
     forall r l, (r < n_gamma kd * offset ts (length ts))%nat -> (l <= M)%nat -> score (S M) 2 par (nth r X []) l =
       nth l (nth r xdf []) 0 * nth 0 (fst (nth l par ([], 0))) 0 + nth l (nth r xif []) 0 * nth 1 (fst (nth l par ([], 0))) 0 + snd (nth l par ([], 0))) /\
  forall q t, nth_error ts q = Some t -> exists t', nth_error (so_forest out) q = Some t' /\
    forall i dp, (i < n_leaves t)%nat -> depth_of t (leaf_id t i) dp -> exists kap,
      is_kernel t (to_style o) (to_parents_all o)
        (map (soft (S M) (fun l => leaf_w t i * nth 0 (fst (nth l par ([], 0))) 0 + INR dp * nth 1 (fst (nth l par ([], 0))) 0 + snd (nth l par ([], 0)))) (seq 0 (S M))) i kap /\
      forall c, (c < n_gamma kd)%nat -> node_v t' c (leaf_id t i) = kmean t kd kap c.
Proof. intros St kd ts o rd p M opt opt0 draw out TS IO W1 W2 X1 X2 H. exact (p_C74_swap kd ts o rd p M opt opt0 draw TS IO out W1 W2 X1 X2 H). Qed.
Print Assumptions C74_attributes_swapped.

Example C74_ex : smooth_pytorch (fun x => 1 + x * x)%Q (ex_opt []) 0%nat (Forest Reg ex_ts2) (ex_topts true true true false) ex_trows (fun e i => (e + i)%nat) = Err IndexError.
Proof. vm_compute. reflexivity. Qed.
(** no attributes at all *)
Example C74_ex_none : smooth_pytorch (fun x => 1 + x * x)%Q (ex_opt []) 0%nat (Forest Reg ex_ts2) (ex_topts false false false false) ex_trows (fun e i => (e + i)%nat) = Err ZeroDivisionError /\
  torch_data Reg (@ex_ts2 R _) (ex_topts false false false false) ex_trows 2 2 /\ num_attrs (@ex_topts R _ false false false false) 2 = 0%nat.
Proof.
  split; [vm_compute; reflexivity|]. split; [|reflexivity].
  assert (A : torch_setting Reg (@ex_ts2 R _) (ex_topts true true false false) ex_trows 2 2 (fun (s : nat) par (x : @item R) => (S s, par))) by (apply ex_setting_ok; auto).
  destruct A as (A1&A2&A3&A4&A5&A6&A7&A8&A9&_). do 4 (split; [assumption|]). do 3 (split; [assumption|]). split; assumption.
Qed.
Example C74_ex_hyp : torch_setting Reg (@ex_ts2 R _) (ex_topts false true false false) ex_trows 2 2 (fun (s : nat) par (x : @item R) => (S s, par)) /\
  init_ok 3 (num_attrs (ex_topts false true false false) 2) (to_init (@ex_topts R _ false true false false)) /\
  (exists out, smooth_pytorch exp (fun (s : nat) par (x : @item R) => (S s, par)) 0%nat (Forest Reg ex_ts2) (ex_topts false true false false) ex_trows (fun e i => (e + i)%nat) = Ok out) /\
  torch_setting Reg (@ex_ts2 R _) (ex_topts true true true false) ex_trows 2 2 (fun (s : nat) par (x : @item R) => (S s, par)).
Proof.
  assert (A : torch_setting Reg (@ex_ts2 R _) (ex_topts false true false false) ex_trows 2 2 (fun (s : nat) par (x : @item R) => (S s, par))) by (apply ex_setting_ok; auto).
  assert (B : init_ok 3 (num_attrs (ex_topts false true false false) 2) (to_init (@ex_topts R _ false true false false))) by (cbn; lra).
  split; auto. split; auto. split; [|apply ex_setting_ok; auto].
  apply (p_C74_outcome _ _ _ _ _ _ _ 0%nat (fun e i => (e + i)%nat) A B); [cbn; intuition lia|cbn; lia|cbn; lia].
Qed.

(** ** C75: the forest that is returned *)

(** C75: update_rf changes only leaf values; every leaf gets the weighted mean of the tree's leaf values, the weights of the distances being the softmax of the linear scores of the leaf's own attributes; with more than five attributes it fails with IndexError; *)
Theorem C75_update_rf : forall kd ts X y pa s rd p M V par, Forall (@wf_tree R) ts -> ts <> [] -> (0 < n_gamma kd)%nat -> s <> MinStyle -> is_max_depth ts M ->
  (forall t, In t ts -> pos_leaves t) -> par_ok (S M) V par ->
  pytorch_numpy_prep (Forest kd ts) (train_opts X y s pa) rd = Ok p ->
  ((V <= 5)%nat -> exists f, update_rf exp (Forest kd ts) {| m_vars := V; m_dim := S M; m_lin := par |} X y pa s rd = Ok f /\ length f = length ts /\
    forall q t, nth_error ts q = Some t -> exists t', nth_error f q = Some t' /\ same_but_leaf_values t t' /\
      forall i, (i < n_leaves t)%nat -> soft_leaf kd s pa M V par t t' i) /\
  ((5 < V)%nat -> update_rf exp (Forest kd ts) {| m_vars := V; m_dim := S M; m_lin := par |} X y pa s rd = Err IndexError).
Proof. exact update_ok. Qed.
Print Assumptions C75_update_rf.

(** ... an object that is no forest is refused; *)
Theorem C75_not_a_forest : forall {St} (opt : St -> list (list R * R) -> @item R -> St * list (list R * R)) opt0 m X y pa s rd (o : @torch_opts R) draw,
  update_rf exp OtherObject m X y pa s rd = Err ValueError /\ smooth_pytorch exp opt opt0 OtherObject o rd draw = Err ValueError.
Proof. intros. split; reflexivity. Qed.
Print Assumptions C75_not_a_forest.

(** ... smooth_pytorch returns the forest of its best model; *)
Theorem C75_forest : forall {St} (kd : kind) (ts : list (tree R)) (o : @torch_opts R) rd p M
    (opt : St -> list (list R * R) -> @item R -> St * list (list R * R)) opt0 draw out,
  torch_setting kd ts o rd p M opt -> init_ok (S M) (num_attrs o p) (to_init o) -> smooth_pytorch exp opt opt0 (Forest kd ts) o rd draw = Ok out ->
  length (so_forest out) = length ts /\
  forall q t, nth_error ts q = Some t -> exists t', nth_error (so_forest out) q = Some t' /\ same_but_leaf_values t t' /\
    forall i, (i < n_leaves t)%nat -> soft_leaf kd (to_style o) (to_parents_all o) M (num_attrs o p) (m_lin (so_best out)) t t' i.
Proof.
  intros St kd ts o rd p M opt opt0 draw out TS IO H.
  destruct (run_facts kd ts o rd p M opt opt0 draw TS IO out H) as (_&_&y&G&E&w&tv&xn&xd&xi&xdf&xif&one&two&X&p0&ps&ss&steps&FF).
  do 16 (apply proj2 in FF). exact FF.
Qed.
Print Assumptions C75_forest.

(** ... for regression every new leaf value lies in the range of the tree's leaf values, ... *)
Theorem C75_range : forall {St} (ts : list (tree R)) (o : @torch_opts R) rd p M
    (opt : St -> list (list R * R) -> @item R -> St * list (list R * R)) opt0 draw out,
  torch_setting Reg ts o rd p M opt -> init_ok (S M) (num_attrs o p) (to_init o) -> smooth_pytorch exp opt opt0 (Forest Reg ts) o rd draw = Ok out ->
  forall q t, nth_error ts q = Some t -> exists t', nth_error (so_forest out) q = Some t' /\ same_but_leaf_values t t' /\
    forall lo hi, (forall j, (j < n_leaves t)%nat -> lo <= leaf_v t 0 j <= hi) ->
      forall i, (i < n_leaves t)%nat -> lo <= node_v t' 0 (leaf_id t i) <= hi.
Proof. intros St ts o rd p M opt opt0 draw out TS IO. exact (p_C75_range Reg ts o rd p M opt opt0 draw TS IO out eq_refl). Qed.
Print Assumptions C75_range.

(** ... for classification every leaf holds a distribution over the classes. *)
Theorem C75_class : forall {St} nc (ts : list (tree R)) (o : @torch_opts R) rd p M
    (opt : St -> list (list R * R) -> @item R -> St * list (list R * R)) opt0 draw out,
  torch_setting (Class nc) ts o rd p M opt -> init_ok (S M) (num_attrs o p) (to_init o) -> smooth_pytorch exp opt opt0 (Forest (Class nc) ts) o rd draw = Ok out ->
  forall q t, nth_error ts q = Some t -> class_counts nc t -> exists t', nth_error (so_forest out) q = Some t' /\ same_but_leaf_values t t' /\
    forall i, (i < n_leaves t)%nat -> (forall c, (c < nc)%nat -> 0 <= node_v t' c (leaf_id t i) <= 1) /\ sumto nc (fun c => node_v t' c (leaf_id t i)) = 1.
Proof. intros St nc ts o rd p M opt opt0 draw out TS IO. exact (p_C75_class (Class nc) ts o rd p M opt opt0 draw TS IO out nc eq_refl). Qed.
Print Assumptions C75_class.

(** hypotheses of the regression theorems: C61_ex_hyp; of the classification theorem: a tree with two classes *)
Definition ex_copts {T} {NT : Num T} : @torch_opts T :=
  {| to_X_trained := exX; to_y_trained := exrow [1;2;1]%Z; to_X_tune := None; to_y_tune := None; to_resample := false; to_sgd_max_num := 3;
     to_all_trees := true; to_parents_all := true; to_style := Standard; to_which_one := true; to_which_two := true;
     to_x_one := false; to_x_two := false; to_init := InitScalar n1 |}.
Example C75_ex_class : match smooth_pytorch (fun x => 1 + x * x)%Q (fun (s : nat) par x => (s, par)) 0%nat (Forest (Class 2) [ex5_class]) ex_copts ex_trows (fun e i => (e + i)%nat) with
  | Ok out => length (so_losses out) = 3%nat /\ map (fun t => map (map Qred) (t_value t)) (so_forest out) = [[[3;1]; [5#6; 1#6]; [1;1]; [1#2; 1#2]; [3#4; 1#4]]] | Err _ => False end%Q.
Proof. vm_compute. auto. Qed.
Example C75_ex_class_hyp : torch_setting (Class 2) [@ex5_class R _] ex_copts ex_trows 2 2 (fun (s : nat) par (x : @item R) => (s, par)) /\
  init_ok 3 (num_attrs ex_copts 2) (to_init (@ex_copts R _)) /\ class_counts 2 (@ex5_class R _) /\
  exists out, smooth_pytorch exp (fun (s : nat) par (x : @item R) => (s, par)) 0%nat (Forest (Class 2) [ex5_class]) ex_copts ex_trows (fun e i => (e + i)%nat) = Ok out.
Proof.
  assert (A : torch_setting (Class 2) [@ex5_class R _] ex_copts ex_trows 2 2 (fun (s : nat) par (x : @item R) => (s, par))).
  { split; [repeat constructor|]. split; [discriminate|]. split; [cbn; lia|]. split; [discriminate|]. split.
    { pose proof ex35_depth as (D1&(t&v&I0&D2)). split.
      - intros t' v' d' [<-|[]] D'. apply (D1 (@ex5_reg R _) v' d'); [right; left; reflexivity|].
        clear - D'. induction D' as [|u c d0 D0 IH CH]; [constructor|]. eapply TreeSpec.depth_step; eauto.
      - exists (@ex5_class R _), 3%nat. split; [left; reflexivity|].
        apply (TreeSpec.depth_step _ 2 3 1); [|left; reflexivity]. apply (TreeSpec.depth_step _ 0 2 0); [constructor|right; reflexivity]. }
    split; [intros t [<-|[]] j Hj; cbn in Hj; do 3 (destruct j as [|j]; [cbn; rewrite ?INR_IPR; unfold IPR, IPR_2; cbn; lra|]); lia|].
    split; [apply Forall_cons; [|constructor]; intros v Hv; cbn in Hv; do 5 (destruct v as [|v]; [cbn; try discriminate; intros; lia|]); lia|].
    split; [split; [discriminate|]; intros x [<-|[<-|[<-|[]]]]; reflexivity|]. split.
    - split; [reflexivity|]. intros q Hq. split; [discriminate|]. split; [cbn; intros i Hi; intuition lia|].
      exists [@exz R _ 1; exz 2]. split; [apply NoDup_cons; [intros [Z|[]]; cbn in Z; rewrite !INR_IPR in Z; unfold IPR, IPR_2 in Z; cbn in Z; lra|apply NoDup_cons; [intros []|constructor]]|]. split; [reflexivity|].
      intros v. cbn [In tr_train ex_trows]. split.
      + intros [<-|[<-|[]]]; [exists 0%nat|exists 1%nat]; split; auto.
      + intros (i&Hi&N). intuition subst; cbn in N; injection N as <-; auto.
    - split; [cbn; lia|auto]. }
  assert (B : init_ok 3 (num_attrs ex_copts 2) (to_init (@ex_copts R _))) by (cbn; lra).
  split; auto. split; auto. split.
  - intros j Hj. cbn in Hj. do 3 (destruct j as [|j]; [split; [intros c Hc; do 2 (destruct c as [|c]; [cbn; rewrite ?INR_IPR; unfold IPR, IPR_2; cbn; lra|]); lia|cbn; rewrite ?INR_IPR; unfold IPR, IPR_2; cbn; lra]|]). lia.
  - apply (p_C74_outcome _ _ _ _ _ _ _ 0%nat (fun e i => (e + i)%nat) A B); [cbn; intuition discriminate|cbn; lia|cbn; lia].
Qed.
