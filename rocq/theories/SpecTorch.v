(** SpecTorch: vocabulary of the property statements about the torch smoother. *)
From Coq Require Import Reals Sorted.
From Verif Require Import Base TreeSpec Spec SpecSmooth SpecTune SpecBox SpecDepth M_Torch M_Pytorch.
Local Open Scope R_scope.

(** linear score of distance l: [par] holds weights and bias per distance, [xs] the attributes of a
    leaf, variable v at distance l in column K*v + l *)
Definition score (K V : nat) (par : list (list R * R)) (xs : list R) (l : nat) : R :=
  sumto V (fun v => nth (K * v + l) xs 0 * nth v (fst (nth l par ([], 0))) 0) + snd (nth l par ([], 0)).

(** softmax of the scores *)
Definition soft (K : nat) (s : nat -> R) (k : nat) : R := exp (s k) / sumto K (fun l => exp (s l)).

(** weighted sum of the numerators over weighted sum of the denominators *)
Definition ratio (K : nat) (G E : list R) (lam : nat -> R) : R :=
  sumto K (fun k => nth k G 0 * lam k) / sumto K (fun k => nth k E 0 * lam k).

(** the weighted squared error of predictions p for targets y *)
Definition wmse (n : nat) (w y p : nat -> R) : R := sumto n (fun i => w i * (y i - p i) ^ 2) / sumto n w.

(** weighted mean and weighted variance *)
Definition wmean (n : nat) (w y : nat -> R) : R := sumto n (fun j => w j * y j) / sumto n w.
Definition wvar (n : nat) (w y : nat -> R) : R := wmse n w y (fun _ => wmean n w y).

(** every target compared with every prediction *)
Definition all_pairs (n : nat) (w y p : nat -> R) : R :=
  sumto n (fun i => sumto n (fun j => w j * (y j - p i) ^ 2)) / sumto n w.

(** the attributes of leaf i of tree t, K = M+1 columns for each of: the leaf's weight, its depth, its impurity, the depth of the
    node l levels up, the impurity of that node (above the root: the impurity of the tree's first leaf) *)
Definition leaf_attrs (t : tree R) (M i : nat) (xs : list R) : Prop :=
  forall l, (l <= M)%nat ->
    nth l xs 0 = leaf_w t i /\
    (exists dp, depth_of t (leaf_id t i) dp /\ nth (S M + l) xs 0 = INR dp) /\
    nth (S M * 2 + l) xs 0 = nth (leaf_id t i) (t_imp t) 0 /\
    forall a, upk t l (leaf_id t i) a ->
      (exists dp, depth_of t a dp /\ nth (S M * 3 + l) xs 0 = INR dp) /\
      forall d, tree_depth t d ->
        ((l <= d)%nat -> nth (S M * 4 + l) xs 0 = nth a (t_imp t) 0) /\
        ((d < l)%nat -> nth (S M * 4 + l) xs 0 = nth (leaf_id t 0) (t_imp t) 0).

(** leaf i of t' holds the weighted means of t's leaf values, with the softmax of the linear scores of the leaf's own attributes as
    weights of the distances (the same for every response column) *)
Definition soft_leaf (kd : kind) (s : dstyle) (pa : bool) (M V : nat) (par : list (list R * R)) (t t' : tree R) (i : nat) : Prop :=
  length (nth (leaf_id t i) (t_value t') []) = n_gamma kd /\
  exists xs kap, leaf_attrs t M i xs /\
    is_kernel t s pa (map (soft (S M) (score (S M) V par xs)) (seq 0 (S M))) i kap /\
    (forall j, (j < n_leaves t)%nat -> 0 < kap j) /\
    forall c, (c < n_gamma kd)%nat -> node_v t' c (leaf_id t i) = kmean t kd kap c.

(** parameters for K distances and V variables *)
Definition par_ok (K V : nat) (par : list (list R * R)) : Prop :=
  length par = K /\ forall l, (l < K)%nat -> length (fst (nth l par ([], 0))) = V.

(** every row of the matrix has C entries *)
Definition rect (C : nat) (M : list (list R)) : Prop := forall r, In r M -> length r = C.

(** one-dimensional arrays of n entries, two-dimensional arrays of n rows and K columns *)
Definition shapes_ok (n K : nat) (one : list (key * list R)) (two : list (key * list (list R))) : Prop :=
  (forall e, In e one -> length (snd e) = n) /\ (forall e, In e two -> length (snd e) = n /\ rect K (snd e)).

(** attribute v of row r at distance l: the one-dimensional arrays first *)
Definition attr (one : list (key * list R)) (two : list (key * list (list R))) (v r l : nat) : R :=
  if Nat.ltb v (length one) then nth r (snd (nth v one (Leaf_n, []))) 0
  else nth l (nth r (snd (nth (v - length one) two (Leaf_n, []))) []) 0.

(** the loss of all rows together: every target compared with every prediction *)
Definition full_loss (K V : nat) (y w : list R) (G E X : list (list R)) (par : list (list R * R)) : R :=
  all_pairs (length y) (fun i => nth i w 0) (fun i => nth i y 0)
    (fun i => ratio K (nth i G []) (nth i E []) (soft K (score K V par (nth i X [])))).

(** the batch of the rows whose number in tv is q *)
Definition is_batch (y w : list R) (G E X : list (list R)) (tv : list nat) (q : nat) (it : @item R) : Prop :=
  exists y' w' G' E' X', picked y (rows_of q tv) y' /\ picked w (rows_of q tv) w' /\ picked G (rows_of q tv) G' /\
    picked E (rows_of q tv) E' /\ picked X (rows_of q tv) X' /\
    it = {| it_y := batch_vec y'; it_Gamma := batch_mat G'; it_eta := batch_mat E'; it_w := batch_vec w'; it_x := batch_mat X' |}.

(** parameters ps and optimiser states ss before the first and after every step, step i on the batch of tree (steps i) *)
Definition tuning_run {St} (opt : St -> list (list R * R) -> @item R -> St * list (list R * R)) (batch : nat -> @item R -> Prop)
    (steps : list nat) (s0 : St) (p0 : list (list R * R)) (ps : list (list (list R * R))) (ss : list St) : Prop :=
  length ps = S (length steps) /\ length ss = S (length steps) /\ nth_error ps 0 = Some p0 /\ nth_error ss 0 = Some s0 /\
  forall i q, nth_error steps i = Some q -> exists s p s' p' it, nth_error ss i = Some s /\ nth_error ps i = Some p /\
    nth_error ss (S i) = Some s' /\ nth_error ps (S i) = Some p' /\ batch q it /\ (s', p') = opt s p it.

(** ** What is prepared *)

(** one column per label in increasing order, 1 where the label is the row's *)
Definition one_hot (y : list R) (Y : list (list R)) : Prop :=
  exists cats, StronglySorted Rlt cats /\ (forall v, In v cats <-> In v y) /\
    Forall2 (fun v row => length row = length cats /\
      forall c a, nth_error cats c = Some a -> (v = a -> nth c row 0 = 1) /\ (v <> a -> nth c row 0 = 0)) y Y.
Definition responses (kd : kind) (y : list R) (Y : list (list R)) : Prop :=
  match kd with Reg => Y = map (fun v => [v]) y | Class _ => one_hot y Y end.

(** the training rows used for tree q *)
Definition prep_sample (o : @prep_opts R) (rd : torch_rows) (q : nat) : list nat :=
  if po_train_only o then tr_train rd q else if po_resample o then tr_boot rd q else tr_oob rd q.
Definition own_tuning (o : @prep_opts R) : Prop :=
  po_train_only o = false /\ po_resample o = false /\ po_X_tune o <> None /\ po_y_tune o <> None.

(** X, Y: the tuning data of tree q *)
Definition prep_set (kd : kind) (o : @prep_opts R) (rd : torch_rows) (q : nat) (X Y : list (list R)) : Prop :=
  (own_tuning o -> po_X_tune o = Some X /\ po_y_tune o = Some Y) /\
  (~ own_tuning o -> exists X0 y0 y, po_X_trained o = Some X0 /\ po_y_trained o = Some y0 /\
     picked X0 (prep_sample o rd q) X /\ picked y0 (prep_sample o rd q) y /\ responses kd y Y).

(** tuning data for every tree *)
Definition good_prep (kd : kind) (o : @prep_opts R) (rd : torch_rows) (ts : list (tree R)) : Prop :=
  (own_tuning o /\ exists X Y, po_X_tune o = Some X /\ po_y_tune o = Some Y /\ X <> [] /\
     length Y = length X /\ forall r, In r Y -> length r = n_gamma kd) \/
  (~ own_tuning o /\
   exists X y, po_X_trained o = Some X /\ po_y_trained o = Some y /\ length y = length X /\
     forall q, (q < length ts)%nat -> prep_sample o rd q <> [] /\
       (forall i, In i (prep_sample o rd q) -> (i < length X)%nat) /\
       match kd with
       | Reg => True
       | Class nc => exists cs, NoDup cs /\ length cs = nc /\
           forall v, In v cs <-> exists i, In i (prep_sample o rd q) /\ nth_error y i = Some v
       end).

(** the prepared arrays: row c * B + offset + i belongs to response column c and leaf i of tree q, B leaves in all *)
Definition prepared (kd : kind) (ts : list (tree R)) (o : @prep_opts R) (rd : torch_rows) (M : nat)
    (y : list R) (G E : list (list R)) (w : list R) (tv : list nat) (xn xd xi : list R) (xdf xif : list (list R)) : Prop :=
  let B := offset ts (length ts) in let n := (n_gamma kd * B)%nat in
  length y = n /\ length G = n /\ length E = n /\ length w = n /\ length tv = n /\ length xn = n /\ length xd = n /\ length xi = n /\
  length xdf = n /\ length xif = n /\ rect (S M) G /\ rect (S M) E /\ rect (S M) xdf /\ rect (S M) xif /\
  forall q t d, nth_error ts q = Some t -> tree_depth t d ->
  exists X Y lf, prep_set kd o rd q X Y /\ routed t X lf /\
  forall c i, (c < n_gamma kd)%nat -> (i < n_leaves t)%nat -> let r := (c * B + (offset ts q + i))%nat in
    (r < n)%nat /\ nth r tv 0%nat = q /\
    nth r w 0 = INR (length (filter (fun o => Nat.eqb (lf o) i) (seq 0 (length X)))) /\
    nth r w 0 * nth r y 0 = sum_sel (length X) (fun o => Nat.eqb (lf o) i) (fun o => resp Y o c) /\ (nth r w 0 = 0 -> nth r y 0 = 0) /\
    (forall k, (k <= M)%nat -> exists sel, selects t (po_style o) (po_parents_all o) i k sel /\
       nth k (nth r E []) 0 = sum_sel (n_leaves t) sel (leaf_w t) /\ nth k (nth r G []) 0 = sum_sel (n_leaves t) sel (leaf_ny t kd c)) /\
    nth r xn 0 = leaf_w t i /\ (exists dp, depth_of t (leaf_id t i) dp /\ nth r xd 0 = INR dp) /\
    nth r xi 0 = nth (leaf_id t i) (t_imp t) 0 /\
    forall k a, (k <= M)%nat -> upk t k (leaf_id t i) a ->
      (exists dp, depth_of t a dp /\ nth k (nth r xdf []) 0 = INR dp) /\
      ((k <= d)%nat -> nth k (nth r xif []) 0 = nth a (t_imp t) 0) /\
      ((d < k)%nat -> nth k (nth r xif []) 0 = nth (leaf_id t 0) (t_imp t) 0).

(** ** Centers *)

(** the boxes of the nodes: the smallest box around the data, cut at every split *)
Definition node_boxes (p : nat) (t : tree R) (X : list (list R)) (bs : list (list (R * R))) : Prop :=
  length bs = size t /\ hull p X (nth 0 bs []) /\
  forall v l r, lc t v = Z.of_nat l -> rc t v = Z.of_nat r ->
    let f := nth v (t_feature t) 0%nat in let x := nth v (t_thresh t) 0 in
    cut_hi p f x (nth v bs []) (nth l bs []) /\ cut_lo p f x (nth v bs []) (nth r bs []).
Definition mid (b : list (R * R)) (c : nat) : R := (lower b c + upper b c) / 2.

(** coordinate c of the centers of all leaves, and of all leaves' ancestors 0 .. M levels up (the root beyond it) *)
Definition leaf_centers (p : nat) (ts : list (tree R)) (X : list (list R)) (c : nat) (v : list R) : Prop :=
  length v = offset ts (length ts) /\
  forall q t bs i, nth_error ts q = Some t -> node_boxes p t X bs -> (i < n_leaves t)%nat ->
    nth (offset ts q + i) v 0 = mid (nth (leaf_id t i) bs []) c.
Definition path_centers (p : nat) (ts : list (tree R)) (X : list (list R)) (M c : nat) (m : list (list R)) : Prop :=
  length m = offset ts (length ts) /\ rect (S M) m /\
  forall q t bs i k a, nth_error ts q = Some t -> node_boxes p t X bs -> (i < n_leaves t)%nat -> (k <= M)%nat -> upk t k (leaf_id t i) a ->
    nth k (nth (offset ts q + i) m []) 0 = mid (nth a bs []) c.

(** [d'] is [d] with p entries added at its end, entry c under the key of coordinate c *)
Definition with_centers {A} (p : nat) (P : nat -> A -> Prop) (d d' : list (key * A)) : Prop :=
  exists vs, length vs = p /\ d' = d ++ combine (map Center (seq 0 p)) vs /\ forall c v, nth_error vs c = Some v -> P c v.
Definition no_centers {A} (d : list (key * A)) : Prop := forall c v, ~ In (Center c, v) d.

(** ** The whole procedure *)

(** number of attributes per distance *)
Definition num_attrs (o : @torch_opts R) (p : nat) : nat :=
  (if to_which_one o then 3 else 0) + (if to_x_one o then p else 0) + ((if to_which_two o then 2 else 0) + (if to_x_two o then p else 0)).

(** the attributes in use *)
Definition chosen (p M : nat) (ts : list (tree R)) (o : @torch_opts R) (xn xd xi : list R) (xdf xif : list (list R))
    (one : list (key * list R)) (two : list (key * list (list R))) : Prop :=
  let one0 := if to_which_one o then [(Leaf_n, xn); (Leaf_d, xd); (Leaf_i, xi)] else [] in
  let two0 := if to_which_two o then [(Full_d, xdf); (Full_i, xif)] else [] in
  (if to_x_one o then with_centers p (leaf_centers p ts (to_X_trained o)) one0 one else one = one0) /\
  (if to_x_two o then with_centers p (path_centers p ts (to_X_trained o) M) two0 two else two = two0).

(** the table of attributes: one row per row of the prepared arrays *)
Definition attr_table (n K : nat) (one : list (key * list R)) (two : list (key * list (list R))) (X : list (list R)) : Prop :=
  length X = n /\ rect (K * (length one + length two)) X /\
  forall r v l, (r < n)%nat -> (v < length one + length two)%nat -> (l < K)%nat -> nth (K * v + l) (nth r X []) 0 = attr one two v r l.

(** starting parameters *)
Definition init_ok (K V : nat) (ia : @init_arg R) : Prop :=
  match ia with InitScalar x => 0 < x | InitRandom par => par_ok K V par end.
Definition start_par (K V : nat) (ia : @init_arg R) (par : list (list R * R)) : Prop :=
  match ia with
  | InitRandom p => par = p
  | InitScalar x => par_ok K V par /\ forall l, (l < K)%nat ->
      fst (nth l par ([], 0)) = repeat 0 V /\ snd (nth l par ([], 0)) = if Nat.eqb l 0 then x else 0
  end.

(** number of passes over the trees *)
Definition passes (o : @torch_opts R) (ts : list (tree R)) : nat :=
  Nat.div (to_sgd_max_num o) (if to_all_trees o then 1 else length ts).

(** the rows of the training data drawn for tree q give data of all classes *)
Definition good_train (kd : kind) (o : @torch_opts R) (rd : torch_rows) (ts : list (tree R)) : Prop :=
  length (to_y_trained o) = length (to_X_trained o) /\
  forall q, (q < length ts)%nat -> tr_train rd q <> [] /\ (forall i, In i (tr_train rd q) -> (i < length (to_X_trained o))%nat) /\
    match kd with
    | Reg => True
    | Class nc => exists cs, NoDup cs /\ length cs = nc /\
        forall v, In v cs <-> exists i, In i (tr_train rd q) /\ nth_error (to_y_trained o) i = Some v
    end.
Definition prep_args (o : @torch_opts R) : @prep_opts R :=
  {| po_X_trained := Some (to_X_trained o); po_y_trained := Some (to_y_trained o); po_X_tune := None; po_y_tune := None;
     po_resample := false; po_train_only := true; po_style := to_style o; po_parents_all := to_parents_all o |}.

(** what is assumed of the forest, the data and the optimiser: it returns parameters of the same shape *)
Definition torch_setting {St} (kd : kind) (ts : list (tree R)) (o : @torch_opts R) (rd : torch_rows) (p M : nat)
    (opt : St -> list (list R * R) -> @item R -> St * list (list R * R)) : Prop :=
  Forall (@wf_tree R) ts /\ ts <> [] /\ (0 < n_gamma kd)%nat /\ to_style o <> MinStyle /\ is_max_depth ts M /\
  (forall t, In t ts -> pos_leaves t) /\ Forall (features_ok p) ts /\ data_ok p (to_X_trained o) /\ good_train kd o rd ts /\
  (0 < num_attrs o p)%nat /\
  forall s par x, par_ok (S M) (num_attrs o p) par -> par_ok (S M) (num_attrs o p) (snd (opt s par x)).

(** the same without the assumptions on the attributes and the optimiser *)
Definition torch_data (kd : kind) (ts : list (tree R)) (o : @torch_opts R) (rd : torch_rows) (p M : nat) : Prop :=
  Forall (@wf_tree R) ts /\ ts <> [] /\ (0 < n_gamma kd)%nat /\ to_style o <> MinStyle /\ is_max_depth ts M /\
  (forall t, In t ts -> pos_leaves t) /\ Forall (features_ok p) ts /\ data_ok p (to_X_trained o) /\ good_train kd o rd ts.

(** v is the prediction of a row: Gamma·lam / eta·lam, and 0 if both are 0 *)
Definition row_value (g e lam : list R) (v : R) : Prop :=
  let a := sumto (length lam) (fun k => nth k g 0 * nth k lam 0) in let b := sumto (length lam) (fun k => nth k e 0 * nth k lam 0) in
  (b <> 0 /\ v = a / b) \/ (b = 0 /\ a = 0 /\ v = 0).
