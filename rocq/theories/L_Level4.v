(** L_Level4: values, symmetry and definiteness of the kernel; the distances it induces. *)
From Verif Require Import Base TreeSpec Spec M_Tree M_Gamma M_Levels M_Smooth M_Level SpecTune SpecSmooth SpecClean SpecLevel.
From Verif Require Import L_Base L_Tree L_TreeModel L_TreeModel2 L_Gamma L_Gamma2 L_Route L_Tune L_Level L_Level2 L_Level3.
From Coq Require Import Reals Lra Lia.
Local Open Scope R_scope.

Lemma map2_map_same : forall {A B C D} (f : B -> C -> D) (g : A -> B) (h : A -> C) l, map2 f (map g l) (map h l) = map (fun a => f (g a) (h a)) l.
Proof. intros A B C D f g h. induction l as [|a l IH]; cbn [map map2]; auto. rewrite IH. auto. Qed.
Lemma Mx_map2 : forall {A B C} (op : C -> C -> C) (f g : A -> B -> C) X Y, map2 (map2 op) (Mx f X Y) (Mx g X Y) = Mx (fun x y => op (f x y) (g x y)) X Y.
Proof. intros. unfold Mx. rewrite map2_map_same. apply map_ext. intros x. apply map2_map_same. Qed.
Lemma Mx_map : forall {A B C D} (op : C -> D) (f : A -> B -> C) X Y, map (map op) (Mx f X Y) = Mx (fun x y => op (f x y)) X Y.
Proof. intros. unfold Mx. rewrite map_map. apply map_ext. intros x. apply map_map. Qed.
Lemma Mx_ext : forall {A B C} (f g : A -> B -> C) X Y, (forall x y, f x y = g x y) -> Mx f X Y = Mx g X Y.
Proof. intros. unfold Mx. apply map_ext. intros x. apply map_ext. auto. Qed.
Lemma Mx_fold : forall {A B} (fs : list (A -> B -> nat)) f0 X Y, fold_left (map2 (map2 Nat.add)) (map (fun f => Mx f X Y) fs) (Mx f0 X Y)
  = Mx (fun x y => (f0 x y + sumn (map (fun f => f x y) fs))%nat) X Y.
Proof.
  intros A B. induction fs as [|f fs IH]; intros f0 X Y; cbn [map fold_left].
  - apply Mx_ext. intros. cbn. lia.
  - rewrite Mx_map2, IH. apply Mx_ext. intros x y. unfold sumn. cbn [fold_right]. lia.
Qed.
Lemma tree_mean_val : forall {A B} (fs : list (A -> B -> nat)) X Y, fs <> [] ->
  tree_mean (T := R) (map (fun f => Mx f X Y) fs) = Mx (fun x y => INR (sumn (map (fun f => f x y) fs)) / INR (length fs)) X Y.
Proof.
  intros A B [|f fs] X Y NE; [congruence|]. unfold tree_mean. cbn [map]. rewrite Mx_fold, Mx_map. cbn [length]. rewrite map_length. apply Mx_ext. intros. reflexivity.
Qed.
Lemma kernel_val : forall {A B} (F : nat -> list (A -> B -> nat)) N X Y (lv : list R) m,
  (forall k, length (F k) = N) -> (0 < N)%nat -> length lv = m ->
  make_kernel (map (fun k => (k, map (fun f => Mx f X Y) (F k))) (seq 0 m)) (Some lv) =
  Ok (match m with O => None | _ => Some (Mx (fun x y => sumto m (fun k => nth k lv 0 * (INR (sumn (map (fun f => f x y) (F k))) / INR N))) X Y) end).
Proof.
  intros A B F N X Y lv m LF PN L. unfold make_kernel. rewrite map_length, seq_length, L, Nat.eqb_refl. cbn [negb].
  assert (G : forall n, (n <= m)%nat -> foldM (fun K p =>
         match nth_error lv (fst p) with
         | None => Err IndexError
         | Some c => let M := mscale c (tree_mean (snd p)) in Ok (Some (match K with None => M | Some K0 => if Nat.eqb (fst p) 0 then M else madd K0 M end))
         end) (map (fun k => (k, map (fun f => Mx f X Y) (F k))) (seq 0 n)) None =
     Ok (match n with O => None | _ => Some (Mx (fun x y => sumto n (fun k => nth k lv 0 * (INR (sumn (map (fun f => f x y) (F k))) / INR N))) X Y) end)).
  { induction n as [|n IH]; intros Hn; [reflexivity|]. rewrite seq_S, map_app, foldM_app, IH by lia. cbn [bind map foldM fst snd Nat.add].
    assert (E : nth_error lv n = Some (nth n lv 0)) by (apply nth_error_nth'; lia). rewrite E. cbv zeta.
    rewrite tree_mean_val, LF by (intros Z; specialize (LF n); rewrite Z in LF; cbn in LF; lia).
    unfold mscale. rewrite Mx_map. destruct n as [|n].
    - cbn [bind]. f_equal. f_equal. apply Mx_ext. intros x y. cbn [sumto]. rn. lra.
    - replace (S n =? 0)%nat with false by reflexivity. unfold madd. rewrite Mx_map2. cbn [bind]. f_equal. }
  apply G. auto.
Qed.
Lemma nth_Mx : forall {A B C} (f : A -> B -> C) X Y i j dx dy d, (i < length X)%nat -> (j < length Y)%nat -> nth j (nth i (Mx f X Y) []) d = f (nth i X dx) (nth j Y dy).
Proof. intros A B C f X Y i j dx dy d Hi Hj. unfold Mx. rewrite nth_map_in with (d := dx) by auto. rewrite nth_map_in with (d := dy) by auto. auto. Qed.
Lemma len_Mx : forall {A B C} (f : A -> B -> C) X Y, length (Mx f X Y) = length X /\ forall i, (i < length X)%nat -> length (nth i (Mx f X Y) []) = length Y.
Proof.
  intros A B C f X Y. unfold Mx. split; [apply map_length|]. intros i Hi. destruct X as [|x0 X']; [cbn in Hi; lia|]. rewrite nth_map_in with (d := x0) by auto. apply map_length.
Qed.
Lemma sumn_sumto : forall {A} (g : A -> nat) l d, INR (sumn (map g l)) = sumto (length l) (fun q => INR (g (nth q l d))).
Proof.
  intros A g l d. rewrite <- (rev_involutive l). induction (rev l) as [|a r IH]; auto. cbn [rev].
  rewrite map_app, app_length. cbn [length map]. rewrite Nat.add_1_r. cbn [sumto].
  assert (SA : forall a b, sumn (a ++ b) = (sumn a + sumn b)%nat) by (unfold sumn; induction a0 as [|a0 q IHa]; intros b; cbn [app fold_right]; [lia|rewrite IHa; lia]).
  rewrite SA, plus_INR, IH. f_equal.
  - apply sumto_ext. intros i Hi. rewrite app_nth1 by auto. auto.
  - rewrite app_nth2, Nat.sub_diag by lia. cbn. rewrite Nat.add_0_r. auto.
Qed.
Definition tdef : tree R := mkTree [] [] [] [] [] [] [].

Lemma U_kernel : forall ts Xn X (lv : list R) (s m : nat), Forall wf_tree ts -> ts <> [] -> length lv = m ->
  make_kernel (map (fun l => (l, map (fun t => Mx (shn t (l + s)) Xn X) ts)) (seq 0 m)) (Some lv) =
  Ok (match m with O => None | _ => Some (Mx (fun x y => sumto m (fun l => nth l lv 0 * (sumto (length ts) (fun q => INR (shn (nth q ts tdef) (l + s) x y)) / INR (length ts)))) Xn X) end).
Proof.
  intros ts Xn X lv s m WF NE L. pose proof (kernel_val (fun k => map (fun t => shn t (k + s)) ts) (length ts) Xn X lv m) as K.
  replace (map (fun l => (l, map (fun t => Mx (shn t (l + s)) Xn X) ts)) (seq 0 m)) with (map (fun k => (k, map (fun f => Mx f Xn X) (map (fun t => shn t (k + s)) ts))) (seq 0 m)) by (apply map_ext; intros; rewrite map_map; auto).
  rewrite K; auto; [|intros; apply map_length|destruct ts; [congruence|cbn; lia]].
  f_equal. destruct m; auto. f_equal. apply Mx_ext. intros x y. apply sumto_ext. intros l Hl. rewrite map_map, (sumn_sumto (fun t => shn t (l + s) x y) ts tdef). auto.
Qed.
Lemma remove_0_val : forall {A} (g : nat -> A) m, (0 < m)%nat -> remove_0 (map (fun l => (l, g l)) (seq 0 m)) = Ok (map (fun l => (l, g (l + 1)%nat)) (seq 0 (m - 1))).
Proof.
  intros A g m Hm. unfold remove_0. destruct m as [|m]; [lia|]. rewrite <- cons_seq. cbn [map existsb fst Nat.eqb orb]. f_equal. cbn [filter fst Nat.eqb negb].
  rewrite Nat.sub_succ, Nat.sub_0_r. rewrite <- seq_shift, map_map.
  induction (seq 0 m) as [|a r IH]; auto. cbn [map filter fst Nat.eqb negb snd]. rewrite IH. f_equal. rewrite Nat.sub_succ, Nat.sub_0_r, Nat.add_1_r. auto.
Qed.

Section Kernel.
Variables (ts : list (tree R)) (Xn X : mat R) (dd : option (list (list nat))).
Hypothesis WF : Forall wf_tree ts.
Hypothesis NE : ts <> [].
Hypothesis NXn : Xn <> [].
Hypothesis NX : X <> [].
Hypothesis DD : depths_of dd ts.
Let shr (l q i j : nat) : R := INR (shn (nth q ts tdef) l (nth i Xn []) (nth j X [])).

Lemma shr_ok : forall l q i j t, nth_error ts q = Some t -> indicates (share t (nth i Xn []) (nth j X []) l) (shr l q i j).
Proof. unfold shr. intros l q i j t E. rewrite (nth_error_nth _ _ tdef E). apply shn_indicates. eapply Forall_forall; eauto. eapply nth_error_In; eauto. Qed.

Lemma p_C55_kernel : forall m (lamb : list R), (0 < m)%nat ->
  exists Vn V U U1 sh,
    make_Vt_mat ts Xn dd = Ok Vn /\ make_Vt_mat ts X dd = Ok V /\ make_Ut_prime Vn V (Some m) = Ok U /\ remove_0 U = Ok U1 /\
    (forall l q i j t, nth_error ts q = Some t -> (i < length Xn)%nat -> (j < length X)%nat -> indicates (share t (nth i Xn []) (nth j X []) l) (sh l q i j)) /\
    (length lamb = m -> exists K, make_kernel U (Some lamb) = Ok (Some K) /\ length K = length Xn /\
       forall i, (i < length Xn)%nat -> length (nth i K []) = length X /\ forall j, (j < length X)%nat ->
         nth j (nth i K []) 0 = sumto m (fun l => nth l lamb 0 * (sumto (length ts) (fun q => sh l q i j) / INR (length ts)))) /\
    (length lamb = (m - 1)%nat -> (1 < m)%nat -> exists K, make_kernel U1 (Some lamb) = Ok (Some K) /\ length K = length Xn /\
       forall i, (i < length Xn)%nat -> length (nth i K []) = length X /\ forall j, (j < length X)%nat ->
         nth j (nth i K []) 0 = sumto (m - 1) (fun l => nth l lamb 0 * (sumto (length ts) (fun q => sh (S l) q i j) / INR (length ts)))).
Proof.
  intros m lamb Hm. do 4 eexists. exists shr.
  split; [apply make_Vt_val; auto|]. split; [apply make_Vt_val; auto|]. split; [apply Ut_val; auto|].
  split; [apply (remove_0_val (fun l => map (fun t => Mx (shn t l) Xn X) ts)); auto|].
  split; [intros; apply shr_ok; auto|]. split.
  - intros L. assert (U0 := U_kernel ts Xn X lamb 0 m WF NE L). destruct m as [|m]; [lia|].
    replace (map (fun l => (l, map (fun t => Mx (shn t (l + 0)) Xn X) ts)) (seq 0 (S m))) with (map (fun l => (l, map (fun t => Mx (shn t l) Xn X) ts)) (seq 0 (S m))) in U0
      by (apply map_ext; intros; rewrite Nat.add_0_r; auto).
    eexists. split; [exact U0|]. destruct (len_Mx (fun x y => sumto (S m) (fun l => nth l lamb 0 * (sumto (length ts) (fun q => INR (shn (nth q ts tdef) (l + 0) x y)) / INR (length ts)))) Xn X) as [L1 L2].
    split; [exact L1|]. intros i Hi. split; [apply L2; auto|]. intros j Hj. rewrite nth_Mx with (dx := []) (dy := []) by auto.
    apply sumto_ext. intros l Hl. rewrite Nat.add_0_r. reflexivity.
  - intros L M1. assert (U0 := U_kernel ts Xn X lamb 1 (m - 1) WF NE L). destruct (m - 1)%nat as [|m'] eqn:EM; [lia|].
    eexists. split; [exact U0|]. destruct (len_Mx (fun x y => sumto (S m') (fun l => nth l lamb 0 * (sumto (length ts) (fun q => INR (shn (nth q ts tdef) (l + 1) x y)) / INR (length ts)))) Xn X) as [L1 L2].
    split; [exact L1|]. intros i Hi. split; [apply L2; auto|]. intros j Hj. rewrite nth_Mx with (dx := []) (dy := []) by auto.
    apply sumto_ext. intros l Hl. rewrite Nat.add_1_r. reflexivity.
Qed.
End Kernel.

(** *** symmetry and definiteness *)
Lemma shn_sym : forall t l x y, shn t l x y = shn t l y x.
Proof.
  intros t l x y. unfold shn. replace (existsb (fun a => ((nth a (depth_per_node t) 0 =? l)%nat && onp t x a && onp t y a)%bool) (seq 0 (size t)))
    with (existsb (fun a => ((nth a (depth_per_node t) 0 =? l)%nat && onp t y a && onp t x a)%bool) (seq 0 (size t))); auto.
  induction (seq 0 (size t)) as [|a r IH]; auto. cbn [existsb]. rewrite IH. f_equal. rewrite <- !Bool.andb_assoc. f_equal. apply Bool.andb_comm.
Qed.
Lemma shn_sum : forall t l x y, wf_tree t -> INR (shn t l x y) = sumto (size t) (fun a => (if (l =? nth a (depth_per_node t) 0)%nat then 1 else 0) * (if onp t x a then 1 else 0) * (if onp t y a then 1 else 0)).
Proof.
  intros t l x y WF. rewrite <- dot_shn by auto. pose proof (depth_per_node_length t WF) as LD.
  rewrite (list_as_seq (depth_per_node t) 0%nat) at 1 2. rewrite LD, !map_map. unfold path_rown. rewrite (dotn_masked (fun a => nth a (depth_per_node t) 0%nat)).
  rewrite (sumn_sumto _ (seq 0 (size t)) 0%nat), seq_length. apply sumto_ext. intros a Ha. rewrite seq_nth by auto. cbn [Nat.add]. unfold onp.
  destruct (l =? nth a (depth_per_node t) 0)%nat; destruct (existsb (Nat.eqb a) (path_nodes (size t) t x 0)); destruct (existsb (Nat.eqb a) (path_nodes (size t) t y 0)); cbn; lra.
Qed.
Definition psdf (n : nat) (f : nat -> nat -> R) : Prop := forall x : nat -> R, 0 <= sumto n (fun i => sumto n (fun j => x i * f i j * x j)).
Lemma psdf_ext : forall n f g, (forall i j, (i < n)%nat -> (j < n)%nat -> f i j = g i j) -> psdf n f -> psdf n g.
Proof. intros n f g E H x. specialize (H x). erewrite sumto_ext; [exact H|]. intros i Hi. apply sumto_ext. intros j Hj. rewrite E by auto. reflexivity. Qed.
Lemma psdf_zero : forall n, psdf n (fun _ _ => 0).
Proof. intros n x. apply sumto_nonneg. intros. apply sumto_nonneg. intros. lra. Qed.
Lemma psdf_plus : forall n f g, psdf n f -> psdf n g -> psdf n (fun i j => f i j + g i j).
Proof.
  intros n f g F G x. specialize (F x). specialize (G x).
  replace (sumto n (fun i => sumto n (fun j => x i * (f i j + g i j) * x j))) with (sumto n (fun i => sumto n (fun j => x i * f i j * x j)) + sumto n (fun i => sumto n (fun j => x i * g i j * x j))); [lra|].
  rewrite <- sumto_plus. apply sumto_ext. intros i Hi. rewrite <- sumto_plus. apply sumto_ext. intros. lra.
Qed.
Lemma psdf_scal : forall n c f, 0 <= c -> psdf n f -> psdf n (fun i j => c * f i j).
Proof.
  intros n c f C F x. specialize (F x).
  replace (sumto n (fun i => sumto n (fun j => x i * (c * f i j) * x j))) with (c * sumto n (fun i => sumto n (fun j => x i * f i j * x j))); [apply Rmult_le_pos; auto|].
  rewrite <- sumto_scal. apply sumto_ext. intros i Hi. rewrite <- sumto_scal. apply sumto_ext. intros. lra.
Qed.
Lemma psdf_sum : forall n m (f : nat -> nat -> nat -> R), (forall k, (k < m)%nat -> psdf n (f k)) -> psdf n (fun i j => sumto m (fun k => f k i j)).
Proof.
  intros n m f. induction m as [|m IH]; intros H; cbn [sumto]; [apply psdf_zero|]. apply psdf_plus; [apply IH; auto|apply H; auto].
Qed.
Lemma psdf_rank1 : forall n (p : nat -> R), psdf n (fun i j => p i * p j).
Proof.
  intros n p x. replace (sumto n (fun i => sumto n (fun j => x i * (p i * p j) * x j))) with ((sumto n (fun i => x i * p i)) * (sumto n (fun i => x i * p i))); [apply Rle_0_sqr|].
  rewrite <- sumto_scal_r. apply sumto_ext. intros i Hi. rewrite <- sumto_scal. apply sumto_ext. intros. lra.
Qed.
Lemma shn_psd : forall t l (X : mat R) n, wf_tree t -> psdf n (fun i j => INR (shn t l (nth i X []) (nth j X []))).
Proof.
  intros t l X n WF. apply (psdf_ext n (fun i j => sumto (size t) (fun a => (if (l =? nth a (depth_per_node t) 0)%nat then 1 else 0) * ((if onp t (nth i X []) a then 1 else 0) * (if onp t (nth j X []) a then 1 else 0))))).
  - intros i j Hi Hj. rewrite shn_sum by auto. apply sumto_ext. intros. lra.
  - apply (psdf_sum n (size t) (fun a i j => (if (l =? nth a (depth_per_node t) 0)%nat then 1 else 0) * ((if onp t (nth i X []) a then 1 else 0) * (if onp t (nth j X []) a then 1 else 0)))).
    intros a Ha. apply psdf_scal; [destruct (l =? nth a (depth_per_node t) 0)%nat; lra|]. apply (psdf_rank1 n (fun i => if onp t (nth i X []) a then 1 else 0)).
Qed.
Lemma nth_wf : forall (ts : list (tree R)) q, Forall wf_tree ts -> (q < length ts)%nat -> wf_tree (nth q ts tdef).
Proof. intros ts q F H. eapply Forall_forall; eauto. apply nth_In; auto. Qed.

Lemma K_psd : forall ts (X : mat R) (lv : list R) s m, Forall wf_tree ts -> ts <> [] -> length lv = m -> (forall c, In c lv -> 0 <= c) ->
  let K := Mx (fun x y => sumto m (fun l => nth l lv 0 * (sumto (length ts) (fun q => INR (shn (nth q ts tdef) (l + s) x y)) / INR (length ts)))) X X in
  square (length X) K /\ symmetric (length X) K /\ pos_semidef (length X) K.
Proof.
  intros ts X lv s m WF NE L PO K. unfold K.
  split; [apply len_Mx|]. split.
  - intros i j Hi Hj. rewrite !nth_Mx with (dx := []) (dy := []) by auto. apply sumto_ext. intros l Hl. f_equal. f_equal. apply sumto_ext. intros q Hq. rewrite shn_sym. auto.
  - intros x. unfold quad.
    apply (psdf_ext (length X) (fun i j => sumto m (fun l => nth l lv 0 * (/ INR (length ts) * sumto (length ts) (fun q => INR (shn (nth q ts tdef) (l + s) (nth i X []) (nth j X []))))))).
    + intros i j Hi Hj. rewrite nth_Mx with (dx := []) (dy := []) by auto. apply sumto_ext. intros l Hl. unfold Rdiv. f_equal. apply Rmult_comm.
    + apply (psdf_sum _ m (fun l i j => nth l lv 0 * (/ INR (length ts) * sumto (length ts) (fun q => INR (shn (nth q ts tdef) (l + s) (nth i X []) (nth j X [])))))).
      intros l Hl. apply psdf_scal; [apply PO, nth_In; lia|]. apply psdf_scal; [left; apply Rinv_0_lt_compat, lt_0_INR; destruct ts; [congruence|cbn; lia]|].
      apply (psdf_sum _ (length ts) (fun q i j => INR (shn (nth q ts tdef) (l + s) (nth i X []) (nth j X [])))). intros q Hq. apply shn_psd. apply nth_wf; auto.
Qed.
Lemma p_C55_psd : forall ts (X : mat R) dd m (lamb : list R), Forall wf_tree ts -> ts <> [] -> X <> [] -> depths_of dd ts -> (0 < m)%nat -> (forall c, In c lamb -> 0 <= c) ->
  exists V U U1, make_Vt_mat ts X dd = Ok V /\ make_Ut_prime V V (Some m) = Ok U /\ remove_0 U = Ok U1 /\
    forall K, make_kernel U (Some lamb) = Ok (Some K) \/ make_kernel U1 (Some lamb) = Ok (Some K) ->
      square (length X) K /\ symmetric (length X) K /\ pos_semidef (length X) K.
Proof.
  intros ts X dd m lamb WF NE NX DD Hm PO. do 3 eexists. split; [apply make_Vt_val; auto|]. split; [apply Ut_val; auto|].
  split; [apply (remove_0_val (fun l => map (fun t => Mx (shn t l) X X) ts)); auto|].
  intros K [HK|HK].
  - assert (L : length lamb = m). { unfold make_kernel in HK. rewrite map_length, seq_length in HK. destruct (Nat.eqb_spec m (length lamb)); auto. discriminate. }
    assert (U0 := U_kernel ts X X lamb 0 m WF NE L).
    replace (map (fun l => (l, map (fun t => Mx (shn t (l + 0)) X X) ts)) (seq 0 m)) with (map (fun l => (l, map (fun t => Mx (shn t l) X X) ts)) (seq 0 m)) in U0
      by (apply map_ext; intros; rewrite Nat.add_0_r; auto).
    rewrite U0 in HK. destruct m as [|m]; [lia|]. assert (K = Mx (fun x y => sumto (S m) (fun l => nth l lamb 0 * (sumto (length ts) (fun q => INR (shn (nth q ts tdef) (l + 0) x y)) / INR (length ts)))) X X) by congruence. subst K.
    apply K_psd; auto.
  - assert (L : length lamb = (m - 1)%nat). { unfold make_kernel in HK. rewrite map_length, seq_length in HK. destruct (Nat.eqb_spec (m - 1) (length lamb)); auto. discriminate. }
    assert (U0 := U_kernel ts X X lamb 1 (m - 1) WF NE L). rewrite U0 in HK. destruct (m - 1)%nat as [|m']; [discriminate|].
    assert (K = Mx (fun x y => sumto (S m') (fun l => nth l lamb 0 * (sumto (length ts) (fun q => INR (shn (nth q ts tdef) (l + 1) x y)) / INR (length ts)))) X X) by congruence. subst K.
    apply K_psd; auto.
Qed.

(** *** distances *)
Lemma share_lca : forall (t : tree R) x y i j a d l, wf_tree t -> (i < n_leaves t)%nat -> (j < n_leaves t)%nat ->
  reaches t x (leaf_id t i) -> reaches t y (leaf_id t j) -> is_lca t a (leaf_id t i) (leaf_id t j) -> depth_of t a d -> (share t x y l <-> (l <= d)%nat).
Proof.
  intros t x y i j a d l WF Hi Hj Rx Ry (A1&A2&A3) D. split.
  - intros (b&Db&B1&B2). apply (reach_iff t WF x i b Hi Rx) in B1. apply (reach_iff t WF y j b Hj Ry) in B2. pose proof (A3 _ B1 B2) as B3. eapply depth_anc; eauto.
  - intros Ld. destruct (anc_at_depth t WF _ _ D l Ld) as (b&B1&B2). exists b. split; auto.
    split; [apply (reach_iff t WF x i b Hi Rx)|apply (reach_iff t WF y j b Hj Ry)]; eapply anc_trans; eauto.
Qed.
Lemma count_below : forall (f : nat -> nat) d s m, (forall l, f l = (if (l <=? d)%nat then 1 else 0)%nat) -> sumto m (fun l => INR (f (l + s)%nat)) = INR (Nat.min (S d) (m + s) - Nat.min (S d) s).
Proof.
  intros f d s m H. induction m as [|m IH]; [cbn [sumto Nat.add]; replace (_ - _)%nat with 0%nat by lia; auto|]. cbn [sumto]. rewrite IH, H. rewrite <- plus_INR. f_equal.
  destruct (Nat.leb_spec (m + s) d); lia.
Qed.
Lemma shn01 : forall t l x y P, wf_tree t -> (share t x y l <-> P) -> shn t l x y = 1%nat \/ (shn t l x y = 0%nat /\ ~ P).
Proof. intros t l x y P WF I. destruct (Nat.eq_dec (shn t l x y) 1) as [E|E]; auto. right. split; [unfold shn in *; destruct (existsb _ _); auto; congruence|]. intros HP. apply E. apply shn_share; auto. apply I. auto. Qed.
Lemma shn_leb : forall (t : tree R) x y i j a d l, wf_tree t -> (i < n_leaves t)%nat -> (j < n_leaves t)%nat ->
  reaches t x (leaf_id t i) -> reaches t y (leaf_id t j) -> is_lca t a (leaf_id t i) (leaf_id t j) -> depth_of t a d -> shn t l x y = (if (l <=? d)%nat then 1 else 0)%nat.
Proof.
  intros t x y i j a d l WF Hi Hj Rx Ry LA D. pose proof (share_lca t x y i j a d l WF Hi Hj Rx Ry LA D) as Q. destruct (Nat.leb_spec l d) as [B|B].
  - apply shn_share; auto. apply Q; auto.
  - destruct (shn01 t l x y _ WF Q) as [E|[E _]]; auto. apply shn_share in E; auto. apply Q in E. lia.
Qed.
Definition Kone (ts : list (tree R)) (X : mat R) (s m : nat) : mat R :=
  Mx (fun x y => sumto m (fun l => nth l (repeat 1 m) 0 * (sumto (length ts) (fun q => INR (shn (nth q ts tdef) (l + s) x y)) / INR (length ts)))) X X.
Lemma Kone_entry : forall ts X s m lf i j (dc : nat -> nat), Forall wf_tree ts -> leaves_of ts X lf -> (i < length X)%nat -> (j < length X)%nat ->
  (forall q t, nth_error ts q = Some t -> exists a, is_lca t a (leaf_id t (lf q i)) (leaf_id t (lf q j)) /\ depth_of t a (dc q)) ->
  nth j (nth i (Kone ts X s m) []) 0 = sumto (length ts) (fun q => INR (Nat.min (S (dc q)) (m + s) - Nat.min (S (dc q)) s)) / INR (length ts).
Proof.
  intros ts X s m lf i j dc WF LV Hi Hj HC. unfold Kone. rewrite nth_Mx with (dx := []) (dy := []) by auto.
  rewrite (sumto_ext m _ (fun l => sumto (length ts) (fun q => INR (shn (nth q ts tdef) (l + s) (nth i X []) (nth j X []))) * / INR (length ts)))
    by (intros l Hl; rewrite nth_repeat_lt by auto; unfold Rdiv; lra).
  rewrite sumto_scal_r. unfold Rdiv. f_equal. rewrite sumto_swap. apply sumto_ext. intros q Hq.
  assert (E : nth_error ts q = Some (nth q ts tdef)) by (apply nth_error_nth'; auto). destruct (HC _ _ E) as (a&LA&Da).
  pose proof (nth_wf ts q WF Hq) as W. destruct (LV _ _ i E Hi) as [I1 I2]. destruct (LV _ _ j E Hj) as [J1 J2].
  apply (count_below (fun l => shn (nth q ts tdef) l (nth i X []) (nth j X []))). intros l. apply (shn_leb _ _ _ (lf q i) (lf q j) a); auto.
Qed.
Lemma kernel_none : forall U m, length U = m -> make_kernel (T := R) U None = make_kernel U (Some (repeat 1 m)).
Proof. intros U m <-. reflexivity. Qed.
Lemma lca_leaf_self : forall (t : tree R) v, wf_tree t -> (v < size t)%nat -> is_lca t v v v.
Proof. intros t v WF H. split; [constructor; auto|]. split; [constructor; auto|auto]. Qed.

Section Dist.
Variables (ts : list (tree R)) (X : mat R) (dd : option (list (list nat))) (lf dl : nat -> nat -> nat).
Hypothesis WF : Forall wf_tree ts.
Hypothesis NE : ts <> [].
Hypothesis NX : X <> [].
Hypothesis DD : depths_of dd ts.
Hypothesis LV : leaves_of ts X lf.
Hypothesis DL : forall q t i, nth_error ts q = Some t -> (i < length X)%nat -> depth_of t (leaf_id t (lf q i)) (dl q i).
Variable m : nat.
Hypothesis Hm : (0 < m)%nat.

(** mean over the trees of the number of levels, among the first m, from the leaf of i up to the common ancestor *)
Definition cut_dist (i j : nat) (D : mat R) : Prop :=
  forall dc : nat -> nat,
    (forall q t, nth_error ts q = Some t -> exists a, is_lca t a (leaf_id t (lf q i)) (leaf_id t (lf q j)) /\ depth_of t a (dc q)) ->
    nth j (nth i D []) 0 = sumto (length ts) (fun q => INR (Nat.min (S (dl q i)) m) - INR (Nat.min (S (dc q)) m)) / INR (length ts).

Lemma Kone_diag : forall s k i, (i < length X)%nat ->
  nth i (nth i (Kone ts X s k) []) 0 = sumto (length ts) (fun q => INR (Nat.min (S (dl q i)) (k + s) - Nat.min (S (dl q i)) s)) / INR (length ts).
Proof.
  intros s k i Hi. apply (Kone_entry ts X s k lf i i (fun q => dl q i)); auto.
  intros q t E. exists (leaf_id t (lf q i)). assert (W : wf_tree t) by (eapply Forall_forall; eauto; eapply nth_error_In; eauto). destruct (LV _ _ _ E Hi) as [I1 I2]. split; [|apply DL; auto].
  apply lca_leaf_self; auto. apply leaf_id_lt; auto.
Qed.
Lemma INRT : 0 < INR (length ts).
Proof. apply lt_0_INR. destruct ts; [congruence|cbn; lia]. Qed.
Lemma Kone_dist : forall s k, (s <= 1)%nat -> (k + s = m)%nat -> forall D, (forall i j, (i < length X)%nat -> (j < length X)%nat ->
    nth j (nth i D []) 0 = nth i (nth i (Kone ts X s k) []) 0 - nth j (nth i (Kone ts X s k) []) 0) ->
  forall i j, (i < length X)%nat -> (j < length X)%nat -> cut_dist i j D.
Proof.
  intros s k Hs KS D HD i j Hi Hj dc HC. rewrite HD, Kone_diag by auto. rewrite (Kone_entry ts X s k lf i j dc) by auto.
  unfold Rdiv. rewrite <- Rmult_minus_distr_r. f_equal. pose proof (sumto_plus (length ts)) as SP.
  assert (SM : forall n f g, sumto n f - sumto n g = sumto n (fun q => f q - g q)) by (induction n as [|n IH]; intros; cbn [sumto]; [lra|rewrite <- IH; lra]).
  rewrite SM. apply sumto_ext. intros q Hq. rewrite !minus_INR by lia. rewrite KS.
  replace (Nat.min (S (dl q i)) s) with s by lia. replace (Nat.min (S (dc q)) s) with s by lia. lra.
Qed.

Lemma p_C55_dist : exists V U K D, make_Vt_mat ts X dd = Ok V /\ make_Ut_prime V V (Some m) = Ok U /\
  make_kernel U None = Ok (Some K) /\ depth_dist K = Ok D /\ square (length X) D /\
  (forall i j, (i < length X)%nat -> (j < length X)%nat -> cut_dist i j D) /\
  exists U1, remove_0 U = Ok U1 /\
    (m = 1%nat -> make_kernel (T := R) U1 None = Ok None) /\
    ((1 < m)%nat -> exists K1, make_kernel U1 None = Ok (Some K1) /\
      ((forall q i, (q < length ts)%nat -> (i < length X)%nat -> dl q i = 0%nat) -> depth_dist K1 = Err AssertionError) /\
      ((exists q i, (q < length ts)%nat /\ (i < length X)%nat /\ dl q i <> 0%nat) -> exists D1, depth_dist K1 = Ok D1 /\ square (length X) D1 /\
         forall i j, (i < length X)%nat -> (j < length X)%nat -> cut_dist i j D1)).
Proof.
  pose proof INRT as PT.
  assert (U0 := U_kernel ts X X (repeat 1 m) 0 m WF NE (repeat_length _ _)).
  replace (map (fun l => (l, map (fun t => Mx (shn t (l + 0)) X X) ts)) (seq 0 m)) with (map (fun l => (l, map (fun t => Mx (shn t l) X X) ts)) (seq 0 m)) in U0
      by (apply map_ext; intros; rewrite Nat.add_0_r; auto).
  assert (SQ : forall s k, square (length X) (Kone ts X s k)) by (intros; apply len_Mx).
  destruct (depth_dist_val (length X) (Kone ts X 0 m) (SQ 0%nat m)) as [_ DV].
  assert (PX : (0 < length X)%nat) by (destruct X; [congruence|cbn; lia]).
  destruct DV as (D&ED&SD&VD).
  { exists 0%nat. split; auto. rewrite Kone_diag by auto. intros Z.
    assert (0 < sumto (length ts) (fun q => INR (Nat.min (S (dl q 0)) (m + 0) - Nat.min (S (dl q 0)) 0))).
    { apply Rlt_le_trans with (sumto (length ts) (fun _ => 1)); [|apply sumto_le; intros q Hq; apply (le_INR 1); lia].
      rewrite sumto_const. lra. }
    assert (0 < sumto (length ts) (fun q => INR (Nat.min (S (dl q 0)) (m + 0) - Nat.min (S (dl q 0)) 0)) / INR (length ts)) by (apply Rdiv_lt_0_compat; auto). lra. }
  do 2 eexists. exists (Kone ts X 0 m), D. split; [apply make_Vt_val; auto|]. split; [apply Ut_val; auto|].
  split; [rewrite (kernel_none _ m) by (rewrite map_length, seq_length; auto); rewrite U0; destruct m; [lia|reflexivity]|].
  split; [exact ED|]. split; [exact SD|]. split; [apply (Kone_dist 0 m); auto; lia|].
  eexists. split; [apply (remove_0_val (fun l => map (fun t => Mx (shn t l) X X) ts)); auto|].
  assert (U1 := U_kernel ts X X (repeat 1 (m - 1)) 1 (m - 1) WF NE (repeat_length _ _)).
  split.
  - intros E. rewrite (kernel_none _ (m - 1)) by (rewrite map_length, seq_length; auto). rewrite U1. replace (m - 1)%nat with 0%nat by lia. reflexivity.
  - intros M1. exists (Kone ts X 1 (m - 1)).
    split; [rewrite (kernel_none _ (m - 1)) by (rewrite map_length, seq_length; auto); rewrite U1; destruct (m - 1)%nat eqn:Q; [lia|reflexivity]|].
    destruct (depth_dist_val (length X) (Kone ts X 1 (m - 1)) (SQ 1%nat (m - 1)%nat)) as [DE DV]. split.
    + intros Z. apply DE. intros i Hi. rewrite Kone_diag by auto. rewrite (sumto_ext _ _ (fun _ => 0)); [rewrite sumto_const; unfold Rdiv; ring|].
      intros q Hq. rewrite Z by auto. replace (_ - _)%nat with 0%nat by lia. reflexivity.
    + intros (q0&i0&Hq0&Hi0&N0). destruct DV as (D1&ED1&SD1&VD1).
      { exists i0. split; auto. rewrite Kone_diag by auto. intros Z.
        assert (0 < sumto (length ts) (fun q => INR (Nat.min (S (dl q i0)) (m - 1 + 1) - Nat.min (S (dl q i0)) 1))).
        { apply Rlt_le_trans with (INR (Nat.min (S (dl q0 i0)) (m - 1 + 1) - Nat.min (S (dl q0 i0)) 1)); [apply (lt_INR 0); lia|].
          apply (sumto_elem_le (length ts) (fun q => INR (Nat.min (S (dl q i0)) (m - 1 + 1) - Nat.min (S (dl q i0)) 1)) q0); auto. intros. apply pos_INR. }
        assert (0 < sumto (length ts) (fun q => INR (Nat.min (S (dl q i0)) (m - 1 + 1) - Nat.min (S (dl q i0)) 1)) / INR (length ts)) by (apply Rdiv_lt_0_compat; auto). lra. }
      exists D1. split; auto. split; auto. apply (Kone_dist 1 (m - 1)); auto; lia.
Qed.
(** deep enough: mean standard distance *)
Lemma cut_standard : (forall q i, (q < length ts)%nat -> (i < length X)%nat -> (dl q i < m)%nat) ->
  forall i j D, (i < length X)%nat -> (j < length X)%nat -> cut_dist i j D -> forall k : nat -> nat,
   (forall q t, nth_error ts q = Some t -> TreeSpec.leaf_dist t Standard (leaf_id t (lf q i)) (leaf_id t (lf q j)) (k q)) ->
   nth j (nth i D []) 0 = sumto (length ts) (fun q => INR (k q)) / INR (length ts).
Proof.
  intros DM i j D Hi Hj CD k HK.
  assert (HA : forall q, exists d, (q < length ts)%nat -> exists a, is_lca (nth q ts tdef) a (leaf_id (nth q ts tdef) (lf q i)) (leaf_id (nth q ts tdef) (lf q j)) /\ depth_of (nth q ts tdef) a d /\ k q = (dl q i - d)%nat /\ (d <= dl q i)%nat).
  { intros q. destruct (Nat.lt_ge_cases q (length ts)) as [Hq|Hq]; [|exists 0%nat; lia].
    assert (E : nth_error ts q = Some (nth q ts tdef)) by (apply nth_error_nth'; auto). pose proof (nth_wf ts q WF Hq) as W.
    destruct (HK _ _ E) as (d1&d2&(a&di&da&A1&A2&A3&A4)&_&->). exists da. intros _. exists a. split; auto. split; auto.
    assert (di = dl q i) by (eapply depth_unique; eauto). subst di. split; auto. eapply depth_anc; eauto. apply A1. }
  destruct (finite_choice (fun q d => (q < length ts)%nat -> exists a, is_lca (nth q ts tdef) a (leaf_id (nth q ts tdef) (lf q i)) (leaf_id (nth q ts tdef) (lf q j)) /\ depth_of (nth q ts tdef) a d /\ k q = (dl q i - d)%nat /\ (d <= dl q i)%nat) (length ts)) as (dc&HD).
  { intros q _. apply HA. }
  rewrite (CD dc).
  - unfold Rdiv. f_equal. apply sumto_ext. intros q Hq. destruct (HD q Hq Hq) as (a&_&_&->&Le). pose proof (DM q i Hq Hi). rewrite <- minus_INR by lia. f_equal. lia.
  - intros q t E. assert (Hq : (q < length ts)%nat) by (apply nth_error_Some; congruence). destruct (HD q Hq Hq) as (a&A1&A2&_). rewrite (nth_error_nth _ _ tdef E) in A1, A2. eauto.
Qed.
End Dist.
