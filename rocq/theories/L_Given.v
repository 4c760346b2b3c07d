(** L_Given: proofs about create_Gamma_eta_tree with a given matrix of distances. *)
From Verif Require Import Base TreeSpec Spec M_Tree M_Gamma M_Levels M_Analysis M_Named M_Given SpecSmooth SpecNamed.
From Verif Require Import L_Base L_TreeModel L_TreeModel2 L_PropsTree L_Gamma L_Gamma2 L_Levels L_Calls L_Named.
From Coq Require Import Reals Lra Lia.
From Coq Require Strings.String.
Import Coq.Strings.String.StringSyntax.
Local Open Scope string_scope.
Local Open Scope list_scope.
Local Open Scope R_scope.

Section Given.
Variables (t : tree R) (kd : kind) (pa : bool) (D : list (list Z)).
Hypothesis WF : wf_tree t.
Hypothesis NE : D <> [].
Hypothesis LR : forall i, (i < length D)%nat -> length (nth i D []) = n_leaves t.
Hypothesis RG : forall i j, (i < length D)%nat -> (j < n_leaves t)%nat -> (0 <= nth j (nth i D []) 0)%Z.

Lemma p_given : exists G E m, of_given kd pa t D = Ok (G, E) /\
  (forall i j, (i < length D)%nat -> (j < n_leaves t)%nat -> (nth j (nth i D []) 0 <= Z.of_nat m)%Z) /\
  (exists i j, (i < length D)%nat /\ (j < n_leaves t)%nat /\ nth j (nth i D []) 0%Z = Z.of_nat m) /\
  length G = n_gamma kd /\ length E = length D /\
  (forall i, (i < length D)%nat -> length (nth i E []) = S m) /\
  (forall c, (c < n_gamma kd)%nat -> length (nth c G []) = length D /\
     forall i, (i < length D)%nat -> length (nth i (nth c G []) []) = S m) /\
  forall i k, (i < length D)%nat -> (k <= m)%nat ->
     let sel j := if pa then Z.leb (nth j (nth i D []) 0%Z) (Z.of_nat k) else Z.eqb (nth j (nth i D []) 0%Z) (Z.of_nat k) in
     nth k (nth i E []) 0 = sum_sel (n_leaves t) sel (leaf_w t) /\
     forall c, (c < n_gamma kd)%nat -> nth k (nth i (nth c G []) []) 0 = sum_sel (n_leaves t) sel (leaf_ny t kd c).
Proof using All.
  pose proof (n_leaves_pos t WF) as LP.
  assert (LP0 : (0 < length D)%nat) by (destruct D; [congruence|cbn; lia]).
  assert (NC : concat D <> []).
  { intro E. assert (X : In (nth 0 (nth 0 D []) 0%Z) (concat D)) by (apply in_mat_concat; [lia|rewrite LR; auto]).
    rewrite E in X. destruct X. }
  destruct (zmaximum_ok _ NC) as [dm Hm]. destruct (zminimum_ok _ NC) as [mn Hmn].
  pose proof (zmaximum_spec _ _ Hm) as [M1 M2]. pose proof (zminimum_spec _ _ Hmn) as [_ N2].
  destruct (in_concat_mat _ 0%Z _ M1) as (mi&mj&Mi&Mj&ME). rewrite LR in Mj by lia.
  assert (DB : (0 <= dm)%Z) by (rewrite ME; apply RG; auto).
  unfold of_given. replace (forallb _ D) with true.
  2: { symmetry. apply forallb_forall. intros r Hr. destruct (In_nth _ _ [] Hr) as (i & Hi & <-). apply Nat.eqb_eq. auto. }
  unfold Gamma_eta_of_dist. rewrite Hm, Hmn. cbn [bind].
  set (KK := Z.to_nat (dm + 1)). assert (KE : KK = S (Z.to_nat dm)) by (unfold KK; lia).
  assert (SL : forall x : list R, length (slice_mat pa mn dm KK D x) = length D).
  { intros. unfold slice_mat. rewrite map_length. auto. }
  assert (SR : forall (x : list R) i, (i < length D)%nat -> length (nth i (slice_mat pa mn dm KK D x) []) = KK).
  { intros. unfold slice_mat. rewrite nth_map_in with (d := []) by lia. rewrite map_length, seq_length. auto. }
  assert (SV : forall (x : list R) i k f, length x = n_leaves t -> (forall j, (j < n_leaves t)%nat -> nth j x 0 = f j) ->
     (i < length D)%nat -> (k <= Z.to_nat dm)%nat ->
     nth k (nth i (slice_mat pa mn dm KK D x) []) 0 = sum_sel (n_leaves t) (fun j => if pa then Z.leb (nth j (nth i D []) 0%Z) (Z.of_nat k) else Z.eqb (nth j (nth i D []) 0%Z) (Z.of_nat k)) f).
  { intros x i k f Lx Vx Hi Hk. unfold slice_mat. rewrite nth_map_in with (d := []) by lia. rewrite nth_map_seq by lia.
    rewrite (map2_as_seq _ _ _ 0%Z 0) by (rewrite LR; auto). rewrite LR by auto.
    rewrite sum_sel_nsum, nsum_filter. apply nsum_ext. intros j Hj. apply in_seq in Hj.
    unfold slice_ind. cbn [Nat.add]. rewrite Vx by lia.
    set (b := if pa then _ else _). destruct b eqn:B.
    - assert (mn <= nth j (nth i D []) 0)%Z by (apply N2; apply in_mat_concat; [lia|rewrite LR; lia]).
      assert (nth j (nth i D []) 0 <= Z.of_nat k)%Z by (unfold b in B; destruct pa; [apply Z.leb_le in B|apply Z.eqb_eq in B]; lia).
      destruct (Z.leb_spec mn (Z.of_nat k)); [|lia]. destruct (Z.leb_spec (Z.of_nat k) dm); [|lia]. cbn [andb]. rn. lra.
    - rewrite andb_false_r. rn. lra. }
  eexists. eexists. exists (Z.to_nat dm). split; [reflexivity|].
  split. { intros i j Hi Hj. specialize (M2 _ (in_mat_concat D 0%Z i j Hi ltac:(rewrite LR; auto))). lia. }
  split. { exists mi, mj. split; [auto|]. split; [auto|]. rewrite <- ME. lia. }
  split; [rewrite map_length; apply ny_len; auto|]. split; [auto|].
  split; [intros; rewrite SR; auto|]. split.
  { intros c Hc. rewrite nth_map_in with (d := []) by (rewrite ny_len; auto). split; [auto|]. intros. rewrite SR; auto. }
  intros i k Hi Hk. cbv zeta. split.
  - apply SV; auto; [apply n_leaf_len; auto|intros; apply n_leaf_nth; auto].
  - intros c Hc. rewrite nth_map_in with (d := []) by (rewrite ny_len; auto).
    apply SV; auto; [apply ny_row_len; auto|intros; apply ny_nth; auto].
Qed.
End Given.

Lemma rect_of_square : forall (t : tree R) (D : list (list Z)), length D = n_leaves t -> (forall i, (i < n_leaves t)%nat -> length (nth i D []) = n_leaves t) ->
  forallb (fun r => Nat.eqb (length r) (n_leaves t)) D = true.
Proof. intros t D L RL. apply forallb_forall. intros r Hr. destruct (In_nth _ _ [] Hr) as (i & Hi & <-). apply Nat.eqb_eq. apply RL. lia. Qed.

(** with the tree's own distances in depth *)
Lemma p_given_depth : forall (t : tree R) kd pa s style dist levels, wf_tree t -> stands_for dist (lit "depth") -> stands_for style (style_name s) ->
  create_Gamma_eta_tree_named kd pa None style dist levels t = create_Gamma_eta_tree kd pa s t /\
  forall style' dist' levels', create_Gamma_eta_tree_named kd pa (Some (depth_dist_leaves s t)) style' dist' levels' t = create_Gamma_eta_tree kd pa s t.
Proof.
  intros t kd pa s style dist levels WF D ST. destruct (p_C04 t s WF) as (L & RL & _).
  assert (G : of_given kd pa t (depth_dist_leaves s t) = create_Gamma_eta_tree kd pa s t) by (unfold of_given; rewrite rect_of_square by auto; reflexivity).
  split; [|intros; exact G]. unfold create_Gamma_eta_tree_named. assert (D' := D). apply stands_first in D'. rewrite D', eqb_lit.
  rewrite (create_depth (mkDm (Some t) None None style dist levels) s (v_leaf t)) by (auto; reflexivity). cbn [bind]. exact G.
Qed.
(** ... and with its levels of impurity *)
Lemma slice_cap : forall {T} {NT : Num T} mn kmax kmax' K (D : list (list Z)) (x : list T), (Z.of_nat K <= kmax + 1)%Z -> (Z.of_nat K <= kmax' + 1)%Z ->
  slice_mat false mn kmax K D x = slice_mat false mn kmax' K D x.
Proof.
  intros T NT mn kmax kmax' K D x A B. unfold slice_mat. apply map_ext. intros row. apply map_ext_in. intros k Hk. apply in_seq in Hk. f_equal.
  apply map2_ext_in. intros d y _. f_equal. unfold slice_ind.
  destruct (Z.leb_spec (Z.of_nat k) kmax), (Z.leb_spec (Z.of_nat k) kmax'); try lia. reflexivity.
Qed.
Lemma filter_length_le_ : forall {A} (f : A -> bool) l, (length (filter f l) <= length l)%nat.
Proof. intros A f. induction l as [|a l IH]; cbn; [lia|]. destruct (f a); cbn; lia. Qed.
Lemma sorted_set_len : forall l : list R, l <> [] -> (0 < length (sorted_set l))%nat.
Proof.
  intros [|x l] NE; [congruence|]. cbn [sorted_set fold_right]. generalize (fold_right insert_set [] l). intros [|y r]; [apply Nat.lt_0_succ|]. cbn [insert_set].
  destruct (nltb y x); [apply Nat.lt_0_succ|]. destruct (nltb x y); apply Nat.lt_0_succ.
Qed.
Lemma open_head : forall br : list R, exists r, open_breaks br = NInf :: r.
Proof.
  intros br. unfold open_breaks. cbv zeta. assert (L := sorted_set_len (br ++ [n0]) ltac:(destruct br; discriminate)).
  destruct (sorted_set (br ++ [n0])) as [|x [|y l]]; [inversion L| |]; cbn; eauto.
Qed.
Lemma final_head : forall (br : list R) u b, final_breaks br u = Ok b -> exists r, b = NInf :: r.
Proof.
  intros br u b H. unfold final_breaks in H. destruct (open_head br) as (r & E). rewrite E in H. cbv zeta in H.
  destruct (nth_error _ _); [|discriminate]. destruct (ext_ltb _ _); injection H as <-; cbn; eauto.
Qed.
Lemma levels_range : forall s lv (t : tree R) D e, impurity_levels s lv t = Ok (D, e) -> forall z, In z (concat D) -> (0 <= z <= Z.of_nat e)%Z.
Proof.
  intros s lv t D e E z Hz. unfold impurity_levels, discretise in E. destruct (match lv with LInt n => quantiles n _ | LArr l => Ok l end) as [br|]; [|discriminate]. cbn [bind] in E.
  destruct (upper_zero _) as [u|]; [|discriminate]. cbn [bind] in E. destruct (final_breaks br u) as [b|] eqn:F; [|discriminate]. cbn [bind] in E. injection E as <- <-.
  destruct (final_head _ _ _ F) as (r & ->). apply in_concat in Hz. destruct Hz as (row & Hr & Hz). apply in_map_iff in Hr. destruct Hr as (row0 & <- & _). apply in_map_iff in Hz. destruct Hz as (x & <- & _).
  unfold cut_label. cbn [filter ext_ltb length]. pose proof (filter_length_le_ (fun b => ext_ltb b (Fin x)) r). lia.
Qed.
Lemma p_given_levels : forall (t : tree R) kd s lv style dist D e, wf_tree t -> stands_for dist (lit "impurity") -> stands_for style (style_name s) ->
  impurity_levels s lv t = Ok (D, e) ->
  forall style' dist' levels', create_Gamma_eta_tree_named kd false None style dist (Some lv) t = create_Gamma_eta_tree_named kd false (Some D) style' dist' levels' t.
Proof.
  intros t kd s lv style dist D e WF DI ST E style' dist' levels'. unfold create_Gamma_eta_tree_named. assert (D' := DI). apply stands_first in D'. rewrite D', imp_not_depth, eqb_lit.
  destruct (p_calls (mkDm (Some t) None None style dist (Some lv)) t s WF eq_refl eq_refl eq_refl ST) as (_ & _ & C). rewrite (C lv DI eq_refl), E. cbn [bind].
  destruct (p_C06 t s WF) as (Dm & m & EI & L & RL & _).
  assert (EM : style_num s (standard_impurity t) = Dm). { unfold impurity_dist_leaves in EI. cbv zeta in EI. destruct (nmaximum _); [|discriminate]. cbn in EI. congruence. }
  assert (SQ : length D = n_leaves t /\ forall i, (i < n_leaves t)%nat -> length (nth i D []) = n_leaves t).
  { unfold impurity_levels, discretise in E. rewrite EM in E. destruct (match lv with LInt n => quantiles n (concat Dm) | LArr l => Ok l end) as [br|]; [|discriminate]. cbn [bind] in E. destruct (upper_zero _) as [u|]; [|discriminate]. cbn [bind] in E.
    destruct (final_breaks br u) as [b|]; [|discriminate]. cbn [bind] in E. injection E as <- _. rewrite map_length. split; [auto|]. intros i Hi. rewrite nth_map_in with (d := []) by lia. rewrite map_length. auto. }
  assert (RG := levels_range s lv t D e E). destruct SQ as [LD RD]. unfold of_given. rewrite rect_of_square by auto. unfold Gamma_eta_of_dist.
  destruct (zmaximum (concat D)) as [dm|] eqn:Hm; [|reflexivity]. cbn [bind]. destruct (zminimum (concat D)) as [mn|]; [|reflexivity]. cbn [bind].
  destruct (zmaximum_spec _ _ Hm) as [M1 _]. destruct (in_concat_mat _ 0%Z _ M1) as (mi&mj&Mi&Mj&ME). rewrite RD in Mj by lia.
  assert (B : (0 <= dm <= Z.of_nat e)%Z) by (apply RG; auto).
  rewrite (slice_cap mn (Z.of_nat e) dm) by lia. f_equal. f_equal. apply map_ext. intros x. apply slice_cap; lia.
Qed.
(** names are not looked at when a matrix is given; wrong names otherwise *)
Lemma p_given_errors : forall (t : tree R) kd pa style dist levels,
  (forall D r, In r D -> length r <> n_leaves t -> create_Gamma_eta_tree_named kd pa (Some D) style dist levels t = Err ValueError) /\
  (~ stands_for dist (lit "depth") -> ~ stands_for dist (lit "impurity") -> create_Gamma_eta_tree_named kd pa None style dist levels t = Err ValueError) /\
  (stands_for dist (lit "impurity") -> create_Gamma_eta_tree_named kd pa None style dist None t = Err ValueError) /\
  (stands_for dist (lit "depth") -> (forall s, ~ stands_for style (style_name s)) -> create_Gamma_eta_tree_named kd pa None style dist levels t = Err ValueError).
Proof.
  intros t kd pa style dist levels. split; [|split; [|split]].
  - intros D r Hr NE. cbn. unfold of_given. replace (forallb _ D) with false; auto. symmetry. destruct (forallb _ D) eqn:F; auto. rewrite forallb_forall in F. apply F in Hr. apply Nat.eqb_eq in Hr. contradiction.
  - intros A B. unfold create_Gamma_eta_tree_named. destruct (first_name dist) as [d|] eqn:F; auto.
    destruct (str_eqb d (lit "depth")) eqn:E1. { apply str_eqb_spec in E1. subst. destruct A. apply stands_first. auto. }
    destruct (str_eqb d (lit "impurity")) eqn:E2; auto. apply str_eqb_spec in E2. subst. destruct B. apply stands_first. auto.
  - intros D. unfold create_Gamma_eta_tree_named. apply stands_first in D. rewrite D, imp_not_depth, eqb_lit. reflexivity.
  - intros D NS. unfold create_Gamma_eta_tree_named. assert (D' := D). apply stands_first in D'. rewrite D', eqb_lit.
    destruct (p_out_depth (mkDm (Some t) None None style dist levels) D) as [I O]. destruct (O _ eq_refl) as [OK|ER]; [|rewrite ER; reflexivity]. apply I in OK. destruct OK as [(s & S) _]. destruct (NS _ S).
Qed.
(** no leaf is lost: every row of eta adds up to the weight of all leaves *)
Lemma p_given_mass : forall (t : tree R) kd (D : list (list Z)) G E, wf_tree t -> D <> [] -> (forall i, (i < length D)%nat -> length (nth i D []) = n_leaves t) ->
  (forall i j, (i < length D)%nat -> (j < n_leaves t)%nat -> (0 <= nth j (nth i D []) 0)%Z) -> forall i, (i < length D)%nat ->
  (of_given kd false t D = Ok (G, E) -> sumto (length (nth i E [])) (fun k => nth k (nth i E []) 0) = sumto (n_leaves t) (leaf_w t)) /\
  (of_given kd true t D = Ok (G, E) -> nth (length (nth i E []) - 1) (nth i E []) 0 = sumto (n_leaves t) (leaf_w t)).
Proof.
  intros t kd D G E WF NE LR RG i Hi. split; intros EQ.
  - destruct (p_given t kd false D WF NE LR RG) as (G' & E' & m & EQ' & B & _ & _ & _ & LE & _ & EN). rewrite EQ in EQ'. injection EQ' as <- <-. rewrite LE by auto.
    transitivity (sumto (S m) (fun k => sumto (n_leaves t) (fun j => if Z.eqb (nth j (nth i D []) 0%Z) (Z.of_nat k) then leaf_w t j else 0))).
    { apply sumto_ext. intros k Hk. destruct (EN i k Hi ltac:(lia)) as [-> _]. reflexivity. }
    rewrite sumto_swap. apply sumto_ext. intros j Hj. specialize (B i j Hi Hj). specialize (RG i j Hi Hj).
    rewrite (sumto_single (S m) _ (Z.to_nat (nth j (nth i D []) 0%Z))); [|lia|].
    + rewrite Z2Nat.id by lia. rewrite Z.eqb_refl. reflexivity.
    + intros k Hk NK. destruct (Z.eqb_spec (nth j (nth i D []) 0%Z) (Z.of_nat k)); [lia|reflexivity].
  - destruct (p_given t kd true D WF NE LR RG) as (G' & E' & m & EQ' & B & _ & _ & _ & LE & _ & EN). rewrite EQ in EQ'. injection EQ' as <- <-. rewrite LE by auto.
    replace (S m - 1)%nat with m by lia. destruct (EN i m Hi ltac:(lia)) as [-> _]. unfold sum_sel. apply sumto_ext. intros j Hj. specialize (B i j Hi Hj). destruct (Z.leb_spec (nth j (nth i D []) 0%Z) (Z.of_nat m)); [reflexivity|lia].
Qed.
