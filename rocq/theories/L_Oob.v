(** L_Oob: lemmas on the model of _append_oob_values. *)
From Coq Require Import Reals Lra Lia Sorting.Sorted.
From Verif Require Import Base TreeSpec Spec M_Tree M_Gamma M_Levels M_Prox M_Grad M_Sgd M_Smooth M_Prune M_Oob SpecSmooth SpecTune SpecDepth SpecOob.
From Verif Require Import L_Base L_Tree L_TreeModel L_Dist L_Gamma L_Gamma2 L_PropsTree L_Sgd L_Levels L_Smooth3 L_Route L_Tune L_Prune4 L_Depth L_Depth2 L_Smooth4.
Local Open Scope R_scope.

Lemma take_rows_of : forall A (l : list A) idx out, take_rows l idx = Ok out -> rows_of l idx out.
Proof.
  intros A l idx. unfold take_rows. induction idx as [|i idx IH]; intros out H; cbn [mapM] in H.
  - injection H as <-. split; auto. cbn. intros; lia.
  - destruct (nth_error l i) eqn:E; cbn [bind] in H; [|discriminate].
    destruct (mapM _ idx) as [r|] eqn:E2; cbn [bind] in H; [|discriminate]. injection H as <-.
    destruct (IH r eq_refl) as [L N]. split; [cbn; auto|]. intros [|k] Hk; [cbn; auto|]. cbn [nth nth_error]. apply N. cbn in Hk; lia.
Qed.

Lemma visits_len : forall (t : tree R) X v, length (visits t X v) = length X.
Proof. intros. unfold visits. apply map_length. Qed.

Lemma visits_nth : forall (t : tree R) X v sel i, wf_tree t -> (v < size t)%nat -> passes t X v sel -> (i < length X)%nat ->
  nth i (visits t X v) 0 = if sel i then 1 else 0.
Proof.
  intros t X v sel i WF Hv P Hi. unfold visits. rewrite nth_map_in with (d := []) by auto.
  destruct (path_row_nth t (nth i X []) v WF Hv) as [A B]. specialize (P i Hi).
  destruct (sel i); [apply A; apply P; auto|apply B; intros HR; apply P in HR; discriminate].
Qed.

Lemma n_oob_val : forall (t : tree R) X v sel, wf_tree t -> (v < size t)%nat -> passes t X v sel ->
  n_oob t X v = sum_sel (length X) sel (fun _ => 1).
Proof.
  intros t X v sel WF Hv P. unfold n_oob. rewrite nsum_sumto, visits_len. unfold sum_sel. apply sumto_ext. intros i Hi.
  apply visits_nth; auto.
Qed.

Lemma passes_ex : forall (t : tree R) X v, wf_tree t -> exists sel, passes t X v sel.
Proof.
  intros t X v WF. exists (fun i => existsb (Nat.eqb v) (path_nodes (size t) t (nth i X []) 0)).
  intros i Hi. rewrite <- (path_reaches t WF (nth i X []) v). rewrite existsb_exists. split.
  - intros (u&Hu&E). apply Nat.eqb_eq in E. subst; auto.
  - intros H. exists v. rewrite Nat.eqb_refl; auto.
Qed.

Lemma risk_reg_val : forall (t : tree R) X y v sel, wf_tree t -> (v < size t)%nat -> passes t X v sel -> length y = length X ->
  oob_error t X y v = sum_sel (length X) sel (fun i => (nth i y 0 - node_v t 0 v) * (nth i y 0 - node_v t 0 v)) / INR (length X).
Proof.
  intros t X y v sel WF Hv P LY. unfold oob_error.
  set (diff := map2 _ _ _). assert (LD : length diff = length X).
  { unfold diff. rewrite map2_length, visits_len, LY. apply Nat.min_id. }
  rewrite LD. change (@ndiv R _ ?a ?b) with (a / b). change (@nof R _ (length X)) with (INR (length X)). f_equal.
  rewrite nsum_sumto, map_length, LD. unfold sum_sel. apply sumto_ext. intros i Hi.
  rewrite nth_map_in with (d := 0) by lia. unfold diff. rewrite nth_map2 with (da := 0) (db := 0) by (rewrite ?visits_len; lia).
  rewrite (visits_nth t X v sel i WF Hv P Hi). rn. destruct (sel i).
  - destruct (Reqb_spec 1 0); [lra|]. unfold node_v. ring.
  - destruct (Reqb_spec 0 0); [|lra]. ring.
Qed.

Lemma map2_map : forall A B C D (f : A -> B -> C) (g : C -> D) l m, map g (map2 f l m) = map2 (fun a b => g (f a b)) l m.
Proof. induction l; destruct m; cbn; f_equal; auto. Qed.

Lemma oob_shape : forall df kd (t : tree R) X y oob out, append_oob_values df (TreeObj kd t) X y oob = Ok out ->
  exists Xt yt risk, rows_of X oob Xt /\ rows_of y oob yt /\ Xt <> [] /\ length yt = length Xt /\
    match kd with
    | Reg => Ok (map (oob_error t Xt yt) (seq 0 (size t)))
    | Class _ => mapM (oob_accuracy t Xt yt) (seq 0 (size t))
    end = Ok risk /\ length risk = size t /\
    stacked df (map2 (fun v r => mkOrow (n_oob t Xt v) r) (seq 0 (size t)) risk) out.
Proof.
  intros df kd t X y oob out H. cbn [append_oob_values] in H.
  destruct (take_rows X oob) as [Xt|] eqn:EX; cbn [bind] in H; [|discriminate].
  destruct (take_rows y oob) as [yt|] eqn:EY; cbn [bind] in H; [|discriminate].
  destruct (Nat.eqb_spec (length Xt) 0) as [|NX]; [discriminate|].
  destruct (match kd with Reg => _ | Class _ => _ end) as [risk|] eqn:ER; cbn [bind] in H; [|discriminate].
  injection H as <-. exists Xt, yt, risk. pose proof (take_rows_of _ _ _ _ EX) as RX. pose proof (take_rows_of _ _ _ _ EY) as RY.
  split; auto. split; auto. split; [intros ->; cbn in NX; lia|]. split; [destruct RX, RY; lia|]. split; auto.
  split.
  - destruct kd; [injection ER as <-; rewrite map_length, seq_length; auto|].
    apply mapM_length in ER. rewrite seq_length in ER. auto.
  - unfold stacked. rewrite map2_map. reflexivity.
Qed.

Lemma p_C80_reg : forall df (t : tree R) X y oob out, wf_tree t -> append_oob_values df (TreeObj Reg t) X y oob = Ok out ->
  exists Xt yt new, rows_of X oob Xt /\ rows_of y oob yt /\ stacked df new out /\ length new = size t /\
  forall v sel, (v < size t)%nat -> passes t Xt v sel ->
    exists r, nth_error new v = Some r /\
      or_n r = sum_sel (length oob) sel (fun _ => 1) /\
      or_risk r = sum_sel (length oob) sel (fun i => (nth i yt 0 - node_v t 0 v) * (nth i yt 0 - node_v t 0 v)) / INR (length oob).
Proof.
  intros df t X y oob out WF H. destruct (oob_shape _ _ _ _ _ _ _ H) as (Xt&yt&risk&RX&RY&NX&LY&ER&LR&ST).
  exists Xt, yt, (map2 (fun v r => mkOrow (n_oob t Xt v) r) (seq 0 (size t)) risk).
  split; auto. split; auto. split; auto. split; [rewrite map2_length, seq_length, LR; apply Nat.min_id|].
  intros v sel Hv P. exists (mkOrow (n_oob t Xt v) (nth v risk 0)). split.
  { rewrite nth_error_nth' with (d := mkOrow 0 0) by (rewrite map2_length, seq_length, LR, Nat.min_id; auto).
    f_equal. rewrite nth_map2 with (da := 0%nat) (db := 0) by (rewrite ?seq_length; lia). rewrite seq_nth by auto. reflexivity. }
  cbn [or_n or_risk]. assert (LO : length Xt = length oob) by (destruct RX; auto). rewrite <- LO.
  split; [apply n_oob_val; auto|]. injection ER as <-. rewrite nth_map_seq by auto. cbn [Nat.add]. apply risk_reg_val; auto.
Qed.

(** *** labels *)
Lemma sorted_same : forall l m : list R, StronglySorted Rlt l -> StronglySorted Rlt m -> (forall u, In u l <-> In u m) -> l = m.
Proof.
  induction l as [|a l IH]; intros m SL SM E.
  - destruct m as [|b m]; auto. destruct (proj2 (E b)); left; auto.
  - destruct m as [|b m]; [destruct (proj1 (E a)); left; auto|].
    inversion SL as [|? ? SL' FL]; subst. inversion SM as [|? ? SM' FM]; subst.
    rewrite Forall_forall in FL, FM.
    assert (AB : a = b).
    { destruct (proj1 (E a)) as [|I1]; [left; auto|auto|]. destruct (proj2 (E b)) as [|I2]; [left; auto|auto|].
      specialize (FL b I2). specialize (FM a I1). lra. }
    subst b. f_equal. apply IH; auto. intros u. specialize (E u). split; intros I1.
    + destruct (proj1 E (or_intror I1)) as [->|]; auto. specialize (FL u I1). lra.
    + destruct (proj2 E (or_intror I1)) as [->|]; auto. specialize (FM u I1). lra.
Qed.
Lemma label_list_set : forall y cats, label_list y cats -> sorted_set y = cats.
Proof.
  intros y cats [SC E]. apply sorted_same; auto; [apply sorted_set_sorted|]. intros u. rewrite sorted_set_in. symmetry. auto.
Qed.
Lemma all_labels_list : forall K y, all_labels K y -> label_list y (map INR (seq 0 K)).
Proof.
  intros K y [A B]. split.
  - assert (G : forall n s, StronglySorted Rlt (map INR (seq s n))).
    { induction n as [|n IH]; intros s; cbn [seq map]; [constructor|]. constructor; auto. apply Forall_forall. intros u Hu.
      apply in_map_iff in Hu. destruct Hu as (i&<-&Hi). apply in_seq in Hi. apply lt_INR. lia. }
    apply G.
  - intros u. rewrite in_map_iff. split.
    + intros (c&<-&Hc). apply in_seq in Hc. apply A. lia.
    + intros Hu. destruct (B u Hu) as (c&Hc&->). exists c. split; auto. apply in_seq. lia.
Qed.

Lemma risk_class_val : forall (t : tree R) X y v sel cats m, wf_tree t -> (v < size t)%nat -> passes t X v sel -> length y = length X ->
  label_list y cats -> m = argmax (nth v (t_value t) []) ->
  oob_accuracy t X y v = if Nat.ltb m (length cats) then
      Ok (if Req_EM_T (sum_sel (length X) sel (fun _ => 1)) 0 then 0
          else sum_sel (length X) sel (fun i => if Req_EM_T (nth i y 0) (nth m cats 0) then 1 else 0) /
               sum_sel (length X) sel (fun _ => 1))
    else Err IndexError.
Proof.
  intros t X y v sel cats m WF Hv P LY LC ->. unfold oob_accuracy. rewrite (label_list_set _ _ LC). set (m := argmax _).
  rewrite (n_oob_val t X v sel WF Hv P).
  destruct (Nat.ltb_spec m (length cats)) as [Hm|Hm].
  - rewrite nth_error_nth' with (d := 0) by (rewrite map_length, seq_length; auto).
    rewrite nth_map_seq by auto. cbn [Nat.add]. f_equal. rn.
    destruct (Reqb_spec (sum_sel (length X) sel (fun _ => 1)) 0) as [E|E]; destruct (Req_EM_T _ 0) as [E'|E']; try contradiction; auto.
    f_equal. unfold get_dummies. rewrite (label_list_set _ _ LC).
    rewrite dot_sumto by (unfold col; rewrite !map_length, visits_len; auto). rewrite visits_len. unfold sum_sel. apply sumto_ext. intros i Hi.
    rewrite (visits_nth t X v sel i WF Hv P Hi). unfold col. rewrite map_map.
    rewrite nth_map_in with (d := 0) by lia. rewrite nth_map_in with (d := 0) by auto. rn.
    destruct (sel i); [|ring].
    destruct (Reqb_spec (nth i y 0) (nth m cats 0)); destruct (Req_EM_T (nth i y 0) (nth m cats 0)); try contradiction; ring.
  - rewrite (proj2 (nth_error_None _ _)); auto. rewrite map_length, seq_length. auto.
Qed.

Lemma p_C80_class : forall df nc (t : tree R) X y oob out, wf_tree t -> append_oob_values df (TreeObj (Class nc) t) X y oob = Ok out ->
  exists Xt yt new, rows_of X oob Xt /\ rows_of y oob yt /\ stacked df new out /\ length new = size t /\
  forall v sel cats m, (v < size t)%nat -> passes t Xt v sel -> label_list yt cats -> majority t v m ->
    (m < length cats)%nat /\
    exists r, nth_error new v = Some r /\
      or_n r = sum_sel (length oob) sel (fun _ => 1) /\
      (or_n r = 0 -> or_risk r = 0) /\
      (or_n r <> 0 -> or_risk r = sum_sel (length oob) sel (fun i => if Req_EM_T (nth i yt 0) (nth m cats 0) then 1 else 0) / or_n r).
Proof.
  intros df nc t X y oob out WF H. destruct (oob_shape _ _ _ _ _ _ _ H) as (Xt&yt&risk&RX&RY&NX&LY&ER&LR&ST).
  exists Xt, yt, (map2 (fun v r => mkOrow (n_oob t Xt v) r) (seq 0 (size t)) risk).
  split; auto. split; auto. split; auto. split; [rewrite map2_length, seq_length, LR; apply Nat.min_id|].
  intros v sel cats m Hv P LC MJ. assert (LO : length Xt = length oob) by (destruct RX; auto).
  assert (ME : m = argmax (nth v (t_value t) [])).
  { destruct MJ as (A&B&C). assert (NE : nth v (t_value t) [] <> []) by (intros E; rewrite E in A; cbn in A; lia).
    destruct (argmax_majority t v NE) as (A'&B'&C'). set (m' := argmax _) in *.
    destruct (Nat.lt_trichotomy m m') as [L|[E|L]]; auto.
    - specialize (C' m L). specialize (B m' A'). lra.
    - specialize (C m' L). specialize (B' m A). lra. }
  pose proof (mapM_nth_error _ _ _ ER v v) as Nv. rewrite nth_error_nth' with (d := 0%nat) in Nv by (rewrite seq_length; auto).
  rewrite seq_nth in Nv by auto. cbn [Nat.add] in Nv. destruct (Nv eq_refl) as (x&Ex&Rx).
  rewrite (risk_class_val t Xt yt v sel cats m WF Hv P LY LC ME) in Rx.
  destruct (Nat.ltb_spec m (length cats)) as [Hm|Hm]; [|discriminate]. split; auto.
  exists (mkOrow (n_oob t Xt v) (nth v risk 0)). split.
  { rewrite nth_error_nth' with (d := mkOrow 0 0) by (rewrite map2_length, seq_length, LR, Nat.min_id; auto).
    f_equal. rewrite nth_map2 with (da := 0%nat) (db := 0) by (rewrite ?seq_length; lia). rewrite seq_nth by auto. reflexivity. }
  cbn [or_n or_risk]. rewrite <- LO, (n_oob_val t Xt v sel WF Hv P). split; auto.
  assert (EX : nth v risk 0 = x). { apply nth_error_nth with (d := 0) in Ex. auto. }
  rewrite EX. injection Rx as <-. destruct (Req_EM_T _ 0) as [E|E]; split; intros; try contradiction; auto.
Qed.

(** IndexError when the majority column of some node does not exist *)
Lemma p_C80_missing : forall df nc (t : tree R) X y oob cats yt v m, wf_tree t ->
  (forall i, In i oob -> (i < length X)%nat /\ (i < length y)%nat) -> oob <> [] -> rows_of y oob yt -> label_list yt cats ->
  (v < size t)%nat -> majority t v m -> (length cats <= m)%nat ->
  append_oob_values df (TreeObj (Class nc) t) X y oob = Err IndexError.
Proof.
  intros df nc t X y oob cats yt v m WF RI NO RY LC Hv MJ Hm.
  destruct (append_oob_values _ _ _ _ _) as [out|e] eqn:E.
  - destruct (p_C80_class _ _ _ _ _ _ _ WF E) as (Xt&yt'&new&RX'&RY'&_&_&F).
    assert (yt' = yt).
    { destruct RY as [L1 N1], RY' as [L2 N2]. apply nth_eq_ext with (d := 0); [lia|]. intros k Hk.
      specialize (N1 k ltac:(lia)). specialize (N2 k ltac:(lia)). rewrite N1 in N2.
      rewrite (nth_error_nth' yt 0), (nth_error_nth' yt' 0) in N2 by lia. congruence. }
    subst yt'. destruct (passes_ex t Xt v WF) as (sel&P). destruct (F v sel cats m Hv P LC MJ). lia.
  - f_equal. cbn [append_oob_values] in E.
    assert (TX : exists Xt, take_rows X oob = Ok Xt).
    { unfold take_rows. destruct (mapM_total (fun i => match nth_error X i with Some x => Ok x | None => Err IndexError end) oob) as (r&Er&_); eauto.
      intros i Hi. destruct (nth_error X i) eqn:N; eauto. apply nth_error_None in N. apply RI in Hi. lia. }
    assert (TY : exists Yt, take_rows y oob = Ok Yt).
    { unfold take_rows. destruct (mapM_total (fun i => match nth_error y i with Some x => Ok x | None => Err IndexError end) oob) as (r&Er&_); eauto.
      intros i Hi. destruct (nth_error y i) eqn:N; eauto. apply nth_error_None in N. apply RI in Hi. lia. }
    destruct TX as (Xt&EX). destruct TY as (Yt&EY). rewrite EX, EY in E. cbn [bind] in E.
    destruct (take_rows_of _ _ _ _ EX) as [LX _]. destruct (Nat.eqb_spec (length Xt) 0) as [E0|].
    { destruct oob; [congruence|cbn in LX; lia]. }
    destruct (mapM _ _) as [|e'] eqn:EM; cbn [bind] in E; [discriminate|]. injection E as <-.
    clear - EM. revert EM. generalize (seq 0 (size t)) as l. induction l as [|u l IH]; cbn [mapM]; [discriminate|].
    unfold bind. unfold oob_accuracy at 1. destruct (nth_error _ _); [|congruence].
    destruct (mapM _ l); [discriminate|]. intros H; apply IH; congruence.
Qed.

(** the error of the other label counts *)
Lemma p_C80_labels : forall df nc K (t : tree R) X y oob out, wf_tree t -> append_oob_values df (TreeObj (Class nc) t) X y oob = Ok out ->
  (forall yt, rows_of y oob yt -> all_labels K yt) ->
  exists Xt yt new, rows_of X oob Xt /\ rows_of y oob yt /\ stacked df new out /\
  forall v sel m, (v < size t)%nat -> passes t Xt v sel -> majority t v m ->
    exists r, nth_error new v = Some r /\
      (or_n r <> 0 -> or_risk r = 1 - sum_sel (length oob) sel (fun i => if Req_EM_T (nth i yt 0) (INR m) then 0 else 1) / or_n r).
Proof.
  intros df nc K t X y oob out WF H AL. destruct (p_C80_class _ _ _ _ _ _ _ WF H) as (Xt&yt&new&RX&RY&ST&_&F).
  exists Xt, yt, new. split; auto. split; auto. split; auto. intros v sel m Hv P MJ.
  destruct (F v sel _ m Hv P (all_labels_list K yt (AL yt RY)) MJ) as (Hm&r&Er&Nr&_&Rr).
  exists r. split; auto. intros NZ. rewrite (Rr NZ). rewrite map_length, seq_length in Hm.
  rewrite nth_map_seq by auto. cbn [Nat.add].
  assert (E : sum_sel (length oob) sel (fun i => if Req_EM_T (nth i yt 0) (INR m) then 1 else 0) =
              or_n r - sum_sel (length oob) sel (fun i => if Req_EM_T (nth i yt 0) (INR m) then 0 else 1)).
  { rewrite Nr. unfold sum_sel. clear. induction (length oob) as [|n IH]; cbn [sumto]; [ring|]. rewrite IH.
    destruct (sel n), (Req_EM_T (nth n yt 0) (INR m)); ring. }
  rewrite E. field. auto.
Qed.

Lemma p_C80_diluted : forall df (t : tree R) X y oob out, wf_tree t -> append_oob_values df (TreeObj Reg t) X y oob = Ok out ->
  exists Xt yt new, rows_of X oob Xt /\ rows_of y oob yt /\ stacked df new out /\
  forall v sel, (v < size t)%nat -> passes t Xt v sel ->
    exists r, nth_error new v = Some r /\
      (or_n r <> 0 -> or_risk r = or_n r / INR (length oob) *
         (sum_sel (length oob) sel (fun i => (nth i yt 0 - node_v t 0 v) * (nth i yt 0 - node_v t 0 v)) / or_n r)).
Proof.
  intros df t X y oob out WF H. destruct (p_C80_reg _ _ _ _ _ _ WF H) as (Xt&yt&new&RX&RY&ST&_&F).
  exists Xt, yt, new. split; auto. split; auto. split; auto. intros v sel Hv P. destruct (F v sel Hv P) as (r&Er&Nr&Rr).
  exists r. split; auto. intros NZ. rewrite Rr. field. split; auto.
  intros E. apply NZ. rewrite Nr. apply (INR_eq _ 0%nat) in E. rewrite E. reflexivity.
Qed.

Lemma p_C80_returns : forall df kd (t : tree R) X y oob, wf_tree t -> oob <> [] ->
  (forall i, In i oob -> (i < length X)%nat /\ (i < length y)%nat) ->
  match kd with
  | Reg => True
  | Class nc => (forall yt, rows_of y oob yt -> all_labels nc yt) /\ (0 < nc)%nat /\
                (forall v, (v < size t)%nat -> length (nth v (t_value t) []) = nc)
  end ->
  exists out, append_oob_values df (TreeObj kd t) X y oob = Ok out.
Proof.
  intros df kd t X y oob WF NO RI HK. cbn [append_oob_values].
  assert (TX : exists Xt, take_rows X oob = Ok Xt).
  { unfold take_rows. destruct (mapM_total (fun i => match nth_error X i with Some x => Ok x | None => Err IndexError end) oob) as (r&Er&_); eauto.
    intros i Hi. destruct (nth_error X i) eqn:N; eauto. apply nth_error_None in N. apply RI in Hi. lia. }
  assert (TY : exists Yt, take_rows y oob = Ok Yt).
  { unfold take_rows. destruct (mapM_total (fun i => match nth_error y i with Some x => Ok x | None => Err IndexError end) oob) as (r&Er&_); eauto.
    intros i Hi. destruct (nth_error y i) eqn:N; eauto. apply nth_error_None in N. apply RI in Hi. lia. }
  destruct TX as (Xt&EX). destruct TY as (Yt&EY). rewrite EX, EY. cbn [bind].
  pose proof (take_rows_of _ _ _ _ EX) as RX. pose proof (take_rows_of _ _ _ _ EY) as RY.
  assert (LX : length Xt = length oob) by (destruct RX; auto). assert (LY : length Yt = length oob) by (destruct RY; auto).
  destruct (Nat.eqb_spec (length Xt) 0) as [E0|_]; [destruct oob; [congruence|cbn in LX; lia]|].
  destruct kd as [|nc]; [cbn [bind]; eauto|]. destruct HK as (AL&PN&LV).
  destruct (mapM_total (oob_accuracy t Xt Yt) (seq 0 (size t))) as (r&Er&_); [|rewrite Er; cbn [bind]; eauto].
  intros v Hv. apply in_seq in Hv. cbn in Hv. destruct (passes_ex t Xt v WF) as (sel&P).
  rewrite (risk_class_val t Xt Yt v sel _ _ WF ltac:(lia) P ltac:(lia) (all_labels_list nc Yt (AL Yt RY)) eq_refl).
  assert (NE : nth v (t_value t) [] <> []) by (intros E; specialize (LV v ltac:(lia)); rewrite E in LV; cbn in LV; lia).
  destruct (argmax_spec _ NE) as [A _]. rewrite LV in A by lia. rewrite map_length, seq_length.
  destruct (Nat.ltb_spec (argmax (nth v (t_value t) [])) nc); [eauto|lia].
Qed.

Lemma p_C80_not_joined : forall df kd (t : tree R) X y oob out, wf_tree t ->
  append_oob_values df (TreeObj kd t) X y oob = Ok out ->
  (length out = length df + size t)%nat /\ (forall r, In r out -> fst r = None \/ snd r = None) /\
  forall v r, nth_error df v = Some r -> nth_error out v = Some (Some r, None).
Proof.
  intros df kd t X y oob out WF H. destruct (oob_shape _ _ _ _ _ _ _ H) as (Xt&yt&risk&_&_&_&_&_&LR&ST).
  unfold stacked in ST. subst out. split; [rewrite app_length, !map_length, map2_length, seq_length, LR, Nat.min_id; auto|]. split.
  - intros r Hr. apply in_app_or in Hr. destruct Hr as [Hr|Hr]; apply in_map_iff in Hr; destruct Hr as (x&<-&_); cbn; auto.
  - intros v r Hv. rewrite nth_error_app1; [rewrite nth_error_map, Hv; reflexivity|].
    rewrite map_length. apply nth_error_Some. congruence.
Qed.
