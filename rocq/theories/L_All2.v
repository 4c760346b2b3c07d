(** L_All2: the order of the trees handed to smooth_all. *)
From Verif Require Import Base TreeSpec Spec M_Tree M_Gamma M_Levels M_Grad M_Smooth M_Level SpecSmooth SpecTune SpecLevel SpecRel2 SpecAll.
From Verif Require Import L_Base L_Tree L_TreeModel L_Dist L_Gamma L_Gamma2 L_Sgd L_Grad L_Smooth L_Smooth2 L_Smooth3 L_Route L_Tune L_Level3 L_Level4 L_Level5 L_Level6 L_Level7 L_Level8 L_Level9 L_Rel L_Rel7 L_Rel9 L_All.
From Coq Require Import Reals Lra Lia Permutation.
Local Open Scope R_scope.

(* ---------------- what the matrices hold ---------------- *)
Definition attr_val (o : all_opts R) (oob boot : nat -> list nat) (q : nat) (t : tree R) : list R * list R :=
  match tree_attr o oob boot q t with Ok r => r | Err _ => ([], []) end.
Lemma targets_val : forall (o : all_opts R) oob boot ts w yl, Forall wf_tree ts -> all_leaf_targets o oob boot ts = Ok (w, yl) ->
  length w = offset ts (length ts) /\ length yl = length w /\
  forall q t, nth_error ts q = Some t -> (exists X y, all_tuning o oob boot q = Ok (X, y) /\ X <> [] /\ length y = length X) /\
    forall i, (i < n_leaves t)%nat -> nth (offset ts q + i) w 0 = nth i (fst (attr_val o oob boot q t)) 0 /\ nth (offset ts q + i) yl 0 = nth i (snd (attr_val o oob boot q t)) 0.
Proof.
  intros o oob boot ts w yl WF HT. destruct (all_targets_spec o oob boot ts w yl WF HT) as (A & B & C). split; [exact A|]. split; [exact B|].
  intros q t N. destruct (C q t N) as (X & y & w1 & y1 & E1 & E2 & E3).
  assert (W : wf_tree t) by (eapply Forall_forall; eauto; eapply nth_error_In; eauto).
  destruct (attr_spec t _ X y w1 y1 W E2) as (NX & LY & _). split; [exists X, y; auto|].
  unfold attr_val, tree_attr. rewrite E1. cbn [bind]. change (nopp n1) with (- (1)). rewrite E2. cbn [fst snd]. exact E3.
Qed.

Definition masses (o : all_opts R) (t : tree R) (i k : nat) : R * R :=
  (sum_sel (n_leaves t) (csel t Standard (a_parents_all o) i k) (leaf_w t), sum_sel (n_leaves t) (csel t Standard (a_parents_all o) i k) (leaf_ny t Reg 0)).
Section Mats.
Variables (o : all_opts R) (ts : list (tree R)) (G0 E : mat R) (Ti : list nat).
Hypothesis M : mats Reg ts (K_of ts) (fun q i k j => match nth_error ts q with Some t => csel t Standard (a_parents_all o) i k j | None => false end) [G0] E Ti.
Lemma mats_len : length G0 = length E /\ length E = offset ts (length ts) /\ forall r, (r < length E)%nat -> length (nth r G0 []) = K_of ts /\ length (nth r E []) = K_of ts.
Proof.
  destruct M as (LG & LE & LT & LC & V). specialize (LC 0%nat ltac:(cbn; lia)). cbn [nth] in LC. split; [exact LC|]. split; [exact LE|].
  intros r Hr. rewrite LE in Hr. destruct (offset_find ts r Hr) as (q&t&i&Nq&Hi&->). destruct (V q t Nq i Hi) as (_&_&A1&_&A2). destruct (A2 0%nat ltac:(cbn; lia)) as [A3 _]. cbn [nth] in A3. split; auto.
Qed.
Lemma mats_entry : forall q t i k, nth_error ts q = Some t -> (i < n_leaves t)%nat -> (k < K_of ts)%nat ->
  (offset ts q + i < length E)%nat /\ nth k (nth (offset ts q + i) E []) 0 = fst (masses o t i k) /\ nth k (nth (offset ts q + i) G0 []) 0 = snd (masses o t i k).
Proof.
  intros q t i k N Hi Hk. destruct M as (LG & LE & LT & LC & V). destruct (V q t N i Hi) as (A0&_&A1&A2&A3). destruct (A3 0%nat ltac:(cbn; lia)) as [A4 A5]. cbn [nth] in A4, A5.
  split; [exact A0|]. rewrite N in *. split; [apply A2; auto|apply A5; auto].
Qed.
Lemma ratio_iff : ratio_ok G0 E = true <-> forall q t i k, nth_error ts q = Some t -> (i < n_leaves t)%nat -> (k < K_of ts)%nat -> fst (masses o t i k) = 0 -> snd (masses o t i k) = 0.
Proof.
  destruct mats_len as (LC & LE & RL). split.
  - intros RO q t i k N Hi Hk Z. destruct (mats_entry q t i k N Hi Hk) as (A & B & C). rewrite <- C. apply (ratio_ok_entry G0 E); auto.
    + intros x Hx. destruct (RL x ltac:(lia)) as [-> ->]. auto.
    + destruct (RL _ A) as [_ ->]. auto.
    + rewrite B. auto.
  - intros H. unfold ratio_ok. apply forallb_forall. intros p Hp. apply (in_combine_concat G0 E p 0) in Hp; [|auto|intros x Hx; destruct (RL x ltac:(lia)) as [-> ->]; auto].
    destruct Hp as (r&k&Hr&Hk&->). cbn [fst snd]. destruct (RL r ltac:(lia)) as [R1 R2]. rewrite R1 in Hk.
    destruct (offset_find ts r ltac:(lia)) as (q&t&i&Nq&Hi&->). destruct (mats_entry q t i k Nq Hi Hk) as (A & B & C). rewrite B, C. rn.
    destruct (Reqb_spec (fst (masses o t i k)) 0) as [Z|Z]; auto. destruct (Reqb_spec (snd (masses o t i k)) 0) as [|NZ]; auto. exfalso. apply NZ. eapply H; eauto.
Qed.
Lemma ratio_entry : forall eps, ratio_ok G0 E = true -> length (ratio_rows eps G0 E) = offset ts (length ts) /\
  forall q t i, nth_error ts q = Some t -> (i < n_leaves t)%nat -> length (nth (offset ts q + i) (ratio_rows eps G0 E) []) = K_of ts /\
    forall k, (k < K_of ts)%nat -> nth k (nth (offset ts q + i) (ratio_rows eps G0 E) []) 0 = lmean o t i k.
Proof.
  intros eps RO. destruct mats_len as (LC & LE & RL). split; [unfold ratio_rows; rewrite map2_length; lia|]. intros q t i N Hi.
  assert (KP : (0 < K_of ts)%nat) by (unfold K_of; lia).
  destruct (mats_entry q t i 0%nat N Hi KP) as (A & _). destruct (RL _ A) as [R1 R2].
  assert (RW : nth (offset ts q + i) (ratio_rows eps G0 E) [] = map2 (fun g e => ndiv g (if neqb e n0 then eps else e)) (nth (offset ts q + i) G0 []) (nth (offset ts q + i) E [])).
  { unfold ratio_rows. rewrite nth_map2 with (da := []) (db := []) by lia. reflexivity. }
  rewrite RW. split; [rewrite map2_length; lia|]. intros k Hk. rewrite nth_map2 with (da := 0) (db := 0) by lia.
  destruct (mats_entry q t i k N Hi Hk) as (_ & B & C). rewrite B, C. pose proof (proj1 ratio_iff RO q t i k N Hi Hk) as RE. clear B C.
  unfold masses in *. cbn [fst snd] in *. unfold lmean, kmean, kmass.
  rewrite (sumto_ext (n_leaves t) (fun j => (if csel t Standard (a_parents_all o) i k j then 1 else 0) * leaf_w t j) (fun j => if csel t Standard (a_parents_all o) i k j then leaf_w t j else 0)) by (intros j Hj; destruct (csel t Standard (a_parents_all o) i k j); ring).
  rewrite (sumto_ext (n_leaves t) (fun j => (if csel t Standard (a_parents_all o) i k j then 1 else 0) * leaf_ny t Reg 0 j) (fun j => if csel t Standard (a_parents_all o) i k j then leaf_ny t Reg 0 j else 0)) by (intros j Hj; destruct (csel t Standard (a_parents_all o) i k j); ring).
  unfold sum_sel in *. rn. set (e := sumto (n_leaves t) (fun j => if csel t Standard (a_parents_all o) i k j then leaf_w t j else 0)) in *.
  destruct (Reqb_spec e 0) as [Z|Z]; destruct (Req_EM_T e 0) as [Z'|Z']; try contradiction; auto. rewrite RE; auto. unfold Rdiv. ring.
Qed.
End Mats.

(* ---------------- the quadratic program as sums over trees and leaves ---------------- *)
Section Program.
Variables (o : all_opts R) (oob boot : nat -> list nat) (ts : list (tree R)) (w yl : list R) (Gs : mat R).
Hypothesis WF : Forall wf_tree ts.
Hypothesis HT : all_leaf_targets o oob boot ts = Ok (w, yl).
Hypothesis LG : length Gs = offset ts (length ts).
Hypothesis VG : forall q t i, nth_error ts q = Some t -> (i < n_leaves t)%nat -> length (nth (offset ts q + i) Gs []) = K_of ts /\
    forall k, (k < K_of ts)%nat -> nth k (nth (offset ts q + i) Gs []) 0 = lmean o t i k.
Definition wt (q i : nat) : R := let w := nth i (fst (attr_val o oob boot q (nth q ts no_tree))) 0 in if negb (Reqb w (-(1))) then w else 0.
Definition yt (q i : nat) : R := nth i (snd (attr_val o oob boot q (nth q ts no_tree))) 0.
Lemma program_sum : forall F : list R -> R -> R, 
  sumto (length (mask_select (seen_of w) w)) (fun r => nth r (mask_select (seen_of w) w) 0 * F (nth r (mask_select (seen_of w) Gs) []) (nth r (mask_select (seen_of w) yl) 0))
  = sumto (length ts) (fun q => sumto (n_leaves (nth q ts no_tree)) (fun i => wt q i * F (nth (offset ts q + i) Gs []) (yt q i))).
Proof using WF HT LG.
  intros F. destruct (targets_val o oob boot ts w yl WF HT) as (LW & LY & V).
  assert (Ls : length (seen_of w) = length w) by apply map_length.
  rewrite (mask_sum3 (seen_of w) Gs w yl (fun row wr yr => wr * F row yr)) by congruence. rewrite Ls, LW, sumto_offset.
  apply sumto_ext. intros q Hq. assert (N : nth_error ts q = Some (nth q ts no_tree)) by (apply nth_error_nth'; auto). apply sumto_ext. intros i Hi.
  destruct (V q _ N) as [_ V1]. destruct (V1 i Hi) as [E1 E2].
  assert (Hr : (offset ts q + i < length w)%nat) by (rewrite LW; pose proof (offset_le ts q _ N); lia).
  unfold seen_of. rewrite nth_map_in with (d := 0) by auto. unfold wt, yt. rewrite <- E1, <- E2. rn. destruct (negb _); ring.
Qed.
Lemma S_entry : square (K_of ts) (S_of (K_of ts) Gs w) /\ forall i j, (i < K_of ts)%nat -> (j < K_of ts)%nat -> nth j (nth i (S_of (K_of ts) Gs w) []) 0
  = sumto (length ts) (fun q => sumto (n_leaves (nth q ts no_tree)) (fun l => wt q l * (lmean o (nth q ts no_tree) l i * lmean o (nth q ts no_tree) l j))).
Proof using All.
  destruct (targets_val o oob boot ts w yl WF HT) as (LW & LY & V). assert (Ls : length (seen_of w) = length w) by apply map_length.
  destruct (sym_gram (K_of ts) (mask_select (seen_of w) Gs) (mask_select (seen_of w) w) (mask_select (seen_of w) yl)) as [A B]; try (apply mask_len3; congruence).
  split; [exact A|]. intros i j Hi Hj. unfold S_of. rewrite B by auto.
  rewrite (sumto_ext _ _ (fun r => nth r (mask_select (seen_of w) w) 0 * (fun row _ => nth i row 0 * nth j row 0) (nth r (mask_select (seen_of w) Gs) []) (nth r (mask_select (seen_of w) yl) 0))) by (intros; ring).
  rewrite (program_sum (fun row _ => nth i row 0 * nth j row 0)). apply sumto_ext. intros q Hq. assert (N : nth_error ts q = Some (nth q ts no_tree)) by (apply nth_error_nth'; auto).
  apply sumto_ext. intros l Hl. destruct (VG q _ l N Hl) as [_ V1]. rewrite !V1 by auto. reflexivity.
Qed.
Lemma a_entry : length (a_of (K_of ts) Gs w yl) = K_of ts /\ forall i, (i < K_of ts)%nat -> nth i (a_of (K_of ts) Gs w yl) 0
  = sumto (length ts) (fun q => sumto (n_leaves (nth q ts no_tree)) (fun l => wt q l * (lmean o (nth q ts no_tree) l i * yt q l))).
Proof using All.
  destruct (targets_val o oob boot ts w yl WF HT) as (LW & LY & V). assert (Ls : length (seen_of w) = length w) by apply map_length.
  destruct (rhs_ent (K_of ts) (mask_select (seen_of w) Gs) (mask_select (seen_of w) w) (mask_select (seen_of w) yl)) as [A B]; try (apply mask_len3; congruence).
  split; [exact A|]. intros i Hi. unfold a_of. rewrite B by auto.
  rewrite (sumto_ext _ _ (fun r => nth r (mask_select (seen_of w) w) 0 * (fun row yv => nth i row 0 * yv) (nth r (mask_select (seen_of w) Gs) []) (nth r (mask_select (seen_of w) yl) 0))) by (intros; ring).
  rewrite (program_sum (fun row yv => nth i row 0 * yv)). apply sumto_ext. intros q Hq. assert (N : nth_error ts q = Some (nth q ts no_tree)) by (apply nth_error_nth'; auto).
  apply sumto_ext. intros l Hl. destruct (VG q _ l N Hl) as [_ V1]. rewrite !V1 by auto. reflexivity.
Qed.
End Program.

(* ---------------- order of the trees ---------------- *)
Section Order.
Variables (fuel : nat) (feps : R) (solve : bool -> mat R -> list R -> option (list R)) (check : mat R -> list R -> result bool).
Variables (o : all_opts R) (oob boot oob' boot' : nat -> list nat) (pi : nat -> nat) (ts ts' : list (tree R)).
Hypothesis WF : Forall wf_tree ts.
Hypothesis RO : trees_reordered pi ts ts'.
Hypothesis SB : forall q, (q < length ts)%nat -> oob' q = oob (pi q) /\ boot' q = boot (pi q).
Let n := length ts.
Lemma pi_lt : forall q, (q < n)%nat -> (pi q < n)%nat.
Proof using RO.
  intros q Hq. destruct RO as (_ & P & _). assert (In (pi q) (seq 0 n)) by (apply (Permutation_in _ P), in_map, in_seq; unfold n in *; lia). apply in_seq in H. lia.
Qed.
Lemma pi_onto : forall q, (q < n)%nat -> exists q', (q' < n)%nat /\ pi q' = q.
Proof using RO.
  intros q Hq. destruct RO as (_ & P & _). assert (In q (map pi (seq 0 n))) by (apply (Permutation_in _ (Permutation_sym P)), in_seq; unfold n in *; lia).
  apply in_map_iff in H. destruct H as (q' & E & H). apply in_seq in H. exists q'. split; [lia|auto].
Qed.
Lemma place : forall q t, nth_error ts' q = Some t <-> (q < n)%nat /\ nth_error ts (pi q) = Some t.
Proof using RO.
  intros q t. destruct RO as (L & _ & E). split.
  - intros H. assert (Hq : (q < n)%nat) by (unfold n; rewrite <- L; apply nth_error_Some; congruence). split; auto. rewrite <- E; auto.
  - intros [Hq H]. rewrite E; auto.
Qed.
Lemma place_nth : forall q, (q < n)%nat -> nth q ts' no_tree = nth (pi q) ts no_tree.
Proof using RO.
  intros q Hq. assert (N : nth_error ts (pi q) = Some (nth (pi q) ts no_tree)) by (apply nth_error_nth', pi_lt; auto).
  apply nth_error_nth, place. auto.
Qed.
Lemma in_both : forall t, In t ts' <-> In t ts.
Proof using RO.
  intros t. split; intros H; apply In_nth_error in H; destruct H as (q & N).
  - apply place in N. eapply nth_error_In. apply N.
  - assert (Hq : (q < n)%nat) by (apply nth_error_Some; unfold n; congruence). destruct (pi_onto q Hq) as (q' & Hq' & E). apply (nth_error_In _ q'). apply place. rewrite E. auto.
Qed.
Lemma WF' : Forall wf_tree ts'.
Proof using WF RO. rewrite Forall_forall in *. intros t H. apply WF, in_both. auto. Qed.
Lemma K_same : K_of ts' = K_of ts.
Proof using WF RO.
  assert (D : deepest ts' (snd (calc_depth_for_forest ts))).
  { destruct (deepest_ex ts WF) as [U A]. split; [intros t v d H; apply U; apply in_both; auto|]. destruct A as [[E Z]|(t & v & H & D)].
    - left. split; auto. destruct RO as (L & _). rewrite E in L. destruct ts'; [auto|discriminate].
    - right. exists t, v. split; auto. apply in_both; auto. }
  rewrite (deepest_K ts' _ WF' D). unfold K_of. lia.
Qed.
Lemma tuning_place : forall q, (q < n)%nat -> all_tuning o oob' boot' q = all_tuning o oob boot (pi q).
Proof using SB. intros q Hq. unfold all_tuning. destruct (SB q Hq) as [-> ->]. reflexivity. Qed.
Lemma attr_place : forall q t, (q < n)%nat -> attr_val o oob' boot' q t = attr_val o oob boot (pi q) t.
Proof using SB. intros q t Hq. unfold attr_val, tree_attr. rewrite tuning_place by auto. reflexivity. Qed.
Lemma tree_sum : forall F : nat -> tree R -> R, sumto (length ts') (fun q => F (pi q) (nth q ts' no_tree)) = sumto (length ts) (fun q => F q (nth q ts no_tree)).
Proof using RO.
  intros F. destruct RO as (L & P & _). rewrite L. rewrite (sumto_ext _ _ (fun q => (fun p => F p (nth p ts no_tree)) (pi q))).
  - apply (sumto_perm pi (length ts) (fun p => F p (nth p ts no_tree))). exact P.
  - intros q Hq. rewrite place_nth by auto. reflexivity.
Qed.
Lemma p_all_order : forall f lamb, smooth_all_with fuel feps solve check o oob boot ts = Ok (f, lamb) ->
  exists f', smooth_all_with fuel feps solve check o oob' boot' ts' = Ok (f', lamb) /\ trees_reordered pi f f'.
Proof using All.
  intros f lamb H. pose proof WF' as W'. pose proof K_same as KS.
  assert (LE : length (a_y o) = length (a_X o)). { unfold smooth_all_with in H. destruct (Nat.eqb_spec (length (a_y o)) (length (a_X o))); [auto|discriminate]. }
  destruct (all_leaf_targets o oob boot ts) as [[w yl]|] eqn:HT.
  2: { unfold smooth_all_with in H. rewrite LE, Nat.eqb_refl, HT in H. discriminate. }
  destruct (targets_val o oob boot ts w yl WF HT) as (LW & LY & V).
  destruct (targets_total o oob' boot' ts') as (w' & yl' & HT').
  { intros q t N. apply place in N. destruct N as [Hq N]. destruct (V _ _ N) as [(X & y & E1 & E2 & E3) _]. exists (X, y). split; [apply tuning_set_ok; rewrite tuning_place; auto|]. split; auto. }
  destruct (targets_val o oob' boot' ts' w' yl' W' HT') as (LW' & LY' & V').
  destruct (depth_mats Reg (a_parents_all o) Standard ts WF) as (G&E&Ti&HG&M). fold (K_of ts) in M. destruct G as [|G0 [|G9 ?]]; try (destruct M as [LG _]; discriminate LG).
  destruct (depth_mats Reg (a_parents_all o) Standard ts' W') as (G'&E'&Ti'&HG'&M'). fold (K_of ts') in M'. destruct G' as [|G0' [|G9 ?]]; try (destruct M' as [LG _]; discriminate LG).
  rewrite (all_unfold _ _ _ _ o _ _ _ _ _ _ _ _ LE HT HG) in H. rewrite (all_unfold _ _ _ _ o _ _ _ _ _ _ _ _ LE HT' HG'). cbn [concat] in *. rewrite app_nil_r in *.
  destruct (ratio_ok G0 E) eqn:RK; [|discriminate H]. cbn [negb] in H. cbv zeta in *.
  assert (RK' : ratio_ok G0' E' = true).
  { apply (ratio_iff o ts' G0' E' Ti' M'). intros q t i k N Hi Hk. apply place in N. destruct N as [Hq N]. eapply (proj1 (ratio_iff o ts G0 E Ti M) RK); eauto. rewrite <- KS. auto. }
  rewrite RK'. cbn [negb]. set (eps := ndiv n1 (nof (length (a_X o)))) in *. set (Gs := ratio_rows eps G0 E) in *. set (Gs' := ratio_rows eps G0' E').
  destruct (ratio_entry o ts G0 E Ti M eps RK) as [LG VG]. fold Gs in LG, VG. destruct (ratio_entry o ts' G0' E' Ti' M' eps RK') as [LG' VG']. fold Gs' in LG', VG'.
  destruct (S_entry o oob boot ts w yl Gs WF HT LG VG) as [SQ SE]. destruct (S_entry o oob' boot' ts' w' yl' Gs' W' HT' LG' VG') as [SQ' SE'].
  destruct (a_entry o oob boot ts w yl Gs WF HT LG VG) as [AL AE]. destruct (a_entry o oob' boot' ts' w' yl' Gs' W' HT' LG' VG') as [AL' AE'].
  assert (ES : S_of (K_of ts') Gs' w' = S_of (K_of ts) Gs w).
  { destruct SQ as [Q1 Q2]. destruct SQ' as [Q1' Q2']. apply (nth_ext _ _ [] []); [congruence|]. intros i Hi. rewrite Q1' in Hi. apply (nth_ext _ _ 0 0); [rewrite Q2', Q2; congruence|].
    intros j Hj. rewrite Q2' in Hj by auto. rewrite SE' by auto. rewrite SE by congruence.
    etransitivity; [|exact (tree_sum (fun q t => sumto (n_leaves t) (fun l => (let w := nth l (fst (attr_val o oob boot q t)) 0 in if negb (Reqb w (-(1))) then w else 0) * (lmean o t l i * lmean o t l j))))]. unfold wt, yt.
    apply sumto_ext. intros q Hq. destruct RO as (L & _). rewrite L in Hq. apply sumto_ext. intros l _. rewrite attr_place by auto. reflexivity. }
  assert (EA : a_of (K_of ts') Gs' w' yl' = a_of (K_of ts) Gs w yl).
  { apply (nth_ext _ _ 0 0); [congruence|]. intros i Hi. rewrite AL' in Hi. rewrite AE' by auto. rewrite AE by congruence.
    etransitivity; [|exact (tree_sum (fun q t => sumto (n_leaves t) (fun l => (let w := nth l (fst (attr_val o oob boot q t)) 0 in if negb (Reqb w (-(1))) then w else 0) * (lmean o t l i * nth l (snd (attr_val o oob boot q t)) 0))))]. unfold wt, yt.
    apply sumto_ext. intros q Hq. destruct RO as (L & _). rewrite L in Hq. apply sumto_ext. intros l _. rewrite attr_place by auto. reflexivity. }
  rewrite ES, EA. unfold all_rest in *. apply bind_ok in H. destruct H as (G1 & H1 & H). rewrite H1. cbn [bind].
  apply bind_ok in H. destruct H as ([G2 l0] & H2 & H). rewrite H2. cbn [bind]. cbv zeta in *. apply bind_ok in H. destruct H as (skip & H3 & H). rewrite H3. cbn [bind].
  destruct (_ && _)%bool; [discriminate H|]. apply bind_ok in H. destruct H as (f0 & H4 & H). injection H as <- <-.
  set (l1 := if a_sanity o then _ else _) in *. clearbody l1.
  assert (LY0 : length (map (fun v => [v]) (mv Gs l1)) = offset ts (length ts)) by (rewrite map_length, mv_length; auto).
  assert (LY0' : length (map (fun v => [v]) (mv Gs' l1)) = offset ts' (length ts')) by (rewrite map_length, mv_length; auto).
  destruct (write_forest_ok (map (fun v => [v]) (mv Gs l1)) ts 0 WF) as (f1 & E1 & L1 & P1); [lia|]. assert (f1 = f0) by congruence. subst f1.
  destruct (write_forest_ok (map (fun v => [v]) (mv Gs' l1)) ts' 0 W') as (f1 & E1' & L1' & P1'); [lia|]. rewrite E1'. cbn [bind]. exists f1. split; [reflexivity|].
  split; [destruct RO as (L & _); congruence|]. rewrite L1. split; [apply RO|]. intros q Hq.
  assert (N : nth_error ts (pi q) = Some (nth (pi q) ts no_tree)) by (apply nth_error_nth', pi_lt; auto). assert (N' : nth_error ts' q = Some (nth (pi q) ts no_tree)) by (apply place; auto).
  set (t := nth (pi q) ts no_tree) in *. destruct (P1 _ _ N) as (a & NA & SA & VA). destruct (P1' _ _ N') as (b & NB & SB' & VB). rewrite NA, NB. f_equal.
  assert (Wt : wf_tree t) by (eapply Forall_forall; eauto; eapply nth_error_In; eauto). apply (leaves_eq Reg t b a Wt SB' SA). intros i Hi.
  assert (EV : nth (leaf_id t i) (t_value b) [] = nth (leaf_id t i) (t_value a) []).
  { rewrite VA, VB by auto. cbn [Nat.add]. rewrite nth_map_in with (d := 0) by (rewrite mv_length, LG'; pose proof (offset_le ts' q t N'); lia).
    rewrite nth_map_in with (d := 0) by (rewrite mv_length, LG; pose proof (offset_le ts (pi q) t N); lia). rewrite !mv_nth. f_equal. f_equal.
    destruct (VG' q t i N' Hi) as [A1 A2]. destruct (VG (pi q) t i N Hi) as [B1 B2]. apply (nth_ext _ _ 0 0); [congruence|]. intros k Hk. rewrite A1 in Hk. rewrite A2 by auto. rewrite B2 by congruence. reflexivity. }
  assert (LV : length (nth (leaf_id t i) (t_value a) []) = 1%nat). { rewrite VA by auto. cbn [Nat.add]. rewrite nth_map_in with (d := 0) by (rewrite mv_length, LG; pose proof (offset_le ts (pi q) t N); lia). reflexivity. }
  rewrite EV. split; [exact LV|]. split; [exact LV|]. intros c Hc. unfold node_v. rewrite EV. reflexivity.
Qed.
End Order.
