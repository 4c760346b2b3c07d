(** L_Null: lemmas behind C81. *)
From Coq Require Import Reals Lra Lia Permutation QArith Qround.
From Verif Require Import Base TreeSpec Spec M_Tree M_Gamma M_Levels M_Grad M_Smooth M_Level M_Null SpecSmooth SpecTune SpecLevel SpecNull.
From Verif Require Import L_Base L_Tree L_TreeModel L_Dist L_Gamma L_Gamma2 L_Sgd L_Grad L_Smooth L_Smooth2 L_Smooth3 L_Route L_Tune L_Level4 L_Level5 L_Level6 L_Level7 L_Level8 L_Level9.
Local Open Scope R_scope.

Lemma combo_snoc : forall C v a i, combo (C ++ [v]) a i = combo C a i + a (length C) * nth i v 0.
Proof.
  intros C v a i. unfold combo. rewrite app_length. cbn [length]. rewrite Nat.add_1_r. cbn [sumto]. f_equal.
  - apply sumto_ext. intros k Hk. rewrite app_nth1 by auto. reflexivity.
  - rewrite app_nth2, Nat.sub_diag by auto. reflexivity.
Qed.
Lemma combo_ext : forall C a b i, (forall k, (k < length C)%nat -> a k = b k) -> combo C a i = combo C b i.
Proof. intros C a b i H. apply sumto_ext. intros k Hk. rewrite H by auto. reflexivity. Qed.
Lemma combo_scal : forall C a c i, combo C (fun k => c * a k) i = c * combo C a i.
Proof. intros C a c i. unfold combo. rewrite <- sumto_scal. apply sumto_ext. intros. ring. Qed.

Lemma nsum_perm : forall l l' : list R, Permutation l l' -> nsum l = nsum l'.
Proof.
  assert (F : forall (l : list R) x, fold_left Rplus l x = x + fold_left Rplus l 0).
  { induction l as [|y l IH]; intros x; cbn [fold_left]; [ring|]. rewrite IH, (IH (0 + y)). ring. }
  assert (C : forall x (l : list R), nsum (x :: l) = x + nsum l).
  { intros x l. rewrite !nsum_sumto. cbn [length]. 
    assert (G : forall n, sumto (S n) (fun k => nth k (x :: l) 0) = x + sumto n (fun k => nth k l 0)).
    { induction n as [|n IH]; [cbn; ring|]. cbn [sumto] in *. rewrite IH. cbn [nth]. ring. }
    apply G. }
  induction 1 as [|x l l' _ IH|x y l|l1 l2 l3 _ IH1 _ IH2]; auto.
  - rewrite !C, IH. auto.
  - rewrite !C. ring.
  - congruence.
Qed.

(** combination of the columns taken at the places s, coefficients by place in C *)
Lemma combo_pick : forall C s b i, combo (map (fun k => nth k C []) s) (fun p => b (nth p s 0%nat)) i = nsum (map (fun k => b k * nth i (nth k C []) 0) s).
Proof.
  intros C s b i. unfold combo. rewrite nsum_sumto, !map_length. apply sumto_ext. intros p Hp.
  rewrite nth_map_in with (d := 0%nat) by auto. rewrite nth_map_in with (d := 0%nat) by auto. reflexivity.
Qed.
Lemma combo_all : forall C b i, combo C b i = nsum (map (fun k => b k * nth i (nth k C []) 0) (seq 0 (length C))).
Proof.
  intros C b i. unfold combo. rewrite nsum_sumto, map_length, seq_length. apply sumto_ext. intros k Hk.
  rewrite nth_map_seq by auto. cbn [Nat.add]. reflexivity.
Qed.
Lemma pick_range : forall (C C' : list (list R)), map (fun k => nth k (C ++ C') []) (seq 0 (length C)) = C.
Proof.
  intros C C'. apply (nth_eq_ext _ _ []); [rewrite map_length, seq_length; auto|]. intros k Hk. rewrite map_length, seq_length in Hk.
  rewrite nth_map_seq by auto. cbn [Nat.add]. apply app_nth1; auto.
Qed.
Lemma pick_all : forall C : list (list R), map (fun k => nth k C []) (seq 0 (length C)) = C.
Proof. intros C. pose proof (pick_range C []) as H. rewrite app_nil_r in H. exact H. Qed.

Section Rank.
Variables (m : nat) (N : list (list R)) (v : list R).
Hypothesis IN : indep m N.
Let r := length N.

Lemma rank_in : forall q, is_rank m (N ++ [v]) q -> generates m N v -> q = r.
Proof.
  intros q [(s&(ND&LT&IS)&LS) MX] (a&Ha).
  assert (r <= q)%nat.
  { rewrite <- (seq_length r 0). apply MX. split; [apply seq_NoDup|]. split.
    - intros k Hk. apply in_seq in Hk. rewrite app_length. unfold r in Hk. cbn. lia.
    - unfold r. rewrite pick_range. auto. }
  assert (q <= r \/ q = S r)%nat as [|Q]; [|lia|].
  { assert (length s <= length (seq 0 (S r)))%nat; [|rewrite seq_length in *; lia]. apply NoDup_incl_length; auto. intros k Hk. apply LT in Hk. rewrite app_length in Hk. cbn [length] in Hk. apply in_seq. unfold r. lia. }
  exfalso. assert (IC : incl s (seq 0 (S r))).
  { intros k Hk. apply LT in Hk. rewrite app_length in Hk. cbn [length] in Hk. apply in_seq. unfold r. lia. }
  assert (PM : Permutation s (seq 0 (S r))). { apply NoDup_Permutation_bis; auto. rewrite seq_length. lia. }
  set (b := fun k => if (k =? r)%nat then -1 else a k).
  assert (Z : forall p, (p < length s)%nat -> b (nth p s 0%nat) = 0).
  { intros p Hp. apply (IS (fun p => b (nth p s 0%nat))); [|rewrite map_length; auto]. intros i Hi. rewrite combo_pick.
    rewrite (nsum_perm _ _ (Permutation_map _ PM)). replace (S r) with (length (N ++ [v])) by (rewrite app_length; cbn; unfold r; lia).
    rewrite <- combo_all, combo_snoc, Ha by auto. fold r. unfold b at 2. rewrite Nat.eqb_refl.
    rewrite (combo_ext N b a). ring. intros k Hk. unfold b. destruct (Nat.eqb_spec k r); [unfold r in *; lia|auto]. }
  assert (Hr : In r s). { apply (Permutation_in _ (Permutation_sym PM)). apply in_seq. lia. }
  destruct (In_nth _ _ 0%nat Hr) as (p&Hp&E). specialize (Z p Hp). rewrite E in Z. unfold b in Z. rewrite Nat.eqb_refl in Z. lra.
Qed.

Lemma rank_out : forall q, is_rank m (N ++ [v]) q -> ~ generates m N v -> q <> r.
Proof.
  intros q [_ MX] NG. specialize (MX (seq 0 (S r))). rewrite seq_length in MX.
  assert (S r <= q)%nat; [|lia]. apply MX. split; [apply seq_NoDup|]. split.
  - intros k Hk. apply in_seq in Hk. rewrite app_length. cbn. unfold r in Hk. lia.
  - replace (S r) with (length (N ++ [v])) by (rewrite app_length; cbn; unfold r; lia).
    rewrite pick_all. intros a Ha.
    assert (Z : a r = 0).
    { destruct (Req_dec (a r) 0) as [|NZ]; auto. exfalso. apply NG. exists (fun k => - / a r * a k). intros i Hi. specialize (Ha i Hi). rewrite combo_snoc in Ha. fold r in Ha.
      rewrite combo_scal. replace (combo N a i) with (- (a r * nth i v 0)) by lra. field. auto. }
    intros k Hk. rewrite app_length in Hk. cbn [length] in Hk. destruct (Nat.eq_dec k r) as [->|Nk]; auto. apply (IN a); [|unfold r in Nk; lia].
    intros i Hi. specialize (Ha i Hi). rewrite combo_snoc in Ha. fold r in Ha. rewrite Z in Ha. lra.
Qed.
End Rank.

Lemma generated_sent : forall m G N v, null_basis m G N -> length v = m -> generates m N v -> sent_to_0 m G v.
Proof.
  intros m G N v (S0&_&_) L (a&Ha). split; auto. intros row Hr.
  rewrite (sumto_ext m _ (fun j => sumto (length N) (fun k => a k * (nth j row 0 * nth j (nth k N []) 0)))).
  - rewrite sumto_swap. rewrite (sumto_ext (length N) _ (fun _ => 0)); [rewrite sumto_const; ring|]. intros k Hk. rewrite sumto_scal.
    destruct (S0 (nth k N []) (nth_In _ _ Hk)) as [_ E]. rewrite E by auto. ring.
  - intros j Hj. rewrite Ha by auto. unfold combo. rewrite <- sumto_scal. apply sumto_ext. intros. ring.
Qed.
Lemma basis_singular : forall m G N, null_basis m G N -> (singular m G <-> (0 < length N)%nat).
Proof.
  intros m G N (S0&IN&GE). split.
  - intros (x&SX&i&Hi&NZ). destruct N as [|c N]; [|cbn; lia]. exfalso. apply NZ. destruct (GE x SX) as (a&Ha). rewrite Ha by auto. reflexivity.
  - intros L. exists (nth 0 N []). split; [apply S0, nth_In; auto|].
    destruct (List.Exists_dec (fun i => nth i (nth 0 N []) 0 <> 0) (seq 0 m)) as [E|E].
    { intros i. destruct (Req_EM_T (nth i (nth 0 N []) 0) 0); [right|left]; auto. }
    { apply Exists_exists in E. destruct E as (i&Hi&NZ). apply in_seq in Hi. exists i. split; auto. lia. }
    exfalso. assert (Z : (fun k => if (k =? 0)%nat then 1 else 0) 0%nat = 0); [|cbn in Z; lra].
    apply (IN (fun k => if (k =? 0)%nat then 1 else 0)); auto. intros i Hi. unfold combo. rewrite (sumto_single _ _ 0%nat); auto.
    + cbn [Nat.eqb]. rewrite Rmult_1_l. destruct (Req_dec (nth i (nth 0 N []) 0) 0) as [|NZ]; auto. exfalso. apply E. apply Exists_exists. exists i. split; auto. apply in_seq. lia.
    + intros k Hk Nk. destruct (Nat.eqb_spec k 0); [contradiction|]. ring.
Qed.

Section Check.
Variables (null_space : mat R -> list (list R)) (matrix_rank : option Q -> list (list R) -> nat) (m : nat) (G : mat R) (v : list R) (tol : option Q).
Hypothesis NB : null_basis m G (null_space G).
Hypothesis Lv : length v = m.

Lemma check_ok : tol_ok tol = true -> exists b, check_in_null null_space matrix_rank G v tol = Ok b.
Proof using NB Lv.
  intros T0. unfold check_in_null. rewrite T0. cbn [negb]. destruct (Nat.eqb_spec (length (null_space G)) 0) as [|NZ]; eauto.
  destruct NB as (S0&_&_). destruct (S0 (nth 0 (null_space G) [])) as [L0 _]; [apply nth_In; lia|]. rewrite Lv, L0, Nat.eqb_refl. cbn [negb]. eauto.
Qed.
Lemma p_C81_iff : forall b, is_rank m (null_space G ++ [v]) (matrix_rank tol (null_space G ++ [v])) ->
  check_in_null null_space matrix_rank G v tol = Ok b -> (b = true <-> sent_to_0 m G v /\ singular m G).
Proof using NB Lv.
  intros b RK H. unfold check_in_null in H. destruct (negb (tol_ok tol)); [discriminate|]. rewrite (basis_singular m G _ NB).
  destruct (Nat.eqb_spec (length (null_space G)) 0) as [Z|NZ].
  - injection H as <-. split; [discriminate|]. intros [_ P]. lia.
  - destruct (negb _); [discriminate|]. injection H as <-. rewrite Nat.eqb_eq. destruct NB as (S0&IN&GE). split.
    + intros E. split; [|lia]. apply (generated_sent m G _ v NB Lv).
      destruct (Classical_Prop.classic (generates m (null_space G) v)) as [|NG]; auto. exfalso. apply (rank_out m _ v IN _ RK NG E).
    + intros [SV _]. apply (rank_in m _ v IN _ RK). auto.
Qed.
Lemma p_C81_regular : tol_ok tol = true -> ~ singular m G -> check_in_null null_space matrix_rank G v tol = Ok false.
Proof using NB.
  clear Lv. intros T0 NS. unfold check_in_null. rewrite T0. cbn [negb]. rewrite (basis_singular m G _ NB) in NS. destruct (Nat.eqb_spec (length (null_space G)) 0); auto. lia.
Qed.
End Check.

Lemma pd_regular : forall m G, square m G -> pos_def m G -> ~ singular m G.
Proof.
  intros m G [LG RG] PD (x&(_&SX)&i&Hi&NZ). specialize (PD (fun k => nth k x 0) ltac:(eauto)). apply (Rlt_irrefl 0). eapply Rlt_le_trans; [exact PD|]. apply Req_le.
  unfold quad. rewrite (sumto_ext m _ (fun _ => 0)); [rewrite sumto_const; ring|]. intros a Ha. 
  rewrite (sumto_ext m _ (fun j => nth a x 0 * (nth j (nth a G []) 0 * nth j x 0))) by (intros; ring). rewrite sumto_scal, SX; [ring|]. apply nth_In. lia.
Qed.

Lemma p_C81_tol : forall (null_space : mat R -> list (list R)) matrix_rank m G v q, null_basis m G (null_space G) -> length v = m ->
  (check_in_null null_space matrix_rank G v (Some q) = Err ValueError <-> ~ exists k : nat, (q == inject_Z (Z.of_nat k))%Q) /\
  (forall e, check_in_null null_space matrix_rank G v (Some q) = Err e -> e = ValueError).
Proof.
  intros ns mr m G v q NB Lv.
  assert (T0 : tol_ok (Some q) = true <-> exists k : nat, (q == inject_Z (Z.of_nat k))%Q).
  { unfold tol_ok. rewrite andb_true_iff, Qle_bool_iff, Qeq_bool_iff. split.
    - intros [P E]. exists (Z.to_nat (Qfloor q)). rewrite Z2Nat.id; [symmetry; auto|]. apply Qfloor_resp_le in P. exact P.
    - intros [k E]. assert (F : Qfloor q = Z.of_nat k) by (rewrite (Qfloor_comp _ _ E); apply Qfloor_Z). split; [|rewrite F; symmetry; exact E].
      apply (Qle_trans _ (inject_Z (Z.of_nat k))); [change 0%Q with (inject_Z 0); rewrite <- Zle_Qle; lia|]. apply Qle_lteq. right. symmetry. exact E. }
  destruct (tol_ok (Some q)) eqn:TQ.
  - destruct (check_ok ns mr m G v (Some q) NB Lv TQ) as (b&E). rewrite E. split; [|discriminate]. split; [discriminate|]. intros NE. exfalso. apply NE, T0; auto.
  - unfold check_in_null. rewrite TQ. cbn [negb]. split; [|congruence]. split; auto. intros _ X. apply T0 in X. discriminate.
Qed.

(** in smooth_all *)
Lemma pd_lift : forall n G c G', lifted n G c G' -> 0 <= c -> pos_def n G -> pos_def n G'.
Proof.
  intros n G c G' LF C PD x NZ. rewrite (quad_lift n G c G' x LF). specialize (PD x NZ).
  assert (0 <= c * sumto n (fun i => x i * x i)); [|lra]. apply Rmult_le_pos; auto. apply sumto_nonneg. intros. apply Rle_0_sqr.
Qed.
Lemma symmetrise_ok : forall K (A : mat R), square K A -> square K (symmetrise A) /\ symmetric K (symmetrise A).
Proof.
  intros K A [L R1]. unfold symmetrise. rewrite L.
  assert (RW : forall i, (i < K)%nat -> nth i (map2 (map2 (fun a b => ndiv (nadd a b) (nadd n1 n1))) A (transpose 0 K A)) [] = map2 (fun a b => (a + b) / (1 + 1)) (nth i A []) (nth i (transpose 0 K A) [])).
  { intros i Hi. rewrite nth_map2 with (da := []) (db := []); [reflexivity|lia|rewrite transpose_length; auto]. }
  split.
  - split; [rewrite map2_length, transpose_length; lia|]. intros i Hi. rn. rewrite RW by auto. rewrite map2_length, transpose_row_length, R1, L by auto. lia.
  - intros i j Hi Hj. rn. rewrite !RW by auto. rewrite !nth_map2 with (da := 0) (db := 0) by (rewrite ?R1, ?transpose_row_length by auto; lia).
    rewrite !transpose_entry by (auto; lia). field.
Qed.
Lemma total_lift_nonneg : forall eps k, 0 <= eps -> 0 <= total_lift eps k.
Proof.
  intros eps [|k] P; unfold total_lift; [lra|]. apply Rmult_le_pos; [lra|]. apply pow_le. lra.
Qed.
Lemma lifted_sym : forall n G c G', lifted n G c G' -> symmetric n G -> symmetric n G'.
Proof. intros n G c G' [_ V] SY i j Hi Hj. rewrite !V, (SY i j), Nat.eqb_sym by auto. reflexivity. Qed.
Lemma til_psd_pd : forall K fuel eps G G1, square K G -> symmetric K G -> update_til_psd fuel eps G = Ok G1 -> square K G1 /\ pos_def K G1.
Proof.
  intros K fuel eps G G1 SQ SY HU. unfold update_til_psd in HU. destruct (allclose_sym G); [|discriminate]. cbn [negb] in HU. apply bind_ok in HU. destruct HU as ([G' []]&HU&E). assert (G' = G1) by congruence. subst G'.
  match type of HU with retry fuel ?at0 eps 0 G = _ => pose proof (retry_spec at0 eps G fuel 0) as RS end.
  unfold total_lift at 1 in RS. rewrite add_diag_0, HU in RS. destruct RS as (j&_&B&C&_). pose proof (add_diag_ok K (total_lift eps j) G SQ) as LF. rewrite <- B in LF.
  split; [apply LF|]. destruct (is_pos_def G1) eqn:P; [|discriminate]. pose proof (lifted_sym _ _ _ _ LF SY) as SY1.
  destruct LF as [SQ1 _]. apply (is_pos_def_gen K G1 SQ1) in P. destruct P as [_ P]. destruct (mirror_ok K G1) as (_&MY&ML).
  intros x NZ. specialize (P x NZ). replace (quad K G1 x) with (quad K (mirror K G1) x); auto. unfold quad. apply sumto_ext. intros i Hi. apply sumto_ext. intros k Hk.
  apply (f_equal2 Rmult); [apply (f_equal2 Rmult); auto|auto]. change (ent (mirror K G1) i k = ent G1 i k). destruct (Nat.le_ge_cases k i) as [Q|Q].
  - rewrite ML by auto. auto.
  - transitivity (ent (mirror K G1) k i); [apply MY; auto|]. rewrite ML by auto. apply SY1; auto.
Qed.

Lemma with_ext : forall fuel feps solve c1 c2 (o : all_opts R) oob boot ts,
  Forall wf_tree ts -> 0 <= feps ->
  (forall G a l, length a = K_of ts -> solve (a_no_constraint o) G a = Some l -> length l = K_of ts) ->
  (forall G v, square (K_of ts) G -> pos_def (K_of ts) G -> length v = K_of ts -> c1 G v = c2 G v) ->
  smooth_all_with fuel feps solve c1 o oob boot ts = smooth_all_with fuel feps solve c2 o oob boot ts.
Proof.
  intros fuel feps solve c1 c2 o oob boot ts WF FP SL CK. unfold smooth_all_with.
  destruct (negb (Nat.eqb (length (a_y o)) (length (a_X o)))); auto.
  destruct (all_leaf_targets o oob boot ts) as [[w yl]|e] eqn:HT; cbn [bind]; auto.
  destruct (depth_mats Reg (a_parents_all o) Standard ts WF) as (G&E&Ti&HG&M). rewrite HG. cbn [bind].
  destruct (ratio_ok (concat G) E); cbn [negb]; auto. cbv zeta.
  set (seen := map (fun x => negb (neqb x (nopp n1))) w).
  set (Gm := mask_select seen _). set (wm := mask_select seen w). set (ym := mask_select seen yl).
  fold (K_of ts). set (S0 := symmetrise (gram_w (K_of ts) Gm wm)). set (a := rhs_w (K_of ts) Gm wm ym).
  destruct (symmetrise_ok (K_of ts) (gram_w (K_of ts) Gm wm) (gram_square _ _ _)) as [SQ SY]. fold S0 in SQ, SY.
  destruct (update_til_psd fuel feps S0) as [G1|e] eqn:HU; cbn [bind]; auto. destruct (til_psd_pd _ _ _ _ _ SQ SY HU) as [SQ1 PD1].
  match goal with |- context [retry fuel ?at0 feps 0 G1] => pose proof (retry_spec at0 feps G1 fuel 0) as RS; destruct (retry fuel at0 feps 0 G1) as [[G2 l]|e] eqn:HR end; cbn [bind]; auto.
  unfold total_lift at 1 in RS. rewrite add_diag_0, HR in RS. destruct RS as (j&_&B&C&_). pose proof (add_diag_ok (K_of ts) (total_lift feps j) G1 SQ1) as LF. rewrite <- B in LF.
  assert (LL : length l = K_of ts). { apply SL in C; auto. unfold a, rhs_w. rewrite map_length, seq_length. auto. }
  rewrite (CK G2); auto.
  - apply LF.
  - apply (pd_lift _ _ _ _ LF); auto. apply total_lift_nonneg; auto.
  - rewrite map2_length, upd_length, repeat_length. lia.
Qed.
Lemma p_C81_smooth_all : forall fuel feps solve null_space matrix_rank in_null (o : all_opts R) oob boot ts tol, Forall wf_tree ts -> 0 <= feps ->
  (forall G a l, length a = K_of ts -> solve (a_no_constraint o) G a = Some l -> length l = K_of ts) ->
  (forall G, square (K_of ts) G -> pos_def (K_of ts) G -> null_basis (K_of ts) G (null_space G)) -> tol_ok tol = true ->
  (forall G v, square (K_of ts) G -> pos_def (K_of ts) G -> length v = K_of ts -> check_in_null null_space matrix_rank G v tol = Ok (in_null G v)) ->
  smooth_all fuel feps solve in_null o oob boot ts = smooth_all fuel feps solve (fun _ _ => false) o oob boot ts.
Proof.
  intros fuel feps solve ns mr in_null o oob boot ts tol WF FP SL NB TK CK. apply with_ext; auto.
  intros G v SQ PD LV. rewrite <- CK by auto. apply (p_C81_regular ns mr (K_of ts)); auto. apply pd_regular; auto.
Qed.
Lemma tol_nat : forall tol, (forall q, tol = Some q -> exists k : nat, (q == inject_Z (Z.of_nat k))%Q) -> tol_ok tol = true.
Proof.
  intros [q|] H; auto. destruct (H q eq_refl) as (k&E). unfold tol_ok. rewrite andb_true_iff, Qle_bool_iff, Qeq_bool_iff.
  assert (F : Qfloor q = Z.of_nat k) by (rewrite (Qfloor_comp _ _ E); apply Qfloor_Z). split; [|rewrite F; symmetry; exact E].
  apply (Qle_trans _ (inject_Z (Z.of_nat k))); [change 0%Q with (inject_Z 0); rewrite <- Zle_Qle; lia|]. apply Qle_lteq. right. symmetry. exact E.
Qed.
Lemma q_C81_smooth_all : forall fuel feps solve null_space matrix_rank in_null (o : all_opts R) oob boot ts D tol, Forall wf_tree ts -> deepest ts D -> 0 <= feps ->
  (forall G a l, length a = S D -> solve (a_no_constraint o) G a = Some l -> length l = S D) ->
  (forall q, tol = Some q -> exists k : nat, (q == inject_Z (Z.of_nat k))%Q) ->
  (forall G, square (S D) G -> pos_def (S D) G -> null_basis (S D) G (null_space G)) ->
  (forall G v, square (S D) G -> pos_def (S D) G -> length v = S D -> check_in_null null_space matrix_rank G v tol = Ok (in_null G v)) ->
  smooth_all fuel feps solve in_null o oob boot ts = smooth_all fuel feps solve (fun _ _ => false) o oob boot ts.
Proof.
  intros fuel feps solve ns mr in_null o oob boot ts D tol WF DP FP. rewrite <- (deepest_K ts D WF DP). intros SL TK NB CK.
  apply (p_C81_smooth_all fuel feps solve ns mr in_null o oob boot ts tol); auto. apply tol_nat; auto.
Qed.
Lemma q_C81_pd : forall null_space matrix_rank m G v tol, null_basis m G (null_space G) -> square m G -> pos_def m G ->
  (forall q, tol = Some q -> exists k : nat, (q == inject_Z (Z.of_nat k))%Q) -> check_in_null null_space matrix_rank G v tol = Ok false.
Proof. intros ns mr m G v tol NB SQ PD TK. apply (p_C81_regular ns mr m); auto. apply tol_nat; auto. apply pd_regular; auto. Qed.
Lemma q_C81_regular : forall null_space matrix_rank m G v, null_basis m G (null_space G) -> ~ singular m G -> check_in_null null_space matrix_rank G v None = Ok false.
Proof. intros. apply (p_C81_regular null_space matrix_rank m); auto. Qed.

(** the argument sanity_check *)
Lemma tol_whole : forall tol, tol_ok tol = true <-> whole tol.
Proof.
  intros tol. split; [|apply tol_nat]. intros H q ->. unfold tol_ok in H. rewrite andb_true_iff, Qle_bool_iff, Qeq_bool_iff in H. destruct H as [P E].
  exists (Z.to_nat (Qfloor q)). rewrite Z2Nat.id; [symmetry; auto|]. apply Qfloor_resp_le in P. exact P.
Qed.
Lemma p_C82_refused : forall fuel feps solve ns mr (o : all_opts R) sa oob boot ts, (forall b tol, ~ asks sa b tol) ->
  smooth_all_call fuel feps solve ns mr o sa oob boot ts = Err ValueError.
Proof.
  intros fuel feps solve ns mr o sa oob boot ts H. unfold smooth_all_call. destruct (negb _); auto.
  destruct sa as [b|[tol|] [[b|]|]|]; cbn [read_sanity bind]; auto; exfalso; eapply H; constructor.
Qed.
Lemma p_C82_same : forall fuel feps solve null_space matrix_rank (o : all_opts R) sa b tol oob boot ts D, Forall wf_tree ts -> deepest ts D -> 0 <= feps ->
  (forall G a l, length a = S D -> solve (a_no_constraint o) G a = Some l -> length l = S D) ->
  (forall G, square (S D) G -> pos_def (S D) G -> null_basis (S D) G (null_space G)) ->
  asks sa b tol -> whole tol ->
  smooth_all_call fuel feps solve null_space matrix_rank o sa oob boot ts = smooth_all fuel feps solve (fun _ _ => false) (with_sanity b o) oob boot ts.
Proof.
  intros fuel feps solve ns mr o sa b tol oob boot ts D WF DP FP. rewrite <- (deepest_K ts D WF DP). intros SL NB AS WH.
  unfold smooth_all_call, smooth_all. destruct (negb (length (a_y o) =? length (a_X o))%nat) eqn:LE.
  - unfold smooth_all_with. cbn [a_y a_X with_sanity]. rewrite LE. auto.
  - assert (RD : read_sanity sa = Ok (b, tol)) by (destruct AS; reflexivity). rewrite RD. cbn [bind].
    apply with_ext; auto. intros G v SQ PD LV. apply (p_C81_regular ns mr (K_of ts)); auto; [apply tol_whole; auto|apply pd_regular; auto].
Qed.

Lemma moved_iff : forall l : list R, existsb (fun d => nltb (npow (ndiv n1 (nof 10)) 7) (nabs d)) (map2 nsub l (upd (repeat n0 (length l)) 0 n1)) = true <-> moved l.
Proof.
  intros l. rewrite existsb_exists.
  assert (NN : forall k, (k < length l)%nat -> nth k (map2 nsub l (upd (repeat n0 (length l)) 0 n1)) 0 = nth k l 0 - (if (k =? 0)%nat then 1 else 0)).
  { intros k Hk. rewrite nth_map2 with (da := 0) (db := 0) by (rewrite ?upd_length, ?repeat_length; auto). rn. f_equal.
    rewrite unit_nth. destruct (Nat.eqb_spec k 0) as [->|]; cbn [andb]; auto. destruct (Nat.ltb_spec 0 (length l)); [reflexivity|lia]. }
  assert (LE : length (map2 nsub l (upd (repeat n0 (length l)) 0 n1)) = length l) by (rewrite map2_length, upd_length, repeat_length; lia).
  assert (TT : forall d, nltb (npow (ndiv n1 (nof 10)) 7) (nabs d) = true <-> (/ 10) ^ 7 < Rabs d).
  { intros d. rewrite nabs_R, npow_pow. rn. replace (1 / INR 10) with (/ 10) by (cbn; lra). destruct (Rltb_spec ((/ 10) ^ 7) (Rabs d)); split; auto; try discriminate; intros; exfalso; lra. }
  split.
  - intros (d&Hd&B). apply TT in B. destruct (In_nth _ _ 0 Hd) as (k&Hk&E). rewrite LE in Hk. exists k. split; auto. rewrite NN in E by auto. rewrite E. exact B.
  - intros (k&Hk&B). rewrite <- NN in B by auto. eexists. split; [apply nth_In; rewrite LE; exact Hk|]. apply TT. exact B.
Qed.
Lemma p_C82_bad_tol : forall fuel feps solve null_space matrix_rank (o : all_opts R) b q oob boot ts, ~ whole (Some q) ->
  let call := fun sa => smooth_all_call fuel feps solve null_space matrix_rank o sa oob boot ts in
  let bad := call (SDict (Some (Some q)) (Some (Some b))) in
  (forall f lamb, call (SBool false) = Ok (f, lamb) -> (moved lamb -> bad = Err ValueError) /\ (~ moved lamb -> bad = call (SBool b))) /\
  (forall e, call (SBool b) = Err e -> bad = Err e \/ bad = Err ValueError).
Proof.
  intros fuel feps solve ns mr o b q oob boot ts NW call bad.
  assert (BT : tol_ok (Some q) = false) by (destruct (tol_ok (Some q)) eqn:E; auto; exfalso; apply NW, tol_whole; auto).
  assert (CB : forall G v, check_in_null ns mr G v (Some q) = Err ValueError) by (intros; unfold check_in_null; rewrite BT; reflexivity).
  unfold bad, call, smooth_all_call. destruct (negb (length (a_y o) =? length (a_X o))%nat) eqn:LE; [split; [discriminate|auto]|].
  cbn [read_sanity bind]. unfold smooth_all_with. cbn [with_sanity a_y a_X a_no_constraint a_sanity a_parents_all a_inner_assess]. rewrite LE.
  change (all_leaf_targets (with_sanity b o) oob boot ts) with (all_leaf_targets (with_sanity false o) oob boot ts).
  destruct (all_leaf_targets (with_sanity false o) oob boot ts) as [[w yl]|e]; cbn [bind]; [|split; [discriminate|auto]].
  destruct (create_Gamma_eta_forest Reg (a_parents_all o) Standard ts) as [[[G3 Et] Ti]|e]; cbn [bind]; [|split; [discriminate|auto]].
  destruct (ratio_ok (concat G3) Et); cbn [negb]; [|split; [discriminate|auto]]. cbv zeta.
  match goal with |- context [update_til_psd fuel feps ?S0] => destruct (update_til_psd fuel feps S0) as [G1|e]; cbn [bind]; [|split; [discriminate|auto]] end.
  match goal with |- context [retry fuel ?at0 feps 0 G1] => destruct (retry fuel at0 feps 0 G1) as [[G2 l]|e]; cbn [bind]; [|split; [discriminate|auto]] end.
  rewrite CB. pose proof (moved_iff l) as MV.
  destruct (existsb _ _).
  - split; [|cbn [bind]; auto]. intros f lamb H. assert (LA : l = lamb).
    { apply bind_ok in H. destruct H as (sk&_&H). destruct (_ && _ && _)%bool in H; [discriminate|]. apply bind_ok in H. destruct H as (f'&_&H). congruence. }
    subst lamb. split; [reflexivity|]. intros NM. exfalso. apply NM, MV. auto.
  - cbn [bind negb andb]. split; [|auto]. intros f lamb H. assert (LA : l = lamb). { apply bind_ok in H. destruct H as (f'&_&H). congruence. }
    subst lamb. split; [|reflexivity]. intros NM. apply MV in NM. discriminate.
Qed.
