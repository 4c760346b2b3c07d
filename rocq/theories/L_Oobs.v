(** L_Oobs: what smooth_clean sees of the observations. *)
From Verif Require Import Base TreeSpec Spec M_Tree M_Gamma M_Levels M_Prox M_Grad M_Sgd M_Smooth M_Clean SpecSmooth SpecTune SpecClean SpecOobs SpecRel
  L_Base L_Tree L_TreeModel L_TreeModel2 L_Dist L_Gamma L_Gamma2 L_Grad L_Levels L_Sgd L_Smooth L_Smooth2 L_Route L_Tune L_Clean L_Clean2 L_Clean3.
From Verif Require L_Rel L_Rel9.
From Coq Require Import Reals Lra Permutation.
Local Open Scope R_scope.

Section Same.
Variables (ts : list (tree R)) (pi : nat -> nat) (oob oob' : nat -> list nat) (X X' : mat R) (y y' : list R) (lf lf' : nat -> nat -> nat).
Variables (idx idx' : list (list nat)) (w w' : list R) (Gamma eta : mat R).
Hypothesis WF : Forall wf_tree ts.
Hypothesis NE : ts <> [].
Hypothesis NX : X <> [].
Hypothesis OR : oob_rows oob (length ts) (length X).
Hypothesis OR' : oob_rows oob' (length ts) (length X').
Hypothesis LV : leaves_of ts X lf.
Hypothesis LV' : leaves_of ts X' lf'.
Hypothesis EI : generate_oob_info ts oob X = Ok (idx, w).
Hypothesis EI' : generate_oob_info ts oob' X' = Ok (idx', w').
Hypothesis LG : length Gamma = offset ts (length ts).
Hypothesis LE : length eta = offset ts (length ts).
Hypothesis LY : length y = length X.
Hypothesis SO : same_oob ts pi oob oob' X X' y y'.

Notation n := (length X).
Notation nt := (length ts).

Lemma LX : length X' = n. Proof using All. apply SO. Qed.
Lemma NX' : X' <> []. Proof using All. intros E. apply NX. apply length_zero_iff_nil. rewrite <- LX, E. reflexivity. Qed.
Lemma LY' : length y' = length X'. Proof using All. destruct SO as (A&B&_). congruence. Qed.
Lemma pi_lt : forall o, (o < n)%nat -> (pi o < n)%nat.
Proof using All.
  destruct SO as (_&_&P&_). intros o Ho. assert (I : In (pi o) (seq 0 n)) by (eapply Permutation_in; [exact P|]; apply in_map, in_seq; lia). apply in_seq in I. lia.
Qed.
Lemma bag_same : forall o q, (o < n)%nat -> (q < nt)%nat -> out_of_bag oob' o q = out_of_bag oob (pi o) q.
Proof using All.
  destruct SO as (_&_&_&B&_). intros o q Ho Hq. specialize (B o q Ho Hq). unfold out_of_bag.
  destruct (in_dec Nat.eq_dec o (oob' q)) as [I1|N1], (in_dec Nat.eq_dec (pi o) (oob q)) as [I2|N2]; auto; exfalso; tauto.
Qed.
Lemma bag_in : forall oob o q, out_of_bag oob o q = true -> In o (oob q).
Proof. clear. intros oob o q H. unfold out_of_bag in H. destruct (in_dec Nat.eq_dec o (oob q)); [auto|discriminate]. Qed.
Lemma ever_same : forall o, (o < n)%nat -> ever oob' nt o = ever oob nt (pi o).
Proof using All.
  intros o Ho. unfold ever. pose proof (fun q => bag_same o q Ho) as B. 
  assert (G : forall l, (forall q, In q l -> (q < nt)%nat) -> existsb (out_of_bag oob' o) l = existsb (out_of_bag oob (pi o)) l).
  { induction l as [|a l IH]; intros H; cbn; auto. rewrite B by (apply H; left; auto). rewrite IH; auto. intros; apply H; right; auto. }
  apply G. intros q Hq. apply in_seq in Hq. lia.
Qed.
Lemma count_same : forall o, (o < n)%nat -> oob_count oob' nt o = oob_count oob nt (pi o).
Proof using All. intros o Ho. unfold oob_count, sum_sel. apply sumto_ext. intros q Hq. rewrite bag_same; auto. Qed.
Lemma leaf_same : forall o q, (o < n)%nat -> (q < nt)%nat -> out_of_bag oob (pi o) q = true -> lf' q o = lf q (pi o).
Proof using All.
  intros o q Ho Hq B. destruct (nth_error ts q) as [t|] eqn:E; [|apply nth_error_None in E; lia].
  assert (W : wf_tree t) by (eapply Forall_forall; eauto; eapply nth_error_In; eauto).
  destruct SO as (L&_&_&_&S&_). pose proof (LV q t (pi o) E (pi_lt o Ho)) as A. pose proof (S o q t _ Ho E (bag_in _ _ _ B) A) as A'.
  rewrite <- (leaf_number_val t _ _ W A'). symmetry. apply (leaf_number_val t _ _ W). apply (LV' q t o E). lia.
Qed.
Lemma row_same : forall o q, (o < n)%nat -> (q < nt)%nat -> out_of_bag oob (pi o) q = true -> leaf_row ts lf' q o = leaf_row ts lf q (pi o).
Proof using All. intros. unfold leaf_row. rewrite leaf_same; auto. Qed.
Lemma y_same : forall o, (o < n)%nat -> ever oob nt (pi o) = true -> nth o y' 0 = nth (pi o) y 0.
Proof using All. intros o Ho E. apply ever_iff in E. destruct E as (q&Hq&B). destruct SO as (_&_&_&_&_&S). apply (S o q Ho Hq). apply bag_in; auto. Qed.
Lemma mean_same : forall o v v', (o < n)%nat -> (forall q, (q < nt)%nat -> out_of_bag oob (pi o) q = true -> v' q = v q) ->
  oob_mean oob' nt o v' = oob_mean oob nt (pi o) v.
Proof using All.
  intros o v v' Ho H. unfold oob_mean. rewrite count_same by auto. f_equal. unfold sum_sel. apply sumto_ext. intros q Hq. rewrite bag_same by auto.
  destruct (out_of_bag oob (pi o) q) eqn:B; auto.
Qed.
Lemma pred_same : forall lamb o, (o < n)%nat -> pred ts oob' lf' Gamma eta lamb o = pred ts oob lf Gamma eta lamb (pi o).
Proof using All. intros lamb o Ho. unfold pred. apply mean_same; auto. intros q Hq B. cbn zeta. rewrite row_same by auto. reflexivity. Qed.

(** *** costs *)
Notation P := (cP idx w Gamma eta y).
Notation P' := (cP idx' w' Gamma eta y').
Lemma mse_same : forall lamb obs, (forall o, In o obs -> (o < n)%nat) ->
  oob_mse oob' nt obs y' (pred ts oob' lf' Gamma eta lamb) = oob_mse oob nt (map pi obs) y (pred ts oob lf Gamma eta lamb).
Proof using All.
  intros lamb obs OB. unfold oob_mse, n_ever. rewrite map_length. f_equal; apply sumto_ext; intros j Hj; rewrite nth_map_in with (d := 0%nat) by auto; cbn zeta;
    rewrite ever_same by (apply OB, nth_In; auto); [|reflexivity].
  destruct (ever oob nt (pi (nth j obs 0%nat))) eqn:E; auto. rewrite pred_same, y_same; auto; apply OB, nth_In; auto.
Qed.
Lemma part_same : forall lamb obs, (forall o, In o obs -> (o < n)%nat) -> part_cost P' lamb obs = part_cost P lamb (map pi obs).
Proof using All.
  intros lamb obs OB. destruct obs as [|o obs].
  - reflexivity.
  - rewrite (part_cost_val ts oob' X' lf' idx' w' Gamma eta y' WF NE OR' LV' EI' LG LE LY'); [|intros; rewrite LX; auto|discriminate].
    rewrite (part_cost_val ts oob X lf idx w Gamma eta y WF NE OR LV EI LG LE LY); [|intros a Ha; apply in_map_iff in Ha; destruct Ha as (b&<-&Hb); apply pi_lt; auto|discriminate].
    rewrite mse_same; auto.
Qed.
Lemma full_same : forall lamb, full_cost P' lamb = full_cost P lamb.
Proof using All.
  intros lamb.
  rewrite (full_cost_val ts oob' X' lf' idx' w' Gamma eta y' WF NE OR' LV' EI' LG LE LY' lamb NX').
  rewrite (full_cost_val ts oob X lf idx w Gamma eta y WF NE OR LV EI LG LE LY lamb NX).
  rewrite LX, mse_same by (intros o Ho; apply in_seq in Ho; lia). f_equal. destruct SO as (_&_&PM&_).
  unfold oob_mse, n_ever. rewrite map_length, seq_length.
  assert (G : forall f : nat -> R, sumto n (fun j => f (nth j (map pi (seq 0 n)) 0%nat)) = sumto n (fun j => f (nth j (seq 0 n) 0%nat))).
  { intros f. transitivity (sumto n (fun j => f (pi j))).
    - apply sumto_ext. intros j Hj. rewrite nth_map_in with (d := 0%nat) by (rewrite seq_length; auto). rewrite seq_nth by auto. reflexivity.
    - rewrite (L_Rel9.sumto_perm pi n f PM). apply sumto_ext. intros j Hj. rewrite seq_nth by auto. reflexivity. }
  f_equal.
  - exact (G (fun o => if ever oob nt o then (pred ts oob lf Gamma eta lamb o - nth o y 0) * (pred ts oob lf Gamma eta lamb o - nth o y 0) else 0)).
  - exact (G (fun o => if ever oob nt o then 1 else 0)).
Qed.

(** *** gradient *)
Lemma wv_same : forall o q, (o < n)%nat -> (q < nt)%nat -> wv w' nt o q = wv w nt (pi o) q.
Proof using All.
  intros o q Ho Hq. rewrite (wv_val ts oob' X' lf' idx' w' Gamma eta [o] WF NE OR' LV' EI' LG LE) by (auto; try (intros a [<-|[]]); rewrite ?LX; auto; discriminate).
  rewrite (wv_val ts oob X lf idx w Gamma eta [pi o] WF NE OR LV EI LG LE) by (auto using pi_lt; try (intros a [<-|[]]; apply pi_lt; auto); discriminate).
  rewrite bag_same, count_same by auto. reflexivity.
Qed.
Lemma grad_same : forall lamb obs, (forall o, In o obs -> (o < n)%nat) -> 
  calc_l2_grad lamb Gamma eta idx' w' obs y' = calc_l2_grad lamb Gamma eta idx w (map pi obs) y.
Proof using All.
  intros lamb obs OB. destruct obs as [|o0 ob]; [reflexivity|]. set (obs := o0 :: ob) in *. assert (NO : obs <> []) by discriminate. clearbody obs.
  assert (NO2 : map pi obs <> []) by (destruct obs; [congruence|discriminate]).
  assert (OB2 : forall o, In o (map pi obs) -> (o < n)%nat) by (intros a Ha; apply in_map_iff in Ha; destruct Ha as (b&<-&Hb); apply pi_lt; auto).
  assert (OB' : forall o, In o obs -> (o < length X')%nat) by (intros; rewrite LX; auto).
  destruct (info ts oob' X' lf' idx' w' Gamma eta obs WF NE OR' LV' EI' LG LE OB' NO) as (I1'&I2'&I3'&I4'&I5'&I6').
  destruct (info ts oob X lf idx w Gamma eta (map pi obs) WF NE OR LV EI LG LE OB2 NO2) as (I1&I2&I3&I4&I5&I6).
  assert (TP : (0 < nt)%nat) by (destruct ts; [congruence|cbn; lia]).
  assert (LGE : length Gamma = length eta) by lia.
  assert (OBi : forall o, In o obs -> (o < length idx')%nat) by (intros; rewrite I1'; auto).
  assert (OBj : forall o, In o (map pi obs) -> (o < length idx)%nat) by (intros; rewrite I1; auto).
  rewrite <- I1' in I2'. rewrite <- I1 in I2.
  destruct (y_oob_forest ts oob' X' lf' idx' w' Gamma eta obs WF NE OR' LV' EI' LG LE OB' NO lamb) as (yo'&ev'&E'&L1'&->&V').
  destruct (y_oob_forest ts oob X lf idx w Gamma eta (map pi obs) WF NE OR LV EI LG LE OB2 NO2 lamb) as (yo&ev&E&L1&->&V).
  destruct (y_oob_grad_val Gamma eta idx' w' nt (length idx') obs TP eq_refl I3' I2' LGE I6' OBi lamb NO) as (g'&E3'&L3'&V3').
  destruct (y_oob_grad_val Gamma eta idx w nt (length idx) (map pi obs) TP eq_refl I3 I2 LGE I6 OBj lamb NO2) as (g&E3&L3&V3).
  destruct (take_rows_val y' obs) as (yi'&E2'&L2'&V2'); [intros; rewrite LY'; auto|].
  destruct (take_rows_val y (map pi obs)) as (yi&E2&L2&V2); [intros; rewrite LY; auto|].
  rewrite map_length in L1, L2, L3. rewrite map_length in V, V2, V3.
  assert (EV : map (ever oob' nt) obs = map (ever oob nt) (map pi obs)) by (rewrite map_map; apply map_ext_in; intros a Ha; apply ever_same; auto).
  assert (EY : yo' = yo).
  { apply (nth_ext _ _ 0 0); [lia|]. intros j Hj. rewrite L1' in Hj. rewrite (V' j Hj), (V j Hj). cbn zeta. rewrite nth_map_in with (d := 0%nat) by auto.
    apply (pred_same lamb). apply OB, nth_In; auto. }
  assert (ZW : forall o q, (o < n)%nat -> (q < nt)%nat -> wv w nt o q <> 0 -> out_of_bag oob o q = true).
  { intros o q Ho Hq Z. unfold wv in Z. rewrite (I5 o q Ho Hq) in Z. destruct (out_of_bag oob o q); auto; exfalso; apply Z; reflexivity. }
  assert (EG : forall j k, (j < length obs)%nat -> (k < length lamb)%nat -> nth k (nth j g' []) 0 = nth k (nth j g []) 0).
  { intros j k Hj Hk. destruct (V3' j Hj) as [_ G']. destruct (V3 j Hj) as [_ G]. rewrite (G' k Hk), (G k Hk). rewrite nth_map_in with (d := 0%nat) by auto.
    set (o := nth j obs 0%nat). assert (Ho : (o < n)%nat) by (apply OB, nth_In; auto). pose proof (pi_lt o Ho) as Hp.
    assert (C : forall q, (q < nt)%nat -> wv w nt (pi o) q = 0 \/ nth q (nth o idx' []) 0%nat = nth q (nth (pi o) idx []) 0%nat).
    { intros q Hq. destruct (Req_EM_T (wv w nt (pi o) q) 0); auto. right. rewrite I4', I4 by (auto; rewrite LX; auto). apply row_same; auto. }
    f_equal; apply sumto_ext; intros q Hq; rewrite (wv_same o q Ho Hq); destruct (C q Hq) as [->|C1]; try ring; unfold gv, hv; rewrite C1; reflexivity. }
  assert (ZG : forall j k, (j < length obs)%nat -> (k < length lamb)%nat -> ever oob nt (pi (nth j obs 0%nat)) = false -> nth k (nth j g []) 0 = 0).
  { intros j k Hj Hk Z. destruct (V3 j Hj) as [_ G]. rewrite (G k Hk). rewrite nth_map_in with (d := 0%nat) by auto.
    assert (C : forall q, (q < nt)%nat -> wv w nt (pi (nth j obs 0%nat)) q = 0).
    { intros q Hq. destruct (Req_EM_T (wv w nt (pi (nth j obs 0%nat)) q) 0) as [e|N]; auto. exfalso. apply ZW in N; auto; [|apply pi_lt, OB, nth_In; auto].
      rewrite (ever_not oob nt _ Z q Hq) in N. discriminate. }
    rewrite !sumto_zero; try ring; intros q Hq; rewrite (C q Hq); ring. }
  unfold calc_l2_grad. rewrite E2', E2. cbn [bind]. rewrite E', E. cbn [bind]. rewrite E3', E3. cbn [bind]. f_equal.
  rewrite EV, EY. apply map_ext_in. intros k Hk. apply in_seq in Hk.
  rewrite !dot_sumto by (rewrite map2_length, col_length; lia). rewrite !map2_length, L1, L2, L2'. rewrite Nat.min_id. apply sumto_ext. intros j Hj.
  rewrite !nth_map2 with (da := 0) (db := 0) by lia. rewrite !col_nth. rewrite EG by lia.
  destruct (ever oob nt (pi (nth j obs 0%nat))) eqn:Z.
  - assert (nth j yi' 0 = nth j yi 0) as ->; auto. rewrite (V2' j 0 Hj), (V2 j 0 Hj). rewrite nth_map_in with (d := 0%nat) by auto. apply y_same; auto. apply OB, nth_In; auto.
  - rewrite (ZG j k Hj ltac:(lia) Z). rn. ring.
Qed.

(** *** descent *)
Lemma adam_ext : forall g g' l p iv, (forall x, g' x = g x) -> @adam_step R _ g' l p iv = adam_step g l p iv.
Proof. clear. intros g g' l p iv H. unfold adam_step. destruct iv, l; cbn [bind]; auto; rewrite H; reflexivity. Qed.
Lemma move_same : forall cons t ad lamb iv obs, (forall o, In o obs -> (o < n)%nat) -> clean_move cons t ad P' lamb iv obs = clean_move cons t ad P lamb iv (map pi obs).
Proof using All.
  intros cons t ad lamb iv obs OB. unfold clean_move. cbn [cP c_Gamma c_eta c_idx c_w c_y]. destruct ad as [p|].
  - rewrite (adam_ext (fun l => calc_l2_grad l Gamma eta idx w (map pi obs) y)); [reflexivity|]. intros. apply grad_same; auto.
  - rewrite grad_same by auto. reflexivity.
Qed.
Lemma sgd_same : forall init n_obs full t cons ad draws draws', same_draws pi n draws draws' ->
  stocastic_grad_descent_clean P' init n_obs full t cons ad draws' = stocastic_grad_descent_clean P init n_obs full t cons ad draws.
Proof using All.
  intros init n_obs full t cons ad draws draws' SD. unfold stocastic_grad_descent_clean. cbn [cP c_Gamma].
  destruct (negb _); [reflexivity|]. destruct (_ && _)%bool; [reflexivity|].
  assert (LI : length idx' = length idx).
  { destruct (oob_info_val ts oob X lf WF NE NX OR LV) as (a&b&E1&L1&_). destruct (oob_info_val ts oob' X' lf' WF NE NX' OR' LV') as (a'&b'&E1'&L1'&_).
    assert (a = idx) by congruence. assert (a' = idx') by congruence. subst. rewrite L1, L1'. apply LX. }
  match goal with |- bind ?a ?f = bind ?b ?f => assert (E : a = b); [|rewrite E; reflexivity] end.
  symmetry. apply L_Rel.rrel_eq. eapply L_Rel.foldM_rrel with (Rl := eq); [|apply L_Rel.Forall2_combine_seq; exact SD|reflexivity].
  intros st st' [s d] [s' d'] <- [Es Ed]. cbn [fst snd] in Es, Ed. subst s'. destruct Ed as [-> OB]. apply L_Rel.rrel_eq. unfold clean_step. cbn [cP c_idx]. rewrite LI.
  destruct (Nat.ltb _ _); [reflexivity|].
  match goal with |- bind ?a ?f = bind ?b ?g => assert (E : a = b) end.
  { destruct (Nat.eqb s 0); [|reflexivity]. destruct full; [rewrite full_same|rewrite part_same by auto]; reflexivity. }
  rewrite E. match goal with |- bind ?a ?f = bind ?b ?g => destruct b as [st0|]; cbn [bind]; [|reflexivity] end.
  rewrite move_same by auto. destruct (clean_move cons t ad P (cs_lamb st0) (cs_iv st0) (map pi d')) as [[l2 iv1]|]; cbn [bind]; [|reflexivity].
  destruct full; [rewrite full_same|rewrite part_same by auto]; reflexivity.
Qed.
End Same.

Lemma p_same_oob : forall ts (o : clean_opts R) X' y' pi oob oob' draws draws', Forall wf_tree ts -> ts <> [] -> k_X o <> [] -> length (k_y o) = length (k_X o) ->
  oob_rows oob (length ts) (length (k_X o)) -> oob_rows oob' (length ts) (length (k_X o)) ->
  same_oob ts pi oob oob' (k_X o) X' (k_y o) y' -> same_draws pi (length (k_X o)) draws draws' ->
  smooth_clean (Forest Reg ts) (clean_with o X' y') oob' draws' = smooth_clean (Forest Reg ts) o oob draws.
Proof.
  intros ts o X' y' pi oob oob' draws draws' W NE NX LY OR OR' SO SD. pose proof (proj1 SO) as LX. rewrite <- LX in OR'.
  unfold smooth_clean. change (clean_matrices (clean_with o X' y') ts) with (clean_matrices o ts).
  destruct (clean_matrices o ts) as [[[G E] Ti]|] eqn:HM; cbn [bind]; [|reflexivity].
  assert (NX' : X' <> []). { intros C. apply NX. apply length_zero_iff_nil. rewrite <- LX, C. reflexivity. }
  destruct (leaves_of_ex ts (k_X o) W) as (lf&LV). destruct (leaves_of_ex ts X' W) as (lf'&LV').
  destruct (oob_info_val ts oob (k_X o) lf W NE NX OR LV) as (idx&w&EI&_). destruct (oob_info_val ts oob' X' lf' W NE NX' OR' LV') as (idx'&w'&EI'&_).
  change (k_X (clean_with o X' y')) with X'. rewrite EI, EI'. cbn [bind]. rewrite LX.
  destruct (forest_matrices_mats Reg (as_smooth o) ts G E Ti W NE HM) as (K&sel&KP&M&_).
  destruct M as (LG&LE&_&LC&_). cbn in LG.
  assert (CG : concat G = nth 0 G []) by (destruct G as [|g0 [|]]; cbn in LG; try lia; cbn; apply app_nil_r).
  assert (LCG : length (concat G) = offset ts (length ts)) by (rewrite CG, <- LE; apply LC; cbn; lia).
  pose proof (sgd_same ts pi oob oob' (k_X o) X' (k_y o) y' lf lf' idx idx' w w' (concat G) E W NE NX OR OR' LV LV' EI EI' LCG LE LY SO) as SG. unfold cP in SG.
  cbv zeta. cbn [clean_with k_y k_no_constraint k_sanity k_t_fix k_all_obs k_use_full k_n_obs k_adam].
  change (clean_start (clean_with o X' y')) with (clean_start o). rewrite SG with (draws := draws) by auto. reflexivity.
Qed.

(** the observations in another order *)
Lemma p_oob_order : forall ts (o : clean_opts R) pi oob oob' draws, Forall wf_tree ts -> ts <> [] -> k_X o <> [] -> length (k_y o) = length (k_X o) ->
  oob_rows oob (length ts) (length (k_X o)) -> oob_rows oob' (length ts) (length (k_X o)) ->
  Permutation (map pi (seq 0 (length (k_X o)))) (seq 0 (length (k_X o))) ->
  (forall i q, (i < length (k_X o))%nat -> (q < length ts)%nat -> (In i (oob' q) <-> In (pi i) (oob q))) ->
  (forall d i, In d draws -> In i d -> (i < length (k_X o))%nat) ->
  smooth_clean (Forest Reg ts) (clean_with o (map (fun i => nth (pi i) (k_X o) []) (seq 0 (length (k_X o)))) (map (fun i => nth (pi i) (k_y o) 0) (seq 0 (length (k_X o))))) oob' draws
  = smooth_clean (Forest Reg ts) o oob (map (map pi) draws).
Proof.
  intros ts o pi oob oob' draws W NE NX LY OR OR' PP MO DR. apply p_same_oob with (pi := pi); auto.
  - split; [rewrite map_length; apply seq_length|]. split; [rewrite map_length, seq_length; auto|]. split; [auto|]. split; [auto|]. split.
    + intros i q t l Hi _ _ L. rewrite (nth_indep _ [] (nth (pi 0%nat) (k_X o) [])) by (rewrite map_length, seq_length; auto).
      rewrite (map_nth (fun i => nth (pi i) (k_X o) []) (seq 0 (length (k_X o))) 0%nat i), seq_nth by auto. exact L.
    + intros i q Hi _ _. rewrite (nth_indep _ 0 (nth (pi 0%nat) (k_y o) 0)) by (rewrite map_length, seq_length; auto).
      rewrite (map_nth (fun i => nth (pi i) (k_y o) 0) (seq 0 (length (k_X o))) 0%nat i), seq_nth by auto. reflexivity.
  - unfold same_draws. induction draws as [|d l IH]; constructor.
    + split; [reflexivity|]. intros i Hi. apply (DR d i); cbn; auto.
    + apply IH. intros d' i H K. apply (DR d' i); cbn; auto.
Qed.

(** observations no tree is tested on, and the order and multiplicity of the out-of-bag lists *)
Lemma p_oob_unused : forall ts (o : clean_opts R) X' y' oob oob' draws, Forall wf_tree ts -> ts <> [] -> k_X o <> [] -> length (k_y o) = length (k_X o) ->
  oob_rows oob (length ts) (length (k_X o)) -> length X' = length (k_X o) -> length y' = length (k_y o) ->
  (forall i q, (q < length ts)%nat -> (In i (oob' q) <-> In i (oob q))) ->
  (forall i q, (q < length ts)%nat -> In i (oob q) -> nth i X' [] = nth i (k_X o) [] /\ nth i y' 0 = nth i (k_y o) 0) ->
  (forall d i, In d draws -> In i d -> (i < length (k_X o))%nat) ->
  smooth_clean (Forest Reg ts) (clean_with o X' y') oob' draws = smooth_clean (Forest Reg ts) o oob draws.
Proof.
  intros ts o X' y' oob oob' draws W NE NX LY OR LX' LY' MO SM DR. apply p_same_oob with (pi := fun i => i); auto.
  - intros q i Hq Hi. apply (OR q); auto. apply MO; auto.
  - split; [auto|]. split; [auto|]. split; [rewrite map_id; apply Permutation_refl|]. split; [intros; apply MO; auto|]. split.
    + intros i q t l Hi Hq Ho L. assert (QL : (q < length ts)%nat) by (apply nth_error_Some; congruence). destruct (SM i q QL Ho) as (->&_). exact L.
    + intros i q Hi Hq Ho. apply (SM i q); auto.
  - unfold same_draws. induction draws as [|d l IH]; constructor.
    + split; [symmetry; apply map_id|]. intros i Hi. apply (DR d i); cbn; auto.
    + apply IH. intros d' i H K. apply (DR d' i); cbn; auto.
Qed.
