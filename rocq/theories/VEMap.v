(** VEMap.v -- max-product elimination and the MAP traceback. *)
From Verif Require Import Py Num BayesNet Factor SpecFactor Radix SumOver FactorMul FactorOut FactorMore FactorLaws Rounding Factorization SpecInference VE VEShape VETotal.
Open Scope nat_scope.

Lemma nn_prod cd fs a : nn cd fs -> vscope cd fs a -> (0 <= prodval fs a)%Qc.
Proof.
  intros N V. unfold prodval. apply qprod_nonneg. intros x Hx. apply in_map_iff in Hx as (f & <- & Hf).
  apply N; [assumption|]. intros w Hw. apply V. exists f. auto.
Qed.
Lemma max_values_nonneg cd v phi a : (0 <= max_values cd v phi a)%Qc.
Proof.
  unfold max_values. induction (map _ _) as [|x l IH]; simpl; [apply Qcle_refl|].
  eapply Qcle_trans; [exact IH|apply qmax_ge_r].
Qed.
Lemma relevant_scope rv fs : forall w, in_scopes (relevant_factors rv fs) w -> in_scopes fs w.
Proof. intros w (f & Hf & Hw). apply In_relevant in Hf. exists f. tauto. Qed.
Lemma irrelevant_scope rv fs : forall w, in_scopes (irrelevant_factors rv fs) w -> in_scopes fs w /\ w <> rv.
Proof. intros w (f & Hf & Hw). apply In_irrelevant in Hf. split; [exists f; tauto|]. intros ->. tauto. Qed.

Lemma max_elim_ok cd bn o z rv : good o -> fine cd bn (fz_phi z) -> nn cd (fz_phi z) -> in_scopes (fz_phi z) rv ->
  exists psi psi', fz_max_elim o z rv =
      Ok (mkFz (fz_bn z) (irrelevant_factors rv (fz_phi z) ++ [psi']) (dset (fz_map z) rv psi) (fz_asg z)) /\
    let fs' := irrelevant_factors rv (fz_phi z) ++ [psi'] in
    fine cd bn fs' /\ nn cd fs' /\
    (forall w, In w (f_scope psi') <-> in_scopes (relevant_factors rv (fz_phi z)) w /\ w <> rv) /\
    (forall w, in_scopes fs' w <-> in_scopes (fz_phi z) w /\ w <> rv) /\
    repr cd psi (prodval (relevant_factors rv (fz_phi z))) /\ f_bn psi = bn /\
    (forall w, In w (f_scope psi) <-> in_scopes (relevant_factors rv (fz_phi z)) w) /\
    (forall a, vscope cd fs' a -> prodval fs' a =
        (prodval (irrelevant_factors rv (fz_phi z)) a * max_values cd rv (prodval (relevant_factors rv (fz_phi z))) a)%Qc).
Proof.
  intros Go F N I. destruct (product_relevant_ok cd bn (sub o 0) rv _ (good_sub _ 0 Go) F I) as (h & E & R & B & S).
  assert (Hh : In rv (f_scope h)).
  { apply S. destruct I as (f & Hf & Hw). exists f. split; [now apply In_relevant|assumption]. }
  destruct (maxout_ok cd h _ rv R Hh) as (psi' & E' & R' & S' & B').
  exists h, psi'. unfold fz_max_elim. rewrite E. cbn [bind]. rewrite E'. cbn [bind]. split; [reflexivity|].
  cbv zeta. assert (ND : NoDup (f_scope h)) by apply R.
  split; [|split; [|split; [|split; [|split; [assumption|split; [assumption|split; [assumption|]]]]]]].
  - intros f Hf. apply in_app_or in Hf as [Hf|[<-|[]]].
    + apply In_irrelevant in Hf. now apply F.
    + split; [apply R'|congruence].
  - intros f a Hf V. apply in_app_or in Hf as [Hf|[<-|[]]].
    + apply In_irrelevant in Hf. apply N; tauto.
    + rewrite <- (repr_to_val cd psi' _ R' a V). apply max_values_nonneg.
  - intros w. rewrite S', In_remove1, S by assumption. reflexivity.
  - now apply (elim_scopes rv (fz_phi z) h psi').
  - intros a V. rewrite prodval_app. f_equal. unfold prodval at 1. cbn [map qprod fold_right].
    rewrite <- (repr_to_val cd psi' _ R' a).
    2:{ intros w Hw. apply V. apply in_scopes_app. right. exists psi'. simpl. auto. }
    ring.
Qed.

(** argmax *)
Lemma argmax_from_spec l : forall best bi i pre, nth_error pre bi = Some best -> length pre = i ->
  (forall j x, nth_error pre j = Some x -> (x <= best)%Qc) ->
  exists m, nth_error (pre ++ l) (argmax_from best bi i l) = Some m /\ (forall j x, nth_error (pre ++ l) j = Some x -> (x <= m)%Qc).
Proof.
  induction l as [|y r IH]; intros best bi i pre Hb Li Hm; simpl.
  - rewrite app_nil_r. exists best. auto.
  - replace (pre ++ y :: r) with ((pre ++ [y]) ++ r) by now rewrite <- app_assoc.
    assert (Lb : bi < length pre) by (apply nth_error_Some; congruence).
    destruct (qltb_spec best y) as [Q|Q].
    + apply IH.
      * rewrite nth_error_app2 by lia. rewrite Li, Nat.sub_diag. reflexivity.
      * rewrite app_length. simpl. lia.
      * intros j x Hj. destruct (Nat.lt_ge_cases j (length pre)) as [L|L].
        -- rewrite nth_error_app1 in Hj by assumption. apply Hm in Hj. qclra.
        -- rewrite nth_error_app2 in Hj by assumption. destruct (j - length pre) as [|[|k]]; simpl in Hj; inversion Hj; subst. apply Qcle_refl.
    + apply IH.
      * rewrite nth_error_app1 by lia. assumption.
      * rewrite app_length. simpl. lia.
      * intros j x Hj. destruct (Nat.lt_ge_cases j (length pre)) as [L|L].
        -- rewrite nth_error_app1 in Hj by assumption. now apply (Hm j).
        -- rewrite nth_error_app2 in Hj by assumption. destruct (j - length pre) as [|[|k]]; simpl in Hj; inversion Hj; subst. qclra.
Qed.
Lemma argmax_spec l : l <> [] -> exists i m, argmax l = Ok i /\ nth_error l i = Some m /\
  (forall j x, nth_error l j = Some x -> (x <= m)%Qc).
Proof.
  destruct l as [|y r]; [contradiction|]. intros _. simpl.
  destruct (argmax_from_spec r y 0 1 [y]) as (m & H1 & H2).
  - reflexivity.
  - reflexivity.
  - intros [|[|j]] x H; simpl in H; inversion H; subst. apply Qcle_refl.
  - exists (argmax_from y 0 1 r), m. split; [reflexivity|]. split; [exact H1|exact H2].
Qed.

(** conditioning a stored factor on the later nodes *)
Lemma reduce_later_ok bn asg later : forall o f phi, wfnet bn -> repr (ncard bn) f phi -> f_bn f = bn ->
  NoDup later ->
  (forall v, In v later -> exists x i, dget asg v = Some x /\ val_index bn v x = Some i) -> incl later (bn_V bn) ->
  exists f', reduce_later o asg later f = Ok f' /\
    repr (ncard bn) f' (fun a => phi (override a later (asg_of bn asg))) /\ f_bn f' = bn /\
    (forall w, In w (f_scope f') <-> In w (f_scope f) /\ ~ In w later).
Proof.
  induction later as [|nd r IH]; intros o f phi W R B ND Hv I.
  - exists f. split; [reflexivity|]. split; [exact R|]. split; [assumption|]. simpl. tauto.
  - inversion ND as [|? ? Hn Hr]; subst.
    destruct (Hv nd (or_introl eq_refl)) as (x & i & Hx & Hi).
    destruct (wn_F _ W nd (I nd (or_introl eq_refl))) as [d Hd].
    assert (Hi' : index_of x (f_values d) = Some i) by (unfold val_index, nvalues in Hi; now rewrite Hd in Hi).
    assert (Li : i < ncard (f_bn f) nd) by (unfold ncard; rewrite Hd; now apply index_of_lt in Hi').
    assert (Ea : asg_of (f_bn f) asg nd = i) by (unfold asg_of; now rewrite Hx, Hi).
    destruct (red_ok (ncard (f_bn f)) (sub o 0) f phi nd x i d R Hd Hi' Li) as (f1 & E1 & R1 & S1 & B1).
    destruct (IH (sub o 1) f1 _ W R1 B1 Hr) as (f' & E' & R' & B' & S').
    { intros v H. apply Hv. now right. } { intros v H. apply I. now right. }
    exists f'. cbn [reduce_later]. unfold red in E1.
    assert (EE : (if mem nd (f_scope f) then do v <- getitem asg nd ;; reduce_factor (sub o 0) f nd v else Ok f) = Ok f1).
    { unfold getitem. rewrite Hx. cbn [bind]. exact E1. }
    rewrite EE. cbn [bind]. split; [assumption|].
    assert (SS : forall w, In w (f_scope f') <-> In w (f_scope f) /\ ~ In w (nd :: r)).
    { intros w. rewrite S', S1. simpl. intuition congruence. }
    split; [|split; [congruence|assumption]].
    apply (repr_congr _ f' _ _ R'). intros a Va. apply (repr_ext _ f phi _ _ R).
    + intros w Hw. destruct (name_eqb_spec w nd) as [->|Ne]; [now rewrite upd_same|].
      rewrite upd_other by assumption. unfold override. destruct (mem_spec w r) as [M|M].
      * destruct (Hv w (or_intror M)) as (y & j & Hy & Hj). unfold asg_of. rewrite Hy, Hj.
        unfold val_index, nvalues in Hj. unfold ncard. destruct (dget (bn_F (f_bn f)) w); [now apply index_of_lt in Hj|discriminate].
      * apply Va, SS. split; [assumption|]. simpl. intuition congruence.
    + intros w _. unfold override, upd. simpl. destruct (name_eqb_spec w nd) as [->|Ne]; simpl; [congruence|reflexivity].
Qed.

Lemma max_values_const cd v phi a m : (0 <= m)%Qc -> (forall x, x < cd v -> (phi (upd a v x) <= m)%Qc) ->
  (exists x, x < cd v /\ phi (upd a v x) = m) -> max_values cd v phi a = m.
Proof.
  intros Hm Hle (x & Hx & Ex). unfold max_values. apply Qcle_antisym.
  - assert (G : forall l, (forall y, In y l -> y < cd v) -> (fold_right qmax 0 (map (fun x => phi (upd a v x)) l) <= m)%Qc).
    { induction l as [|y r IH]; intros H; simpl; [assumption|]. apply qmax_lub; [apply Hle, H; now left|]. apply IH. intros z Hz. apply H. now right. }
    apply G. intros y Hy. apply in_seq in Hy. lia.
  - assert (G : forall l, In x l -> (m <= fold_right qmax 0 (map (fun x => phi (upd a v x)) l))%Qc).
    { induction l as [|y r IH]; intros H; [destruct H|]. simpl. destruct H as [->|H].
      - rewrite <- Ex. apply qmax_ge_l.
      - eapply Qcle_trans; [apply IH, H|apply qmax_ge_r]. }
    apply G. apply in_seq. lia.
Qed.

Lemma dset_app_new {A} (d : dict A) k x : ~ In k (dkeys d) -> dset d k x = d ++ [(k, x)].
Proof.
  induction d as [|[q w] r IH]; intros H; simpl; [reflexivity|]. destruct (name_eqb_spec k q) as [->|Ne]; [exfalso; apply H; now left|].
  f_equal. apply IH. intros I. apply H. now right.
Qed.

Lemma map_elim_ok bn : wfnet bn -> forall order o z, good o -> fine (ncard bn) bn (fz_phi z) -> nn (ncard bn) (fz_phi z) ->
  NoDup order -> incl order (bn_V bn) -> (forall w, in_scopes (fz_phi z) w <-> In w order) ->
  (forall w, In w order -> ~ In w (dkeys (fz_map z))) ->
  exists z' items, elim_all fz_max_elim o z order = Ok z' /\ fz_map z' = fz_map z ++ items /\ fz_asg z' = fz_asg z /\
    dkeys items = order /\ fine (ncard bn) bn (fz_phi z') /\ (forall w, ~ in_scopes (fz_phi z') w) /\
    forall o2 asg0, exists asg', traceback o2 bn items asg0 = Ok asg' /\
      (forall k, ~ In k order -> dget asg' k = dget asg0 k) /\
      (forall v, In v order -> exists x i, dget asg' v = Some x /\ val_index bn v x = Some i) /\
      (forall b, valid (ncard bn) order b -> (prodval (fz_phi z) b <= prodval (fz_phi z) (asg_of bn asg'))%Qc) /\
      prodval (fz_phi z) (asg_of bn asg') = prodval (fz_phi z') (asg_of bn asg').
Proof.
  intros W order. induction order as [|v r IH]; intros o z Go F N ND Io S Nk.
  - exists z, []. simpl. rewrite app_nil_r. split; [reflexivity|]. split; [reflexivity|]. split; [reflexivity|]. split; [reflexivity|].
    split; [assumption|]. split; [intros w H; now apply S in H|].
    intros o2 asg0. exists asg0. split; [reflexivity|]. split; [reflexivity|]. split; [intros v []|]. split; [|reflexivity].
    intros b _. rewrite (prodval_scope _ b (asg_of bn asg0)); [apply Qcle_refl|]. intros w H. now apply S in H.
  - inversion ND as [|? ? Hn Hr]; subst.
    assert (Iv : in_scopes (fz_phi z) v) by (apply S; now left).
    destruct (max_elim_ok (ncard bn) bn (sub o 0) z v (good_sub _ 0 Go) F N Iv) as (psi & psi' & E & F1 & N1 & Sp' & S1 & Rp & Bp & Sp & P1).
    set (z1 := mkFz (fz_bn z) (irrelevant_factors v (fz_phi z) ++ [psi']) (dset (fz_map z) v psi) (fz_asg z)) in *.
    assert (S1' : forall w, in_scopes (fz_phi z1) w <-> In w r).
    { intros w. unfold z1. cbn [fz_phi]. rewrite S1, S. simpl. intuition congruence. }
    assert (NV : ~ In v (dkeys (fz_map z))) by (apply Nk; now left).
    destruct (IH (sub o 1) z1 (good_sub _ 1 Go) F1 N1 Hr) as (z' & items & E' & M' & A' & K' & F' & S' & T').
    { intros w Hw. apply Io. now right. } { assumption. }
    { intros w Hw. unfold z1. cbn [fz_map]. rewrite In_dkeys_dset. intros [->|H]; [contradiction|]. apply (Nk w); [now right|assumption]. }
    exists z', ((v, psi) :: items). cbn [elim_all]. rewrite E. cbn [bind]. split; [assumption|].
    split. { rewrite M'. unfold z1. cbn [fz_map]. rewrite dset_app_new by assumption. now rewrite <- app_assoc. }
    split; [assumption|]. split; [unfold dkeys in *; cbn [map fst]; now rewrite K'|]. split; [assumption|]. split; [assumption|].
    intros o2 asg0. destruct (T' (sub o2 0) asg0) as (asg' & ET & Tout & Tin & Tle & Teq).
    set (al := asg_of bn asg') in *.
    assert (Val : valid (ncard bn) r al).
    { intros w Hw. destruct (Tin w Hw) as (x & i & Hx & Hi). unfold al, asg_of. rewrite Hx, Hi.
      unfold val_index, nvalues in Hi. unfold ncard. destruct (dget (bn_F bn) w); [now apply index_of_lt in Hi|discriminate]. }
    destruct (reduce_later_ok bn asg' r (sub o2 1) psi _ W Rp Bp Hr Tin) as (f' & Ef & Rf & Bf & Sf).
    { intros w Hw. apply Io. now right. }
    assert (Hvp : In v (f_scope psi)).
    { apply Sp. destruct Iv as (f & Hf & Hw). exists f. split; [now apply In_relevant|assumption]. }
    assert (Sf' : forall w, In w (f_scope f') <-> w = v).
    { intros w. rewrite Sf. split.
      - intros [H1 H2]. apply Sp, relevant_scope, S in H1 as [->|H1]; [reflexivity|contradiction].
      - intros ->. auto. }
    set (RR := prodval (relevant_factors v (fz_phi z))) in *.
    assert (Vv : In v (bn_V bn)) by (apply Io; now left).
    assert (Pv : 0 < ncard bn v) by (apply (valid_zero bn W v Vv)).
    (* the table of the reduced factor *)
    assert (Cpt : f_cpt f' = map (fun x => RR (upd al v x)) (seq 0 (ncard bn v))).
    { rewrite (single_cpt (ncard bn) f' v (proj1 Rf) Sf'). apply map_ext_in. intros x Hx. apply in_seq in Hx.
      assert (V1 : valid (ncard bn) (f_scope f') (upd (fun _ => 0) v x)).
      { intros w Hw. apply Sf' in Hw as ->. rewrite upd_same. lia. }
      rewrite <- (repr_to_val _ f' _ Rf _ V1).
      unfold RR. apply prodval_scope. intros w Hw. apply relevant_scope, S in Hw.
      unfold override. fold al. destruct (mem_spec w r) as [M|M].
      - rewrite upd_other; [reflexivity|congruence].
      - destruct Hw as [->|Hw]; [now rewrite !upd_same|contradiction]. }
    assert (NE : f_cpt f' <> []).
    { rewrite Cpt. destruct (ncard bn v); [lia|discriminate]. }
    destruct (argmax_spec _ NE) as (i & m & Ea & Em & Emax).
    assert (Li : i < ncard bn v).
    { rewrite Cpt in Em. assert (L : i < length (map (fun x => RR (upd al v x)) (seq 0 (ncard bn v)))) by (apply nth_error_Some; congruence).
      now rewrite map_length, seq_length in L. }
    assert (nth_map : forall x, x < ncard bn v -> nth_error (f_cpt f') x = Some (RR (upd al v x))).
    { intros x Hx. rewrite Cpt. rewrite nth_error_map. rewrite (nth_error_nth' _ 0) by (now rewrite seq_length).
      rewrite seq_nth by assumption. reflexivity. }
    assert (Em' : m = RR (upd al v i)) by (rewrite (nth_map i Li) in Em; congruence).
    destruct (wn_F _ W v Vv) as [d Hd]. destruct (wn_vals _ W v Vv) as [NDvals _].
    unfold nvalues in NDvals. rewrite Hd in NDvals.
    assert (exists x, nth_error (f_values d) i = Some x) as [x Hx].
    { destruct (nth_error (f_values d) i) eqn:En; [eauto|]. apply nth_error_None in En. unfold ncard in Li. rewrite Hd in Li. lia. }
    exists (dset asg' v x). cbn [traceback]. rewrite ET. cbn [bind]. rewrite K'. rewrite Ef. cbn [bind].
    unfold bn_values, getitem. rewrite Hd. cbn [bind]. rewrite Ea. cbn [bind]. unfold nget. rewrite Hx. cbn [bind].
    split; [reflexivity|].
    assert (Iix : index_of x (f_values d) = Some i) by now apply index_of_nth.
    assert (Vix : val_index bn v x = Some i) by (unfold val_index, nvalues; now rewrite Hd).
    assert (Al2 : forall w, asg_of bn (dset asg' v x) w = upd al v i w).
    { intros w. unfold asg_of, al, upd, asg_of. rewrite dget_dset. destruct (name_eqb_spec w v) as [->|Ne]; [now rewrite Vix|reflexivity]. }
    split; [|split; [|split]].
    + intros k Hk. rewrite dget_dset. destruct (name_eqb_spec k v) as [->|Ne]; [exfalso; apply Hk; now left|]. apply Tout. intros H. apply Hk. now right.
    + intros w Hw. rewrite dget_dset. destruct (name_eqb_spec w v) as [->|Ne]; [eauto|]. destruct Hw as [Hw|Hw]; [congruence|]. now apply Tin.
    + (* optimality *)
      assert (Vup : vscope (ncard bn) (fz_phi z) (upd al v i)).
      { intros w Hw. apply S in Hw. destruct (name_eqb_spec w v) as [->|Ne]; [now rewrite upd_same|]. rewrite upd_other by assumption.
        destruct Hw as [Hw|Hw]; [congruence|now apply Val]. }
      assert (Hmax : max_values (ncard bn) v RR al = RR (upd al v i)).
      { apply max_values_const.
        - apply (nn_prod (ncard bn)); [intros f a Hf; apply In_relevant in Hf; now apply N|].
          intros w Hw. apply Vup. now apply relevant_scope in Hw.
        - intros y Hy. rewrite <- Em'. apply (Emax y). now apply nth_map.
        - exists i. auto. }
      assert (Eq : prodval (fz_phi z) (upd al v i) = prodval (fz_phi z1) al).
      { unfold z1. cbn [fz_phi]. rewrite P1 by (intros w Hw; apply S1' in Hw; now apply Val).
        rewrite (prodval_split v (fz_phi z)), irrelevant_upd. fold RR. now rewrite Hmax. }
      intros b Vb. rewrite (prodval_ext (fz_phi z) (asg_of bn (dset asg' v x)) (upd al v i) Al2), Eq.
      apply Qcle_trans with (prodval (fz_phi z1) b); [|apply Tle; intros w Hw; apply Vb; now right].
      unfold z1. cbn [fz_phi]. rewrite P1 by (intros w Hw; apply S1' in Hw; apply Vb; now right).
      rewrite (prodval_split v (fz_phi z) b).
      assert (0 <= prodval (irrelevant_factors v (fz_phi z)) b)%Qc.
      { apply (nn_prod (ncard bn)); [intros f a Hf; apply In_irrelevant in Hf; now apply N|].
        intros w Hw. apply irrelevant_scope in Hw as [Hw _]. apply Vb, S. assumption. }
      assert (RR b <= max_values (ncard bn) v RR b)%Qc.
      { assert (RR b = RR (upd b v (b v))) as -> by (unfold RR; apply prodval_ext; intros w; symmetry; apply upd_id).
        apply (max_values_spec (ncard bn) v RR b Pv); [|apply Vb; now left].
        intros y Hy. apply (nn_prod (ncard bn)); [intros f a Hf; apply In_relevant in Hf; now apply N|].
        intros w Hw. apply relevant_scope, S in Hw. destruct (name_eqb_spec w v) as [->|Ne]; [now rewrite upd_same|].
        rewrite upd_other by assumption. now apply Vb. }
      fold RR. rewrite !(Qcmult_comm (prodval (irrelevant_factors v (fz_phi z)) b)). now apply Qcmult_le_compat_r.
    + rewrite (prodval_ext (fz_phi z) (asg_of bn (dset asg' v x)) (upd al v i) Al2).
      assert (Hmax : max_values (ncard bn) v RR al = RR (upd al v i)).
      { apply max_values_const.
        - apply (nn_prod (ncard bn)); [intros f a Hf; apply In_relevant in Hf; now apply N|].
          intros w Hw. apply relevant_scope, S in Hw. destruct (name_eqb_spec w v) as [->|Ne]; [now rewrite upd_same|].
          rewrite upd_other by assumption. destruct Hw as [Hw|Hw]; [congruence|now apply Val].
        - intros y Hy. rewrite <- Em'. apply (Emax y). now apply nth_map.
        - exists i. auto. }
      transitivity (prodval (fz_phi z1) al).
      { unfold z1. cbn [fz_phi]. rewrite P1 by (intros w Hw; apply S1' in Hw; now apply Val).
        rewrite (prodval_split v (fz_phi z)), irrelevant_upd. fold RR. now rewrite Hmax. }
      rewrite Teq. apply prodval_scope. intros w Hw. now apply S' in Hw.
Qed.

(** evidence written over an agreeing assignment changes nothing *)
Lemma setev_agrees bn ev b : good_evidence bn ev -> agrees bn ev b = true -> forall w, setev bn ev b w = b w.
Proof.
  intros GE A w. destruct (in_dec name_eq_dec w (map fst ev)) as [K|K]; [|now apply setev_other].
  apply in_map_iff in K as ([q u] & <- & Hq). cbn [fst]. rewrite (setev_in bn ev b q u (proj1 GE) Hq).
  unfold agrees in A. rewrite forallb_forall in A. specialize (A _ Hq). cbn [fst snd] in A.
  unfold eidx. cbn [fst snd]. destruct (val_index bn q u); [|discriminate]. apply Nat.eqb_eq in A. congruence.
Qed.

Lemma fz_init_nn bn fs : wfnet bn -> nonneg_net bn -> mapM (factor_init bn) (bn_V bn) = Ok fs -> nn (ncard bn) fs.
Proof.
  intros W N E f a Hf V. apply mapM_inv in E.
  destruct (Forall2_In_r _ _ _ _ E Hf) as (v & Hv & Ev).
  destruct (init_ok bn v W Hv) as (f0 & E0 & S & _ & _ & _ & _ & R). rewrite Ev in E0. inversion E0; subst f0.
  rewrite <- (repr_to_val _ f _ R a V). now apply cond_prob_nonneg.
Qed.

Lemma max_elim_groups bn fixed evk order : forall o z gs elim, good o -> fine (ncard bn) bn (fz_phi z) -> nn (ncard bn) (fz_phi z) ->
  ginv bn fixed evk elim (fz_phi z) gs -> NoDup order ->
  (forall v, In v order -> in_scopes (fz_phi z) v /\ ~ In v fixed /\ ~ In v (evk ++ elim)) ->
  forall z', elim_all fz_max_elim o z order = Ok z' -> exists gs', ginv bn fixed evk (elim ++ order) (fz_phi z') gs'.
Proof.
  induction order as [|v r IH]; intros o z gs elim Go F N G ND I z' E.
  - simpl in E. inversion E; subst. rewrite app_nil_r. eauto.
  - inversion ND as [|? ? Hn Hr]; subst. destruct (I v (or_introl eq_refl)) as (Iv & Nf & Ng).
    destruct (max_elim_ok (ncard bn) bn (sub o 0) z v (good_sub _ 0 Go) F N Iv) as (psi & psi' & E1 & F1 & N1 & Sp & S1 & _).
    cbn [elim_all] in E. rewrite E1 in E. cbn [bind] in E.
    replace (elim ++ v :: r) with ((elim ++ [v]) ++ r) by now rewrite <- app_assoc.
    eapply (IH (sub o 1) (mkFz (fz_bn z) (irrelevant_factors v (fz_phi z) ++ [psi']) (dset (fz_map z) v psi) (fz_asg z)));
      [exact (good_sub _ 1 Go)|exact F1|exact N1|cbn [fz_phi]; eapply ginv_step; eassumption|assumption| |exact E].
    intros w Hw. destruct (I w (or_intror Hw)) as (Iw & Nfw & Ngw). cbn [fz_phi]. split; [apply S1; split; [assumption|congruence]|].
    split; [assumption|]. rewrite app_assoc, in_app_iff. simpl. intuition congruence.
Qed.

Lemma map_run_ok bn ev o : wfnet bn -> nonneg_net bn -> good_evidence bn ev -> good o ->
  exists z' m, map_run o bn ev = Ok (z', m) /\
    (forall k, In k (dkeys m) <-> In k (bn_V bn)) /\
    (forall v, In v (bn_V bn) -> exists x i, dget m v = Some x /\ val_index bn v x = Some i) /\
    (forall E e, In (E, e) ev -> dget m E = Some e) /\
    (forall b, valid (ncard bn) (bn_V bn) b -> agrees bn ev b = true -> (joint bn b <= joint bn (asg_of bn m))%Qc) /\
    fine (ncard bn) bn (fz_phi z') /\ (forall w, ~ in_scopes (fz_phi z') w) /\
    prodval (fz_phi z') (asg_of bn m) = joint bn (asg_of bn m) /\
    (bn_V bn <> [] -> fz_phi z' <> [] /\ (length (fz_phi z') = 1 <-> connected bn (map fst ev))).
Proof.
  intros W NN GE Go. destruct (fz_init_ok bn W) as (fs & E0 & F & S0 & S & P).
  assert (N0 : nn (ncard bn) fs).
  { apply (fz_init_nn bn fs W NN). unfold fz_init, bn_nodes in E0. apply bind_Ok in E0 as (fs' & E1 & E2). inversion E2; subst. assumption. }
  set (z := mkFz bn fs [] []) in *.
  assert (NDV : NoDup (bn_V bn)) by apply W.
  assert (I1 : incl (map fst ev) (bn_V bn)).
  { intros w Hw. apply in_map_iff in Hw as ([q u] & <- & Hq). now apply (proj2 GE) in Hq. }
  destruct (apply_evidence_ok bn ev W (sub o 0) z (bn_V bn) GE F NDV I1) as (z1 & E1 & M1 & B1 & F1 & S1 & A1 & N1 & P1).
  specialize (N1 N0). pose proof (Forall2_scopes_ev _ _ _ S1) as SS1.
  set (order := minus (bn_V bn) (map fst ev)) in *.
  assert (NDo : NoDup order) by now apply NoDup_minus.
  assert (Ho : forall w, In w order <-> In w (bn_V bn) /\ ~ In w (map fst ev)).
  { intros w. unfold order. now rewrite In_minus. }
  assert (Io : incl order (bn_V bn)) by (intros w Hw; apply Ho in Hw; tauto).
  assert (So : forall w, in_scopes (fz_phi z1) w <-> In w order).
  { intros w. rewrite SS1, Ho. unfold z. cbn [fz_phi]. now rewrite S. }
  destruct (map_elim_ok bn W order (sub o 1) z1 (good_sub _ 1 Go) F1 N1 NDo Io So) as (z' & items & E2 & M2 & A2 & K2 & F2 & S2 & T2).
  { intros w _. rewrite M1. simpl. tauto. }
  destruct (T2 (sub o 2) (fz_asg z1)) as (m & ET & Tout & Tin & Tle & Teq).
  assert (Mi : fz_map z' = items) by (rewrite M2, M1; reflexivity).
  exists z', m. split.
  { unfold map_run. rewrite E0. cbn [bind]. unfold bn_nodes. rewrite E1. cbn [bind fst snd]. rewrite E2. cbn [bind].
    rewrite Mi, A2, ET. reflexivity. }
  assert (EV : forall E e, In (E, e) ev -> dget m E = Some e).
  { intros E e H. rewrite Tout.
    - rewrite A1. assert (dget ev E = Some e) as ->; [|reflexivity]. destruct GE as [NDk _]. clear - H NDk.
      induction ev as [|[q u] r IH]; [destruct H|]. simpl in *. inversion NDk; subst. destruct H as [H|H].
      + inversion H; subst. now rewrite name_eqb_refl.
      + destruct (name_eqb_spec E q) as [->|Ne]; [|auto]. exfalso. apply H2. apply in_map_iff. exists (q, e). auto.
    - rewrite Ho. intros [_ K]. apply K. apply in_map_iff. exists (E, e). auto. }
  assert (VI : forall v, In v (bn_V bn) -> exists x i, dget m v = Some x /\ val_index bn v x = Some i).
  { intros v Hv. destruct (in_dec name_eq_dec v (map fst ev)) as [K|K]; [|apply Tin; apply Ho; auto].
    apply in_map_iff in K as ([q u] & Eq & Hq). cbn [fst] in Eq. subst q. exists u, (eidx bn (v, u)). split; [now apply EV|].
    destruct (good_evidence_idx bn ev v u W GE Hq) as (d & Hd & Hx & _). unfold val_index, nvalues. now rewrite Hd. }
  split; [|split; [exact VI|split; [exact EV|]]].
  { intros k. rewrite <- dget_In. split.
    - intros H. destruct (in_dec name_eq_dec k order) as [I|I]; [now apply Io|].
      rewrite Tout in H by assumption. rewrite A1 in H. destruct (dget ev k) eqn:Ek; [|unfold z in H; cbn in H; congruence].
      apply I1. apply dget_Some_In in Ek. exact Ek.
    - intros H. destruct (VI k H) as (x & i & Hx & _). congruence. }
  assert (Va : valid (ncard bn) (bn_V bn) (asg_of bn m)).
  { intros v Hv. destruct (VI v Hv) as (x & i & Hx & Hi). unfold asg_of. rewrite Hx, Hi.
    unfold val_index, nvalues in Hi. unfold ncard. destruct (dget (bn_F bn) v); [now apply index_of_lt in Hi|discriminate]. }
  assert (Ag : agrees bn ev (asg_of bn m) = true).
  { unfold agrees. apply forallb_forall. intros [E e] H. cbn [fst snd].
    destruct (good_evidence_idx bn ev E e W GE H) as (d & Hd & Hx & _). unfold val_index, nvalues. rewrite Hd, Hx.
    unfold asg_of. rewrite (EV E e H). unfold val_index, nvalues. rewrite Hd, Hx. apply Nat.eqb_refl. }
  assert (J : forall b, valid (ncard bn) (bn_V bn) b -> agrees bn ev b = true -> prodval (fz_phi z1) b = joint bn b).
  { intros b Vb Ab. rewrite P1.
    - unfold z. cbn [fz_phi]. rewrite (prodval_ext fs _ b (setev_agrees bn ev b GE Ab)). now apply P.
    - intros w Hw. apply So, Io in Hw. now apply Vb. }
  split; [|split; [assumption|split; [assumption|split]]].
  - intros b Vb Ab. rewrite <- (J b Vb Ab), <- (J _ Va Ag). apply Tle. intros w Hw. apply Vb. now apply Io.
  - rewrite <- Teq. now apply J.
  - intros NE. pose proof (evidence_scopes bn fs (fz_phi z1) (map fst ev) S0 S1) as SE.
    destruct (max_elim_groups bn (map fst ev) (map fst ev) order (sub o 1) z1 _ [] (good_sub _ 1 Go) F1 N1
             (ginv_init bn (fz_phi z1) (map fst ev) (map fst ev) SE) NDo) with (z' := z') as (gs' & G').
    { intros v Hv. split; [now apply So|]. apply Ho in Hv as [H1 H2]. rewrite app_nil_r. auto. }
    { assumption. }
    split. { intros Z. pose proof (gi_cov _ _ _ _ _ _ G') as C. rewrite Z in C. inversion C; subst.
             pose proof (gi_perm _ _ _ _ _ _ G') as Pm. apply Permutation_nil in Pm. contradiction. }
    apply (groups_one bn (map fst ev) (map fst ev) _ _ gs' G'); [assumption|assumption|].
    intros u x Hu [<-|Hx] Hnx; simpl; apply Ho; (split; [|assumption]); [assumption|now apply (wn_par _ W u Hu)].
Qed.

(** the single remaining constant *)
Lemma scalar_cpt cd f a : wf cd f -> (forall w, ~ In w (f_scope f)) -> f_cpt f = [val f a].
Proof.
  intros Wf S. assert (Es : f_scope f = []) by (destruct (f_scope f) as [|y r]; [reflexivity|]; exfalso; apply (S y); now left).
  pose proof (wf_len _ _ Wf) as L. rewrite Es in L. simpl in L. unfold val, lookup, offset. rewrite Es. simpl.
  destruct (f_cpt f) as [|x [|y r]]; try discriminate. reflexivity.
Qed.

Lemma ve_map_prob_result bn ev o : wfnet bn -> nonneg_net bn -> good_evidence bn ev -> good o -> bn_V bn <> [] ->
  (connected bn (map fst ev) /\ exists m, ve_map o bn ev = Ok m /\
     ve_map_prob o bn ev = Ok (py_round 5 (joint bn (asg_of bn m)), m)) \/
  (~ connected bn (map fst ev) /\ ve_map_prob o bn ev = Raise NameError).
Proof.
  intros W NN GE Go NE. destruct (map_run_ok bn ev o W NN GE Go) as (z' & m & E & _ & _ & _ & _ & F & S & P & L).
  destruct (L NE) as [NEz L']. clear L. rename L' into L. unfold ve_map_prob, ve_map. rewrite E. cbn [bind fst snd].
  destruct (fz_phi z') as [|f [|g r]] eqn:Ez; cbn [consolidate bind].
  - contradiction.
  - left. split; [now apply L|]. exists m. split; [reflexivity|].
    destruct (F f (or_introl eq_refl)) as [Wf _].
    rewrite (scalar_cpt _ f (asg_of bn m) Wf) by (intros w Hw; apply (S w); exists f; simpl; auto).
    unfold nget. cbn [nth_error bind]. do 3 f_equal. rewrite <- P. unfold prodval. simpl. ring.
  - right. split; [|reflexivity]. intros C. apply L in C. discriminate.
Qed.
