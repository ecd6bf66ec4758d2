(** FloatMapMain.v -- ve_map in floating point: the whole run. *)
From Verif Require Import Py Num BayesNet Factor SpecFactor Radix SumOver FactorMul FactorOut FactorMore FactorLaws Rounding Factorization SpecInference VE VEShape VETotal VEMap Float SpecFloat FloatFacts FloatMain FloatMap CliqueMain.
Open Scope nat_scope.

Lemma fl_map_run_id o bn ev : fl_map_run (fun x => x) o bn ev = map_run o bn ev.
Proof.
  unfold fl_map_run, map_run. destruct (fz_init bn); cbn [bind]; [|reflexivity].
  destruct (apply_evidence _ _ _ _); cbn [bind]; [|reflexivity]. now rewrite (elim_all_ext _ _ _ fl_max_elim_id).
Qed.
Lemma fl_ve_map_id o bn ev : fl_ve_map (fun x => x) o bn ev = ve_map o bn ev.
Proof. unfold fl_ve_map, ve_map. now rewrite fl_map_run_id. Qed.
Lemma fl_ve_map_prob_id o bn ev : fl_ve_map_prob (fun x => x) o bn ev = ve_map_prob o bn ev.
Proof. unfold fl_ve_map_prob, ve_map_prob. now rewrite fl_map_run_id. Qed.

Section Unit.
Variable u : Qc.
Hypothesis Hu : (0 <= u /\ u < 1)%Qc.

Lemma up_inv k : (up u k * (1 - nQc k * u) <= 1)%Qc.
Proof.
  pose proof one_q as O. induction k as [|k IH]; [rewrite up_0, nQc_0; qclra|].
  rewrite up_S, nQc_S. pose proof (nQc_nonneg k). pose proof (up_bounds u Hu k). generalize dependent (up u k). generalize dependent (nQc k).
  intros n Hn p Hp H1.
  assert (E : ((1 + u) * p * (1 - (1 + n) * u) = p * (1 - n * u) - p * (u * u * (1 + n)))%Qc) by ring.
  rewrite E. assert (0 <= p * (u * u * (1 + n)))%Qc; [|qclra].
  apply Qcmult_nonneg; [qclra|]. apply Qcmult_nonneg; [apply Qcmult_nonneg; qclra|qclra].
Qed.

Lemma budget_lb B L M fs fs' : budget u B L M fs fs' -> fs' = fs -> lb u (L * dn u (length fs)) (M * up u (length fs)) fs.
Proof.
  induction 1 as [|k L M f f' B L' M' fs fs' F H IH]; intros E.
  - cbn [length]. rewrite dn_0, up_0, !Qcmult_1_r. constructor.
  - inversion E; subst. cbn [length]. rewrite dn_S, up_S.
    replace (L * L' * ((1 - u) * dn u (length fs)))%Qc with (L * (1 - u) * (L' * dn u (length fs)))%Qc by ring.
    replace (M * M' * ((1 + u) * up u (length fs)))%Qc with (M * (1 + u) * (M' * up u (length fs)))%Qc by ring.
    constructor; [|auto]. destruct F as [a b _ _ _ _ _ F]. split; [assumption|]. split; [assumption|].
    assert (G : forall l l', Forall2 (near u k L M) l l' -> Forall (fun x => x = 0%Qc \/ (L <= x /\ x <= M)%Qc) l).
    { clear. intros l l' F. induction F as [|x y l l' (N1 & N2 & _) F IH]; constructor; auto. destruct N1; auto. }
    now apply (G _ _ F).
Qed.

Lemma fl_max_elim_groups bn rnd L M fixed evk order : accurate rnd u L M -> forall o z gs elim, good o -> fine (ncard bn) bn (fz_phi z) -> lb u L M (fz_phi z) ->
  ginv bn fixed evk elim (fz_phi z) gs -> NoDup order ->
  (forall v, In v order -> in_scopes (fz_phi z) v /\ ~ In v fixed /\ ~ In v (evk ++ elim)) ->
  forall z', elim_all (fl_max_elim rnd) o z order = Ok z' -> exists gs', ginv bn fixed evk (elim ++ order) (fz_phi z') gs'.
Proof.
  intros HA. induction order as [|v r IH]; intros o z gs elim Go F N G ND I z' E.
  - simpl in E. inversion E; subst. rewrite app_nil_r. eauto.
  - inversion ND as [|? ? Hn Hr]; subst. destruct (I v (or_introl eq_refl)) as (Iv & Nf & Ng).
    destruct (max_elim_fl u Hu (ncard bn) bn rnd (sub o 0) z v L M (good_sub _ 0 Go) F N HA Iv) as (psi & psi' & q1 & E1 & F1 & N1 & _ & S1 & _ & _ & _ & _ & _ & _ & Sp).
    cbn [elim_all] in E. rewrite E1 in E. cbn [bind] in E.
    replace (elim ++ v :: r) with ((elim ++ [v]) ++ r) by now rewrite <- app_assoc.
    eapply (IH (sub o 1) (mkFz (fz_bn z) (irrelevant_factors v (fz_phi z) ++ [psi']) (dset (fz_map z) v psi) (fz_asg z)));
      [exact (good_sub _ 1 Go)|exact F1|exact N1|cbn [fz_phi]; eapply ginv_step; eassumption|assumption| |exact E].
    intros w Hw. destruct (I w (or_intror Hw)) as (Iw & Nfw & Ngw). cbn [fz_phi]. split; [apply S1; split; [assumption|congruence]|].
    split; [assumption|]. rewrite app_assoc, in_app_iff. simpl. intuition congruence.
Qed.

Lemma fl_map_run_ok rnd bn ev o d : wfnet bn -> good_evidence bn ev -> good o -> entries_within bn d -> (0 < d /\ d <= 1)%Qc ->
  safe u rnd (length (bn_V bn)) (Qcpower d (length (bn_V bn))) 1 ->
  exists z' m, fl_map_run rnd o bn ev = Ok (z', m) /\
    (forall k, In k (dkeys m) <-> In k (bn_V bn)) /\
    (forall v, In v (bn_V bn) -> exists x i, dget m v = Some x /\ val_index bn v x = Some i) /\
    (forall E e, In (E, e) ev -> dget m E = Some e) /\
    (forall b, valid (ncard bn) (bn_V bn) b -> agrees bn ev b = true ->
       (joint bn b * dn u (length (bn_V bn)) <= joint bn (asg_of bn m) * up u (length (bn_V bn)))%Qc) /\
    fine (ncard bn) bn (fz_phi z') /\ (forall w, ~ in_scopes (fz_phi z') w) /\
    (joint bn (asg_of bn m) * dn u (length (bn_V bn)) <= prodval (fz_phi z') (asg_of bn m))%Qc /\
    (prodval (fz_phi z') (asg_of bn m) <= joint bn (asg_of bn m) * up u (length (bn_V bn)))%Qc /\
    (bn_V bn <> [] -> fz_phi z' <> [] /\ (length (fz_phi z') = 1 <-> connected bn (map fst ev))).
Proof.
  intros W GE Go HE Pd SA. destruct (fz_init_ok bn W) as (fs & E0 & F & S0 & S & P).
  assert (NN : nonneg_net bn).
  { intros v x Hv Hx. destruct (HE v x Hv Hx) as [-> |[A _]]; [apply Qcle_refl|qclra]. }
  set (z := mkFz bn fs [] []) in *.
  assert (NDV : NoDup (bn_V bn)) by apply W.
  assert (Lfs : length fs = length (bn_V bn)) by (symmetry; eapply Forall2_length_eq; exact S0).
  assert (I1 : incl (map fst ev) (bn_V bn)).
  { intros w Hw. apply in_map_iff in Hw as ([q y] & <- & Hq). now apply (proj2 GE) in Hq. }
  destruct (apply_evidence_ok bn ev W (sub o 0) z (bn_V bn) GE F NDV I1) as (z1 & E1 & M1 & B1 & F1 & S1 & A1 & _ & P1).
  pose proof (Forall2_scopes_ev _ _ _ S1) as SS1.
  assert (Lz1 : length (fz_phi z1) = length (bn_V bn)).
  { rewrite <- Lfs. symmetry. change fs with (fz_phi z). eapply Forall2_length_eq; exact S1. }
  set (order := minus (bn_V bn) (map fst ev)) in *.
  assert (NDo : NoDup order) by now apply NoDup_minus.
  assert (Ho : forall w, In w order <-> In w (bn_V bn) /\ ~ In w (map fst ev)).
  { intros w. unfold order. now rewrite In_minus. }
  assert (Io : incl order (bn_V bn)) by (intros w Hw; apply Ho in Hw; tauto).
  assert (So : forall w, in_scopes (fz_phi z1) w <-> In w order).
  { intros w. rewrite SS1, Ho. unfold z. cbn [fz_phi]. now rewrite S. }
  assert (Z0 : zrel u (length (bn_V bn)) (Qcpower d (length (bn_V bn))) 1 z z).
  { split; [reflexivity|]. apply (init_budget u Hu bn d); auto; [apply incl_refl|]. unfold fz_init in E0. fold (bn_nodes bn).
    destruct (mapM (factor_init bn) (bn_nodes bn)); cbn [bind] in E0; [|discriminate]. now inversion E0. }
  pose proof (apply_evidence_sim u Hu ev _ _ _ (sub o 0) z z (bn_V bn) Z0) as H.
  rewrite E1 in H. cbn [rres fst snd] in H. destruct H as [[_ Bz1] _].
  pose proof (budget_lb _ _ _ _ _ Bz1 eq_refl) as HB. rewrite Lz1 in HB.
  destruct (map_elim_fl u Hu bn rnd _ _ W SA order (sub o 1) z1 (good_sub _ 1 Go) F1 HB NDo Io So) as (z' & items & q & E2 & M2 & A2 & K2 & F2 & S2 & Lq & Lo & T2).
  { intros w _. rewrite M1. simpl. tauto. }
  destruct (T2 (sub o 2) (fz_asg z1)) as (m & ET & Tout & Tin & Teq).
  assert (Mi : fz_map z' = items) by (rewrite M2, M1; reflexivity).
  exists z', m. split.
  { unfold fl_map_run. rewrite E0. cbn [bind]. unfold bn_nodes. rewrite E1. cbn [bind fst snd]. rewrite E2. cbn [bind].
    rewrite Mi, A2, ET. reflexivity. }
  assert (EV : forall E e, In (E, e) ev -> dget m E = Some e).
  { intros E e H. rewrite Tout.
    - rewrite A1. assert (dget ev E = Some e) as ->; [|reflexivity]. destruct GE as [NDk _]. clear - H NDk.
      induction ev as [|[p y] r IH]; [destruct H|]. simpl in *. inversion NDk; subst. destruct H as [H|H].
      + inversion H; subst. now rewrite name_eqb_refl.
      + destruct (name_eqb_spec E p) as [->|Ne]; [|auto]. exfalso. apply H2. apply in_map_iff. exists (p, e). auto.
    - rewrite Ho. intros [_ K]. apply K. apply in_map_iff. exists (E, e). auto. }
  assert (VI : forall v, In v (bn_V bn) -> exists x i, dget m v = Some x /\ val_index bn v x = Some i).
  { intros v Hv. destruct (in_dec name_eq_dec v (map fst ev)) as [K|K]; [|apply Tin; apply Ho; auto].
    apply in_map_iff in K as ([p y] & Eq & Hq). cbn [fst] in Eq. subst p. exists y, (eidx bn (v, y)). split; [now apply EV|].
    destruct (good_evidence_idx bn ev v y W GE Hq) as (dd & Hd & Hx & _). unfold val_index, nvalues. now rewrite Hd. }
  split; [|split; [exact VI|split; [exact EV|]]].
  { intros k. rewrite <- dget_In. split.
    - intros H. destruct (in_dec name_eq_dec k order) as [I|I]; [now apply Io|].
      rewrite Tout in H by assumption. rewrite A1 in H. destruct (dget ev k) eqn:Ek; [|unfold z in H; cbn in H; congruence].
      apply I1. apply dget_Some_In in Ek. exact Ek.
    - intros H. destruct (VI k H) as (x & i & Hx & _). congruence. }
  assert (Va : valid (ncard bn) (bn_V bn) (asg_of bn m)).
  { intros v Hv. destruct (VI v Hv) as (x & i & Hx & Hi). unfold asg_of. rewrite Hx, Hi.
    unfold val_index, nvalues in Hi. unfold ncard. destruct (dget (bn_F bn) v); [now apply index_of_lt in Hi|discriminate]. }
  assert (Ag : agrees bn ev (asg_of bn m) = true).
  { unfold agrees. apply forallb_forall. intros [E e] H. cbn [fst snd].
    destruct (good_evidence_idx bn ev E e W GE H) as (dd & Hd & Hx & _). unfold val_index, nvalues. rewrite Hd, Hx.
    unfold asg_of. rewrite (EV E e H). unfold val_index, nvalues. rewrite Hd, Hx. apply Nat.eqb_refl. }
  assert (J : forall b, valid (ncard bn) (bn_V bn) b -> agrees bn ev b = true -> prodval (fz_phi z1) b = joint bn b).
  { intros b Vb Ab. rewrite P1.
    - unfold z. cbn [fz_phi]. rewrite (prodval_ext fs _ b (setev_agrees bn ev b GE Ab)). now apply P.
    - intros w Hw. apply So, Io in Hw. now apply Vb. }
  assert (Q : q <= length (bn_V bn)) by lia. pose proof (dn_mono u Hu q _ Q) as D1. pose proof (up_mono u Hu q _ Q) as D2.
  pose proof (joint_nonneg bn (asg_of bn m) NN) as N2.
  assert (U2 : (prodval (fz_phi z') (asg_of bn m) <= joint bn (asg_of bn m) * up u (length (bn_V bn)))%Qc).
  { rewrite (J _ Va Ag) in Teq. eapply Qcle_trans; [exact Teq|]. rewrite !(Qcmult_comm (joint bn (asg_of bn m))). now apply Qcmult_le_compat_r. }
  assert (L2 : forall b, valid (ncard bn) (bn_V bn) b -> agrees bn ev b = true -> (joint bn b * dn u (length (bn_V bn)) <= prodval (fz_phi z') (asg_of bn m))%Qc).
  { intros b Vb Ab. specialize (Lo b (fun w Hw => Vb w (Io w Hw))). rewrite (J b Vb Ab) in Lo.
    rewrite (prodval_scope (fz_phi z') b (asg_of bn m)) in Lo by (intros w Hw; now apply S2 in Hw).
    pose proof (joint_nonneg bn b NN) as N1.
    apply Qcle_trans with (joint bn b * dn u q)%Qc; [rewrite !(Qcmult_comm (joint bn b)); now apply Qcmult_le_compat_r|exact Lo]. }
  split; [intros b Vb Ab; exact (Qcle_trans _ _ _ (L2 b Vb Ab) U2)|].
  split; [assumption|]. split; [assumption|]. split; [exact (L2 _ Va Ag)|]. split; [exact U2|].
  intros NE. pose proof (evidence_scopes bn fs (fz_phi z1) (map fst ev) S0 S1) as SE.
  destruct (fl_max_elim_groups bn rnd _ _ (map fst ev) (map fst ev) order SA (sub o 1) z1 _ [] (good_sub _ 1 Go) F1 HB
             (ginv_init bn (fz_phi z1) (map fst ev) (map fst ev) SE) NDo) with (z' := z') as (gs' & G').
  { intros v Hv. split; [now apply So|]. apply Ho in Hv as [H1 H2]. rewrite app_nil_r. auto. }
  { assumption. }
  split. { intros Z. pose proof (gi_cov _ _ _ _ _ _ G') as C. rewrite Z in C. inversion C; subst.
           pose proof (gi_perm _ _ _ _ _ _ G') as Pm. apply Permutation_nil in Pm. contradiction. }
  apply (groups_one bn (map fst ev) (map fst ev) _ _ gs' G'); [assumption|assumption|].
  intros w x Hw [<-|Hx] Hnx; simpl; apply Ho; (split; [|assumption]); [assumption|now apply (wn_par _ W w Hw)].
Qed.

Lemma fl_map_ok rnd bn ev o d : wfnet bn -> good_evidence bn ev -> good o -> entries_within bn d -> (0 < d /\ d <= 1)%Qc ->
  safe u rnd (length (bn_V bn)) (Qcpower d (length (bn_V bn))) 1 ->
  exists m, fl_ve_map rnd o bn ev = Ok m /\
    (forall k, In k (dkeys m) <-> In k (bn_V bn)) /\
    (forall v, In v (bn_V bn) -> exists x i, dget m v = Some x /\ val_index bn v x = Some i) /\
    (forall E e, In (E, e) ev -> dget m E = Some e) /\
    (forall b, valid (ncard bn) (bn_V bn) b -> agrees bn ev b = true ->
       (joint bn b * dn u (length (bn_V bn)) <= joint bn (asg_of bn m) * up u (length (bn_V bn)))%Qc).
Proof.
  intros W GE Go HE Pd SA. destruct (fl_map_run_ok rnd bn ev o d W GE Go HE Pd SA) as (z' & m & E & A & B & C & D & _).
  exists m. unfold fl_ve_map. rewrite E. cbn [bind snd]. auto.
Qed.

Lemma fl_prob_ok rnd bn ev o d : wfnet bn -> good_evidence bn ev -> good o -> entries_within bn d -> (0 < d /\ d <= 1)%Qc -> bn_V bn <> [] ->
  safe u rnd (length (bn_V bn)) (Qcpower d (length (bn_V bn))) 1 ->
  (connected bn (map fst ev) /\ exists m x, fl_ve_map rnd o bn ev = Ok m /\ fl_ve_map_prob rnd o bn ev = Ok (rnd (py_round 5 x), m) /\
     (joint bn (asg_of bn m) * dn u (length (bn_V bn)) <= x /\ x <= joint bn (asg_of bn m) * up u (length (bn_V bn)))%Qc) \/
  (~ connected bn (map fst ev) /\ fl_ve_map_prob rnd o bn ev = Raise NameError).
Proof.
  intros W GE Go HE Pd NE SA. destruct (fl_map_run_ok rnd bn ev o d W GE Go HE Pd SA) as (z' & m & E & _ & _ & _ & _ & F & S & Lo & Up & L).
  destruct (L NE) as [NEz L']. clear L. rename L' into L. unfold fl_ve_map_prob, fl_ve_map. rewrite E. cbn [bind fst snd].
  destruct (fz_phi z') as [|f [|g r]] eqn:Ez; cbn [consolidate bind].
  - contradiction.
  - left. split; [now apply L|]. exists m, (val f (asg_of bn m)). split; [reflexivity|].
    destruct (F f (or_introl eq_refl)) as [Wf _].
    rewrite (scalar_cpt _ f (asg_of bn m) Wf) by (intros w Hw; apply (S w); exists f; simpl; auto).
    unfold nget. cbn [nth_error bind]. split; [reflexivity|].
    assert (P : prodval [f] (asg_of bn m) = val f (asg_of bn m)) by (unfold prodval; simpl; ring). rewrite P in Lo, Up. auto.
  - right. split; [|reflexivity]. intros C. apply L in C. discriminate.
Qed.
End Unit.
