(** FactorLaws.v -- algebraic laws of factors derived from the operation lemmas. *)
From Verif Require Import Py Num BayesNet Factor SpecFactor Radix SumOver FactorMul FactorOut FactorMore.
Open Scope nat_scope.

Lemma mul_ok cd o f g phi psi : good o -> repr cd f phi -> repr cd g psi ->
  exists h, factor_mul o f g = Ok h /\ repr cd h (fun a => phi a * psi a)%Qc /\
    (forall v, In v (f_scope h) <-> In v (f_scope f) \/ In v (f_scope g)) /\ f_bn h = f_bn f.
Proof.
  intros Go Rf Rg. destruct (multiply_ok cd o f g phi psi Go Rf Rg) as (h & g' & E & R & S & B & _).
  exists h. unfold factor_mul. rewrite E. auto.
Qed.

Lemma same_from_repr cd f g phi psi : repr cd f phi -> repr cd g psi ->
  (forall v, In v (f_scope f) <-> In v (f_scope g)) ->
  (forall a, valid cd (f_scope f) a -> phi a = psi a) -> same_function cd f g.
Proof.
  intros [W1 H1] [W2 H2] S E. split; [assumption|]. intros a V. exists (phi a). split; [auto|].
  rewrite E by assumption. apply H2. intros v Hv. apply V. now apply S.
Qed.

Lemma mul_comm cd o1 o2 f g : good o1 -> good o2 -> wf cd f -> wf cd g ->
  exists h1 h2, factor_mul o1 f g = Ok h1 /\ factor_mul o2 g f = Ok h2 /\ same_function cd h1 h2.
Proof.
  intros G1 G2 Wf Wg.
  destruct (mul_ok cd o1 f g _ _ G1 (repr_val _ _ Wf) (repr_val _ _ Wg)) as (h1 & E1 & R1 & S1 & _).
  destruct (mul_ok cd o2 g f _ _ G2 (repr_val _ _ Wg) (repr_val _ _ Wf)) as (h2 & E2 & R2 & S2 & _).
  exists h1, h2. split; [assumption|]. split; [assumption|].
  apply (same_from_repr cd _ _ _ _ R1 R2); [intros v; rewrite S1, S2; tauto|]. intros a _. ring.
Qed.

Lemma mul_assoc cd o1 o2 o3 o4 f g h : good o1 -> good o2 -> good o3 -> good o4 -> wf cd f -> wf cd g -> wf cd h ->
  exists fg l gh r, factor_mul o1 f g = Ok fg /\ factor_mul o2 fg h = Ok l /\
    factor_mul o3 g h = Ok gh /\ factor_mul o4 f gh = Ok r /\ same_function cd l r.
Proof.
  intros G1 G2 G3 G4 Wf Wg Wh. apply repr_val in Wf, Wg, Wh.
  destruct (mul_ok cd o1 f g _ _ G1 Wf Wg) as (fg & E1 & R1 & S1 & _).
  destruct (mul_ok cd o2 fg h _ _ G2 R1 Wh) as (l & E2 & R2 & S2 & _).
  destruct (mul_ok cd o3 g h _ _ G3 Wg Wh) as (gh & E3 & R3 & S3 & _).
  destruct (mul_ok cd o4 f gh _ _ G4 Wf R3) as (r & E4 & R4 & S4 & _).
  exists fg, l, gh, r. repeat (split; [assumption|]).
  apply (same_from_repr cd _ _ _ _ R2 R4); [intros v; rewrite S2, S1, S4, S3; tauto|]. intros a _. ring.
Qed.

(** sum distributes over product *)
Lemma sumout_distr cd o1 o2 o3 o4 f g v : good o1 -> good o2 -> good o3 -> good o4 -> wf cd f -> wf cd g ->
  In v (f_scope f) -> ~ In v (f_scope g) ->
  exists fg l sf r, factor_mul o1 f g = Ok fg /\ sumout_var o2 fg v = Ok l /\
    sumout_var o3 f v = Ok sf /\ factor_mul o4 sf g = Ok r /\ same_function cd l r.
Proof.
  intros G1 G2 G3 G4 Wf Wg Hf Hg. apply repr_val in Wf, Wg.
  destruct (mul_ok cd o1 f g _ _ G1 Wf Wg) as (fg & E1 & R1 & S1 & _).
  destruct (sumout_ok cd o2 fg _ v R1) as (l & E2 & R2 & S2 & _); [apply S1; auto|].
  destruct (sumout_ok cd o3 f _ v Wf Hf) as (sf & E3 & R3 & S3 & _).
  destruct (mul_ok cd o4 sf g _ _ G4 R3 Wg) as (r & E4 & R4 & S4 & _).
  exists fg, l, sf, r. repeat (split; [assumption|]).
  assert (N1 : NoDup (f_scope fg)) by apply R1. assert (N2 : NoDup (f_scope f)) by apply Wf.
  apply (same_from_repr cd _ _ _ _ R2 R4).
  - intros u. rewrite S2, S4, S3, !In_remove1, S1 by assumption. intuition congruence.
  - intros a V. unfold sum_values. rewrite <- qsum_map_mult_r. apply qsum_map_ext. intros x _. f_equal.
    unfold val. f_equal. apply lookup_ext. intros w Hw. apply upd_other. congruence.
Qed.

(** conditioning commutes with multiplication *)
Lemma red_ok cd o f phi rv x i d : repr cd f phi ->
  dget (bn_F (f_bn f)) rv = Some d -> index_of x (f_values d) = Some i -> i < cd rv ->
  exists f', red o f rv x = Ok f' /\ repr cd f' (fun a => phi (upd a rv i)) /\
    (forall v, In v (f_scope f') <-> In v (f_scope f) /\ v <> rv) /\ f_bn f' = f_bn f.
Proof.
  intros R Hd Hx Hi. unfold red. destruct (mem_spec rv (f_scope f)) as [M|M].
  - destruct (reduce_ok cd o f phi rv x i R M) as (f' & E & R' & S & B); try congruence.
    exists f'. split; [assumption|]. split; [assumption|]. split; [|assumption].
    intros v. rewrite S, In_remove1 by apply R. tauto.
  - exists f. split; [reflexivity|]. split; [|split; [|reflexivity]].
    + apply (repr_congr cd f phi _ R). intros a V. apply (repr_ext cd f phi _ _ R V).
      intros w Hw. symmetry. apply upd_other. congruence.
    + intros v. split; [intros H; split; [assumption|congruence]|tauto].
Qed.

Lemma reduce_mul cd o1 o2 o3 o4 o5 f g rv x i d :
  good o1 -> good o5 -> wf cd f -> wf cd g -> f_bn g = f_bn f ->
  dget (bn_F (f_bn f)) rv = Some d -> index_of x (f_values d) = Some i -> i < cd rv ->
  exists fg l rf rg r, factor_mul o1 f g = Ok fg /\ red o2 fg rv x = Ok l /\
    red o3 f rv x = Ok rf /\ red o4 g rv x = Ok rg /\ factor_mul o5 rf rg = Ok r /\ same_function cd l r.
Proof.
  intros G1 G5 Wf Wg Eb Hd Hx Hi. apply repr_val in Wf, Wg.
  destruct (mul_ok cd o1 f g _ _ G1 Wf Wg) as (fg & E1 & R1 & S1 & B1).
  destruct (red_ok cd o2 fg _ rv x i d R1) as (l & E2 & R2 & S2 & _); try congruence.
  destruct (red_ok cd o3 f _ rv x i d Wf) as (rf & E3 & R3 & S3 & _); try congruence.
  destruct (red_ok cd o4 g _ rv x i d Wg) as (rg & E4 & R4 & S4 & _); try congruence.
  destruct (mul_ok cd o5 rf rg _ _ G5 R3 R4) as (r & E5 & R5 & S5 & _).
  exists fg, l, rf, rg, r. repeat (split; [assumption|]).
  apply (same_from_repr cd _ _ _ _ R2 R5).
  - intros u. rewrite S2, S5, S3, S4, S1. tauto.
  - reflexivity.
Qed.

Lemma reduce_sumout cd o1 o2 o3 o4 f rv x i d w :
  good o1 -> good o3 -> wf cd f ->
  dget (bn_F (f_bn f)) rv = Some d -> index_of x (f_values d) = Some i -> i < cd rv ->
  In rv (f_scope f) -> In w (f_scope f) -> w <> rv ->
  exists s l r t, sumout_var o1 f w = Ok s /\ reduce_factor o2 s rv x = Ok l /\
    reduce_factor o3 f rv x = Ok r /\ sumout_var o4 r w = Ok t /\ same_function cd l t.
Proof.
  intros G1 G3 Wf Hd Hx Hi Hrv Hw Ne. apply repr_val in Wf. assert (ND : NoDup (f_scope f)) by apply Wf.
  destruct (sumout_ok cd o1 f _ w Wf Hw) as (s & E1 & R1 & S1 & B1).
  destruct (reduce_ok cd o2 s _ rv x i R1) as (l & E2 & R2 & S2 & _); try congruence.
  { rewrite S1. apply In_remove1; auto. }
  destruct (reduce_ok cd o3 f _ rv x i Wf) as (r & E3 & R3 & S3 & _); try congruence.
  destruct (sumout_ok cd o4 r _ w R3) as (t & E4 & R4 & S4 & _).
  { rewrite S3. apply In_remove1; auto. }
  exists s, l, r, t. repeat (split; [assumption|]).
  apply (same_from_repr cd _ _ _ _ R2 R4).
  - intros u. rewrite S2, S4, S1, S3, !In_remove1 by auto using NoDup_remove1. tauto.
  - intros a _. unfold sum_values. apply qsum_map_ext. intros y _. apply val_ext. apply upd_comm. congruence.
Qed.

(** what multiply_factor does to its argument *)
Lemma multiply_other cd o f g phi psi : good o -> repr cd f phi -> repr cd g psi ->
  forall f' g', multiply_factor o f g = Ok (f', g') ->
  ((length (f_scope g) <= length (f_scope f) \/ incl (f_scope f) (f_scope g)) -> repr cd g' psi) /\
  (wf cd g' -> length (f_scope g) <= length (f_scope f) \/ incl (f_scope f) (f_scope g)).
Proof.
  intros Go Rf Rg f' g' E.
  destruct (multiply_ok cd o f g phi psi Go Rf Rg) as (f'' & g'' & E' & _ & _ & _ & _ & Same & _).
  rewrite E in E'. inversion E'; subst f'' g''. clear E'.
  destruct (Nat.leb_spec (length (f_scope g)) (length (f_scope f))) as [L|L].
  { rewrite (Same L). split; [intros _; assumption|auto]. }
  assert (Sp : self_is_phi1 f g = false) by (apply Nat.leb_gt; assumption).
  unfold multiply_factor in E. rewrite Sp in E.
  apply bind_Ok in E as (l & _ & E). apply bind_Ok in E as (st & _ & E). inversion E; subst f' g'. clear E Same.
  destruct Rf as [Wf Hf]. destruct Rg as [Wg Hg].
  assert (NDf : NoDup (dkeys (f_card f))) by (eapply Permutation_NoDup; [symmetry; apply Wf|apply Wf]).
  assert (NDg : NoDup (dkeys (f_card g))) by (eapply Permutation_NoDup; [symmetry; apply Wg|apply Wg]).
  assert (Kf : forall v, In v (dkeys (f_card f)) <-> In v (f_scope f))
    by (intros v; split; apply Permutation_in; [|symmetry]; apply Wf).
  assert (Kg : forall v, In v (dkeys (f_card g)) <-> In v (f_scope g))
    by (intros v; split; apply Permutation_in; [|symmetry]; apply Wg).
  split.
  - intros [H|I]; [lia|]. split.
    + destruct Wg as [w1 w2 w3 w4 w5 w6 w7]. constructor; cbn [f_scope f_card f_stride f_cpt]; try assumption.
      * apply NoDup_Permutation; [now apply NoDup_dkeys_dupdate|assumption|].
        intros v. rewrite In_dkeys_dupdate, Kf, Kg. split; [intros [?|?]; auto|auto].
      * intros v Hv. rewrite dget_dupdate by assumption.
        destruct (dget (f_card f) v) as [c|] eqn:Ec; [|auto].
        assert (In v (f_scope f)) as Hvf by (apply Kf; eapply dget_Some_In; eassumption).
        rewrite (wf_card _ _ Wf v Hvf) in Ec. congruence.
    + intros a V. apply Hg. exact V.
  - intros W'. right. intros v Hv.
    assert (In v (dkeys (dupdate (f_card g) (f_card f)))) as K.
    { rewrite In_dkeys_dupdate, Kf. auto. }
    apply (Permutation_in _ (wf_ckeys _ _ W')). exact K.
Qed.

(** maximum *)
Lemma max_values_spec cd v phi a : 0 < cd v ->
  (forall x, x < cd v -> (0 <= phi (upd a v x))%Qc) ->
  (exists x, x < cd v /\ max_values cd v phi a = phi (upd a v x)) /\
  (forall x, x < cd v -> (phi (upd a v x) <= max_values cd v phi a)%Qc).
Proof.
  intros Pc Hpos. unfold max_values.
  assert (G : forall l, (forall x, In x l -> x < cd v) ->
     (l <> [] -> exists x, In x l /\ fold_right qmax 0%Qc (map (fun x => phi (upd a v x)) l) = phi (upd a v x)) /\
     (forall x, In x l -> (phi (upd a v x) <= fold_right qmax 0%Qc (map (fun x => phi (upd a v x)) l))%Qc)).
  { induction l as [|y l IH]; intros Hl; [split; [congruence|intros x []]|].
    destruct IH as [I1 I2]; [intros; apply Hl; now right|]. split.
    - intros _. simpl. destruct l as [|z l].
      + exists y. split; [now left|]. simpl. specialize (Hpos y (Hl y (or_introl eq_refl))).
        unfold qmax. destruct (Qclt_le_dec _ _) as [Q|Q]; [qclra|reflexivity].
      + destruct I1 as (x & Hx & Ex); [congruence|].
        destruct (qmax_cases (phi (upd a v y)) (fold_right qmax 0%Qc (map (fun x => phi (upd a v x)) (z :: l)))) as [Q|Q].
        * exists y. split; [now left|assumption].
        * exists x. split; [now right|]. rewrite Q. assumption.
    - intros x [<-|Hx]; simpl; [apply qmax_ge_l|].
      eapply Qcle_trans; [apply I2; assumption|apply qmax_ge_r]. }
  destruct (G (seq 0 (cd v))) as [G1 G2]; [intros x Hx; apply in_seq in Hx; lia|]. split.
  - destruct G1 as (x & Hx & Ex); [destruct (cd v); [lia|discriminate]|]. apply in_seq in Hx.
    exists x. split; [lia|assumption].
  - intros x Hx. apply G2. apply in_seq. lia.
Qed.

(** every obtainable factor is well formed *)
Lemma wfnet_values_index bn rv d x i : dget (bn_F bn) rv = Some d -> index_of x (f_values d) = Some i -> i < ncard bn rv.
Proof. intros Hd Hx. unfold ncard. rewrite Hd. now apply index_of_lt in Hx. Qed.

Lemma obtainable_wf bn f : wfnet bn -> obtainable bn f ->
  wf (ncard bn) f /\ f_bn f = bn /\ incl (f_scope f) (bn_V bn).
Proof.
  intros W. induction 1 as [v f Hv E|o f g f' g' Go Of IHf Og IHg E|o f v f' Go Of IHf E|f v f' Of IHf E|f v f' Of IHf E|o f v x f' Go Of IHf E].
  - destruct (init_ok bn v W Hv) as (f0 & E0 & S & Vr & B & C & R & Rp). rewrite E in E0. inversion E0; subst f0.
    split; [apply Rp|]. split; [assumption|]. rewrite S. intros w [<-|Hw]; [assumption|]. now apply (wn_par _ W v Hv).
  - destruct IHf as (Wf & Bf & If). destruct IHg as (Wg & Bg & Ig).
    destruct (multiply_ok _ o f g _ _ Go (repr_val _ _ Wf) (repr_val _ _ Wg)) as (h & h' & E' & R & S & B & _).
    rewrite E in E'. inversion E'; subst. split; [apply R|]. split; [congruence|].
    intros w Hw. apply S in Hw as [Hw|Hw]; auto.
  - destruct IHf as (Wf & Bf & If).
    destruct (in_dec name_eq_dec v (f_scope f)) as [I|I].
    + destruct (sumout_ok _ o f _ v (repr_val _ _ Wf) I) as (h & E' & R & S & B). rewrite E in E'. inversion E'; subst h.
      split; [apply R|]. split; [congruence|]. rewrite S. intros w Hw. apply If. eapply remove1_incl; eassumption.
    + rewrite sumout_keyerror in E; [discriminate|]. intros K. apply I. apply (Permutation_in _ (wf_ckeys _ _ Wf) K).
  - destruct IHf as (Wf & Bf & If).
    destruct (in_dec name_eq_dec v (f_scope f)) as [I|I].
    + destruct (maxout_ok _ f _ v (repr_val _ _ Wf) I) as (h & E' & R & S & B). rewrite E in E'. inversion E'; subst h.
      split; [apply R|]. split; [congruence|]. rewrite S. intros w Hw. apply If. eapply remove1_incl; eassumption.
    + rewrite maxout_keyerror in E; [discriminate|]. intros K. apply I. apply (Permutation_in _ (wf_ckeys _ _ Wf) K).
  - destruct IHf as (Wf & Bf & If).
    destruct (in_dec name_eq_dec v (f_scope f)) as [I|I].
    + destruct (sumover_ok _ f _ v (repr_val _ _ Wf) I) as (h & E' & R & S & _ & B). rewrite E in E'. inversion E'; subst h.
      split; [apply R|]. split; [congruence|]. rewrite S. intros w [<-|[]]. auto.
    + exfalso. unfold sumover_var in E. unfold getitem in E. destruct (dget (f_card f) v) eqn:K; [|discriminate].
      apply I. apply (Permutation_in _ (wf_ckeys _ _ Wf)). eapply dget_Some_In; eassumption.
  - destruct IHf as (Wf & Bf & If).
    destruct (in_dec name_eq_dec v (f_scope f)) as [I|I].
    + destruct (wn_F _ W v (If v I)) as [d Hd].
      destruct (index_of x (f_values d)) as [i|] eqn:Hx.
      * destruct (reduce_ok _ o f _ v x i (repr_val _ _ Wf) I) as (h & E' & R & S & B); try congruence.
        { eapply wfnet_values_index; eassumption. }
        rewrite E in E'. inversion E'; subst h.
        split; [apply R|]. split; [congruence|]. rewrite S. intros w Hw. apply If. eapply remove1_incl; eassumption.
      * rewrite (reduce_valueerror _ o f v x d Wf I) in E; [discriminate|congruence|now apply index_of_None].
    + rewrite reduce_keyerror in E; [discriminate|]. intros K. apply I. apply (Permutation_in _ (wf_ckeys _ _ Wf) K).
Qed.

Lemma sumout_list_perm cd o1 o2 f vs ws : wf cd f -> NoDup vs -> incl vs (f_scope f) -> Permutation vs ws ->
  exists f1 f2, sumout_var_list o1 f vs = Ok f1 /\ sumout_var_list o2 f ws = Ok f2 /\ same_function cd f1 f2.
Proof.
  intros W ND I P. apply repr_val in W.
  destruct (sumout_list_ok cd vs o1 f _ W ND I) as (f1 & E1 & R1 & _ & _ & S1).
  destruct (sumout_list_ok cd ws o2 f _ W) as (f2 & E2 & R2 & _ & _ & S2).
  { now apply (Permutation_NoDup P). }
  { intros w Hw. apply I. apply (Permutation_in _ (Permutation_sym P) Hw). }
  exists f1, f2. split; [assumption|]. split; [assumption|].
  assert (Iff : forall w, In w vs <-> In w ws) by (intros w; split; apply Permutation_in; [|symmetry]; assumption).
  apply (same_from_repr cd _ _ _ _ R1 R2).
  - intros v. rewrite S1, S2, Iff. tauto.
  - intros a V. apply (sum_over_perm_repr cd f (val f)); try assumption.
    intros v Hv Hn. apply V, S1. auto.
Qed.

Lemma sumover_same cd o f rv : wf cd f -> In rv (f_scope f) ->
  exists f1 f2, sumover_var f rv = Ok f1 /\ sumout_var_list o f (remove1 rv (f_scope f)) = Ok f2 /\
    f_scope f1 = [rv] /\ f_scope f2 = [rv] /\ same_function cd f1 f2.
Proof.
  intros W H. assert (ND : NoDup (f_scope f)) by apply W. apply repr_val in W.
  destruct (sumover_ok cd f _ rv W H) as (f1 & E1 & R1 & S1 & _ & _).
  destruct (sumout_list_ok cd (remove1 rv (f_scope f)) o f _ W) as (f2 & E2 & R2 & SS2 & _ & S2).
  { now apply NoDup_remove1. }
  { intros w Hw. eapply remove1_incl; eassumption. }
  assert (Q : forall v, In v (f_scope f2) <-> v = rv).
  { intros v. rewrite S2, In_remove1 by assumption. destruct (name_eqb_spec v rv) as [->|Ne]; intuition congruence. }
  assert (S2' : f_scope f2 = [rv]).
  { assert (ND2 : NoDup (f_scope f2)) by apply R2. destruct (f_scope f2) as [|x [|y l]] eqn:E.
    - exfalso. specialize (Q rv). simpl in Q. tauto.
    - f_equal. apply Q. now left.
    - exfalso. assert (x = rv) by (apply Q; now left). assert (y = rv) by (apply Q; right; now left). subst.
      inversion ND2; subst. simpl in *. tauto. }
  exists f1, f2. repeat (split; [assumption|]).
  apply (same_from_repr cd _ _ _ _ R1 R2); [|reflexivity]. rewrite S1, S2'. tauto.
Qed.

Lemma reduce_list_perm cd o1 o2 f ev ev' (vi : name -> nat) : wf cd f -> NoDup (map fst ev) -> incl (map fst ev) (f_scope f) ->
  (forall rv v, In (rv, v) ev -> vi rv < cd rv /\
     exists d, dget (bn_F (f_bn f)) rv = Some d /\ index_of v (f_values d) = Some (vi rv)) ->
  Permutation ev ev' ->
  exists f1 f2, reduce_factor_by_list o1 f ev = Ok f1 /\ reduce_factor_by_list o2 f ev' = Ok f2 /\ same_function cd f1 f2.
Proof.
  intros W ND I Hv P. apply repr_val in W.
  assert (Pm : Permutation (map fst ev) (map fst ev')) by now apply Permutation_map.
  destruct (reduce_list_ok cd ev o1 f _ vi W ND I Hv) as (f1 & E1 & R1 & _ & S1).
  destruct (reduce_list_ok cd ev' o2 f _ vi W) as (f2 & E2 & R2 & _ & S2).
  { now apply (Permutation_NoDup Pm). }
  { intros w Hw. apply I. apply (Permutation_in _ (Permutation_sym Pm) Hw). }
  { intros rv v H. apply Hv. apply (Permutation_in _ (Permutation_sym P) H). }
  exists f1, f2. split; [assumption|]. split; [assumption|].
  assert (Iff : forall w, In w (map fst ev) <-> In w (map fst ev')) by (intros w; split; apply Permutation_in; [|symmetry]; assumption).
  apply (same_from_repr cd _ _ _ _ R1 R2).
  - intros v. rewrite S1, S2, Iff. tauto.
  - intros a _. apply val_ext. intros w. unfold override.
    destruct (mem_spec w (map fst ev)) as [M|M], (mem_spec w (map fst ev')) as [M'|M']; try reflexivity; exfalso; apply M' || apply M; apply Iff; assumption.
Qed.
