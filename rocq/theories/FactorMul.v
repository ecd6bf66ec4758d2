(** FactorMul.v -- proofs about the constructor and multiply_factor. *)
From Verif Require Import Py Num BayesNet Factor SpecFactor Radix.
Open Scope nat_scope.

Definition aof (d : dict nat) : asg := fun v => match dget d v with Some x => x | None => 0 end.
Definition rst (sc : list name) (st : dict nat) (v : name) : nat := if mem v sc then stride_key st v else 0.

Lemma dot_rst sc st rvs a : NoDup rvs -> NoDup sc -> incl sc rvs ->
  dot (rst sc st) rvs a = dot (stride_key st) sc a.
Proof.
  intros N1 N2 I.
  assert (P : Permutation rvs (sc ++ filter (fun v => negb (mem v sc)) rvs)).
  { apply NoDup_Permutation; [assumption| |].
    - apply NoDup_app_intro; [assumption|now apply NoDup_filter|].
      intros x Hx Hx'. apply filter_In in Hx' as [_ E]. apply mem_In in Hx. rewrite Hx in E. discriminate.
    - intros x. rewrite in_app_iff, filter_In. destruct (mem_spec x sc) as [H|H]; simpl; split.
      + tauto.
      + intros _. now apply I.
      + intros H'. right. auto.
      + intros [H'|[H' _]]; [contradiction|assumption]. }
  rewrite (dot_perm _ _ _ _ P), dot_app.
  replace (dot (rst sc st) (filter (fun v => negb (mem v sc)) rvs) a) with 0.
  - rewrite Nat.add_0_r. apply dot_ext. intros v Hv. split; [reflexivity|].
    unfold rst. apply mem_In in Hv. now rewrite Hv.
  - unfold dot. symmetry. induction rvs as [|y r IH] in |- *; simpl; [reflexivity|].
    destruct (mem y sc) eqn:E; simpl; [assumption|]. unfold rst at 1. rewrite E. lia.
Qed.

Section Bump.
  Context (cd : name -> nat) (sc1 sc2 : list name) (card1 card2 st1 st2 : dict nat).

  Definition bump_pre (rvs : list name) : Prop :=
    NoDup rvs /\
    (forall v, In v rvs -> dget card1 v = Some (cd v)) /\
    (forall v, In v rvs -> In v sc2 -> dget card2 v = Some (cd v)) /\
    (forall v, In v rvs -> In v sc1 -> dget st1 v <> None) /\
    (forall v, In v rvs -> In v sc2 -> dget st2 v <> None).

  Lemma bump_ok rvs : bump_pre rvs -> forall asg j k,
    (forall v, In v rvs -> dget asg v <> None) -> valid cd rvs (aof asg) ->
    exists asg' j' k',
      bump sc1 sc2 card1 card2 st1 st2 rvs asg j k = Ok (asg', j', k') /\
      (forall v, ~ In v rvs -> dget asg' v = dget asg v) /\
      (forall v, In v rvs -> dget asg' v <> None) /\
      valid cd rvs (aof asg') /\
      radix cd rvs (aof asg') = (if radix cd rvs (aof asg) + 1 =? size cd rvs then 0 else radix cd rvs (aof asg) + 1) /\
      (j' = j + Z.of_nat (dot (rst sc1 st1) rvs (aof asg')) - Z.of_nat (dot (rst sc1 st1) rvs (aof asg)))%Z /\
      (k' = k + Z.of_nat (dot (rst sc2 st2) rvs (aof asg')) - Z.of_nat (dot (rst sc2 st2) rvs (aof asg)))%Z.
  Proof.
    induction rvs as [|rv r IH]; intros (ND & C1 & C2 & S1 & S2) asg j k D V.
    - exists asg, j, k. simpl. unfold dot. simpl. repeat split; auto; try lia.
    - cbn [bump]. inversion ND as [|? ? Hn Hr]; subst.
      apply valid_cons in V as [V1 V2].
      assert (Hrv : In rv (rv :: r)) by now left.
      destruct (dget asg rv) as [x|] eqn:Ex; [|exfalso; now apply (D rv)].
      assert (Ax : aof asg rv = x) by (unfold aof; now rewrite Ex).
      unfold getitem at 1. rewrite Ex. cbn [bind].
      unfold getitem at 1. rewrite (C1 rv Hrv). cbn [bind].
      assert (E1 : forall z, (if mem rv sc1 then do s <- getitem st1 rv;; Ok (z s) else Ok j) =
                 Ok (if mem rv sc1 then z (rst sc1 st1 rv) else j)).
      { intros z. destruct (mem rv sc1) eqn:M; [|reflexivity]. unfold rst. rewrite M.
        apply mem_In in M. unfold getitem, stride_key. destruct (dget st1 rv) eqn:G; [reflexivity|].
        exfalso. now apply (S1 rv). }
      assert (E2 : forall z, (if mem rv sc2 then do s <- getitem st2 rv;; Ok (z s) else Ok k) =
                 Ok (if mem rv sc2 then z (rst sc2 st2 rv) else k)).
      { intros z. destruct (mem rv sc2) eqn:M; [|reflexivity]. unfold rst. rewrite M.
        apply mem_In in M. unfold getitem, stride_key. destruct (dget st2 rv) eqn:G; [reflexivity|].
        exfalso. now apply (S2 rv). }
      assert (E3 : (if mem rv sc2 then do c2 <- getitem card2 rv;; do s <- getitem st2 rv;;
                      Ok (k - (Z.of_nat c2 - 1) * Z.of_nat s)%Z else Ok k) =
                   Ok (if mem rv sc2 then (k - (Z.of_nat (cd rv) - 1) * Z.of_nat (rst sc2 st2 rv))%Z else k)).
      { rewrite <- (E2 (fun s => (k - (Z.of_nat (cd rv) - 1) * Z.of_nat s)%Z)).
        destruct (mem rv sc2) eqn:M; [|reflexivity]. apply mem_In in M.
        unfold getitem at 1. now rewrite (C2 rv Hrv M). }
      assert (Z1 : mem rv sc1 = false -> rst sc1 st1 rv = 0) by (intros M; unfold rst; now rewrite M).
      assert (Z2 : mem rv sc2 = false -> rst sc2 st2 rv = 0) by (intros M; unfold rst; now rewrite M).
      destruct (Nat.eqb_spec (S x) (cd rv)) as [Ec|Ec].
      + rewrite (E1 (fun s => (j - (Z.of_nat (cd rv) - 1) * Z.of_nat s)%Z)). cbn [bind].
        rewrite E3. cbn [bind].
        set (asg1 := dset asg rv 0).
        set (j1 := if mem rv sc1 then _ else _). set (k1 := if mem rv sc2 then _ else _).
        assert (A1 : forall v, In v r -> aof asg1 v = aof asg v).
        { intros v Hv. unfold aof, asg1. rewrite dget_dset.
          destruct (name_eqb_spec v rv); [subst; contradiction|reflexivity]. }
        assert (A1rv : aof asg1 rv = 0) by (unfold aof, asg1; now rewrite dget_dset, name_eqb_refl).
        destruct (IH) with (asg := asg1) (j := j1) (k := k1)
          as (asg' & j' & k' & HB & HO & HD & HV & HR & HJ & HK).
        * repeat split; try assumption; intros; [apply C1|apply C2|apply S1|apply S2]; simpl; auto.
        * intros v Hv. unfold asg1. rewrite dget_dset. destruct (name_eqb v rv); [discriminate|]. apply D. now right.
        * intros v Hv. rewrite A1 by assumption. auto.
        * exists asg', j', k'. rewrite HB.
          assert (Arv : aof asg' rv = 0).
          { unfold aof. rewrite HO by assumption. exact A1rv. }
          assert (Er : radix cd r (aof asg1) = radix cd r (aof asg)) by (now apply radix_ext).
          assert (Ed : forall st, dot st r (aof asg1) = dot st r (aof asg)) by (intros st; apply dot_ext; auto).
          rewrite Er in HR. rewrite Ed in HJ, HK.
          assert (Sz : size cd (rv :: r) = cd rv * size cd r) by reflexivity.
          split; [reflexivity|]. split; [|split; [|split; [|split; [|split]]]].
          -- intros v Hv. rewrite HO by (intros H; apply Hv; now right).
             unfold asg1. rewrite dget_dset. destruct (name_eqb_spec v rv); [|reflexivity].
             exfalso. apply Hv. now left.
          -- intros v [<-|Hv]; [|auto]. rewrite HO by assumption. unfold asg1.
             rewrite dget_dset, name_eqb_refl. discriminate.
          -- apply valid_cons. split; [rewrite Arv; lia|assumption].
          -- cbn [radix]. rewrite Arv, HR, Ax, Sz.
             destruct (Nat.eqb_spec (radix cd r (aof asg) + 1) (size cd r)) as [Q|Q];
             destruct (Nat.eqb_spec (x + cd rv * radix cd r (aof asg) + 1) (cd rv * size cd r)) as [Q'|Q']; nia.
          -- unfold dot in *. simpl. rewrite Arv, Ax, HJ. unfold j1.
             destruct (mem rv sc1) eqn:M; [|rewrite Z1 by reflexivity; lia]. nia.
          -- unfold dot in *. simpl. rewrite Arv, Ax, HK. unfold k1.
             destruct (mem rv sc2) eqn:M; [|rewrite Z2 by reflexivity; lia]. nia.
      + rewrite (E1 (fun s => (j + Z.of_nat s)%Z)). cbn [bind].
        rewrite (E2 (fun s => (k + Z.of_nat s)%Z)). cbn [bind].
        set (asg1 := dset asg rv (S x)).
        assert (A1 : forall v, In v r -> aof asg1 v = aof asg v).
        { intros v Hv. unfold aof, asg1. rewrite dget_dset.
          destruct (name_eqb_spec v rv); [subst; contradiction|reflexivity]. }
        assert (A1rv : aof asg1 rv = S x) by (unfold aof, asg1; now rewrite dget_dset, name_eqb_refl).
        assert (Er : radix cd r (aof asg1) = radix cd r (aof asg)) by (now apply radix_ext).
        assert (Ed : forall st, dot st r (aof asg1) = dot st r (aof asg)) by (intros st; apply dot_ext; auto).
        eexists _, _, _. split; [reflexivity|]. split; [|split; [|split; [|split; [|split]]]].
        * intros v Hv. unfold asg1. rewrite dget_dset. destruct (name_eqb_spec v rv); [|reflexivity].
          exfalso. apply Hv. now left.
        * intros v Hv. unfold asg1. rewrite dget_dset. destruct (name_eqb v rv); [discriminate|]. now apply D.
        * apply valid_cons. split; [rewrite A1rv; lia|]. intros v Hv. rewrite A1 by assumption. auto.
        * cbn [radix]. rewrite A1rv, Er, Ax.
          pose proof (radix_lt cd r (aof asg) V2) as Lt. assert (Sz : size cd (rv :: r) = cd rv * size cd r) by reflexivity.
          rewrite Sz.
          destruct (Nat.eqb_spec (x + cd rv * radix cd r (aof asg) + 1) (cd rv * size cd r)) as [Q'|Q']; [|lia].
          exfalso. nia.
        * unfold dot in *. simpl. rewrite A1rv, Ax, Ed. destruct (mem rv sc1) eqn:M; [|rewrite Z1 by reflexivity]; lia.
        * unfold dot in *. simpl. rewrite A1rv, Ax, Ed. destruct (mem rv sc2) eqn:M; [|rewrite Z2 by reflexivity]; lia.
  Qed.

  Lemma mul_loop_ok cpt1 cpt2 rvs phi1 phi2 : bump_pre rvs ->
    (forall a, valid cd rvs a -> nth_error cpt1 (dot (rst sc1 st1) rvs a) = Some (phi1 a)) ->
    (forall a, valid cd rvs a -> nth_error cpt2 (dot (rst sc2 st2) rvs a) = Some (phi2 a)) ->
    forall n asg j k,
    (forall v, In v rvs -> dget asg v <> None) -> valid cd rvs (aof asg) ->
    radix cd rvs (aof asg) + n = size cd rvs \/ n = 0 ->
    j = Z.of_nat (dot (rst sc1 st1) rvs (aof asg)) ->
    k = Z.of_nat (dot (rst sc2 st2) rvs (aof asg)) ->
    exists l, mul_loop sc1 sc2 card1 card2 st1 st2 cpt1 cpt2 rvs n asg j k = Ok l /\ length l = n /\
      forall m a, m < n -> valid cd rvs a -> radix cd rvs a = radix cd rvs (aof asg) + m ->
        nth_error l m = Some (phi1 a * phi2 a)%Qc.
  Proof.
    intros BP H1 H2 n. induction n as [|n IH]; intros asg j k D V Hn Hj Hk.
    - exists []. simpl. repeat split. intros; lia.
    - cbn [mul_loop]. subst j k.
      rewrite !pyget_nat. unfold nget. rewrite (H1 _ V), (H2 _ V). cbn [bind].
      destruct (bump_ok rvs BP asg (Z.of_nat (dot (rst sc1 st1) rvs (aof asg)))
                 (Z.of_nat (dot (rst sc2 st2) rvs (aof asg))) D V)
        as (asg' & j' & k' & HB & HO & HD & HV & HR & HJ & HK).
      rewrite HB. cbn [bind].
      destruct (IH asg' j' k' HD HV) as (l & HL & HLen & HN); [| lia | lia |].
      + destruct (Nat.eqb_spec (radix cd rvs (aof asg) + 1) (size cd rvs)); lia.
      + rewrite HL. simpl. eexists. split; [reflexivity|]. simpl. split; [lia|].
        intros [|m] a Hm Va Ea; simpl.
        * assert (E : forall v, In v rvs -> a v = aof asg v) by (apply (radix_inj cd); auto; lia).
          assert (phi1 a = phi1 (aof asg)) as ->.
          { assert (Some (phi1 a) = Some (phi1 (aof asg))) as X; [|congruence].
            rewrite <- !H1 by assumption. f_equal. apply dot_ext. auto. }
          assert (phi2 a = phi2 (aof asg)) as ->; [|reflexivity].
          assert (Some (phi2 a) = Some (phi2 (aof asg))) as X; [|congruence].
          rewrite <- !H2 by assumption. f_equal. apply dot_ext. auto.
        * apply HN; [lia|assumption|]. rewrite HR.
          destruct (Nat.eqb_spec (radix cd rvs (aof asg) + 1) (size cd rvs)); lia.
  Qed.
End Bump.

Lemma run_strides_ok cd card rvs : NoDup rvs -> (forall v, In v rvs -> dget card v = Some (cd v)) ->
  forall s st, (forall v, In v rvs -> ~ In v (dkeys st)) ->
  exists st', run_strides card rvs s st = Ok st' /\ running cd st' rvs s /\
    dkeys st' = dkeys st ++ rvs /\ (forall v, ~ In v rvs -> dget st' v = dget st v).
Proof.
  induction rvs as [|v r IH]; intros ND C s st Hst; simpl.
  - exists st. rewrite app_nil_r. repeat split; auto.
  - inversion ND as [|? ? Hn Hr]; subst. unfold getitem. rewrite (C v) by now left. simpl.
    destruct (IH Hr) with (s := s * cd v) (st := dset st v s) as (st' & HR & HRun & HK & HO).
    + intros; apply C; now right.
    + intros w Hw. rewrite In_dkeys_dset. intros [->|H]; [contradiction|]. apply (Hst w); [now right|assumption].
    + exists st'. split; [assumption|]. split; [split; [|assumption]|split].
      * rewrite HO by assumption. now rewrite dget_dset, name_eqb_refl.
      * rewrite HK, dkeys_dset_notin by (apply Hst; now left). now rewrite <- app_assoc.
      * intros w Hw. rewrite HO by tauto. rewrite dget_dset.
        destruct (name_eqb_spec w v); [subst; tauto|reflexivity].
Qed.

Lemma map_snd_dget (cd : name -> nat) (d : dict nat) :
  NoDup (dkeys d) -> (forall v, In v (dkeys d) -> dget d v = Some (cd v)) -> map snd d = map cd (dkeys d).
Proof.
  unfold dkeys. induction d as [|[q w] r IH]; simpl; intros ND H; [reflexivity|].
  inversion ND as [|? ? Hn Hr]; subst. f_equal.
  - specialize (H q (or_introl eq_refl)). rewrite name_eqb_refl in H. congruence.
  - apply IH; [assumption|]. intros v Hv. specialize (H v (or_intror Hv)).
    destruct (name_eqb_spec v q); [subst; contradiction|assumption].
Qed.

Lemma perm_of_iff (l m : list name) : NoDup l -> NoDup m -> (forall x, In x l <-> In x m) -> Permutation l m.
Proof. apply NoDup_Permutation. Qed.

(** ** multiply_factor denotes the pointwise product *)
Lemma multiply_ok cd o self other phi psi :
  good o -> repr cd self phi -> repr cd other psi ->
  exists self' other', multiply_factor o self other = Ok (self', other') /\
    repr cd self' (fun a => phi a * psi a)%Qc /\
    (forall v, In v (f_scope self') <-> In v (f_scope self) \/ In v (f_scope other)) /\
    f_bn self' = f_bn self /\ f_var self' = f_var self /\
    (length (f_scope other) <= length (f_scope self) -> other' = other) /\
    f_cpt other' = f_cpt other /\ f_scope other' = f_scope other /\ f_stride other' = f_stride other.
Proof.
  intros Go Rs Ro. unfold multiply_factor.
  set (sp := self_is_phi1 self other).
  set (phi1 := if sp then self else other). set (phi2 := if sp then other else self).
  set (f1 := if sp then phi else psi). set (f2 := if sp then psi else phi).
  assert (R1 : repr cd phi1 f1) by (unfold phi1, f1; destruct sp; assumption).
  assert (R2 : repr cd phi2 f2) by (unfold phi2, f2; destruct sp; assumption).
  destruct R1 as [W1 L1]. destruct R2 as [W2 L2].
  set (rv0 := sorted_by _ _). set (ss := set_union _ _).
  set (rvo := rv0 ++ _).
  set (card1 := dupdate _ _). set (asg0 := dict_of _).
  assert (P0 : Permutation rv0 (f_scope phi1)).
  { unfold rv0. rewrite sorted_by_perm. rewrite (good_ask _ _ (good_sub _ _ Go)). apply W1. }
  assert (Iss : forall v, In v ss <-> In v (f_scope phi1) \/ In v (f_scope phi2)) by (intros; apply In_set_union).
  assert (Irvo : forall v, In v rvo <-> In v (f_scope phi1) \/ In v (f_scope phi2)).
  { intros v. unfold rvo. rewrite in_app_iff.
    assert (In v rv0 <-> In v (f_scope phi1)) as -> by (split; apply Permutation_in; [|symmetry]; assumption).
    set (dd := ask _ _). assert (PD : Permutation dd (set_diff (f_scope phi2) (f_scope phi1))) by
       apply (good_ask _ _ (good_sub _ _ Go)).
    assert (In v dd <-> In v (set_diff (f_scope phi2) (f_scope phi1))) as -> by (split; apply Permutation_in; [|symmetry]; assumption).
    rewrite In_set_diff. destruct (in_dec name_eq_dec v (f_scope phi1)); tauto. }
  assert (NDrvo : NoDup rvo).
  { unfold rvo. set (dd := ask _ _).
    assert (PD : Permutation dd (set_diff (f_scope phi2) (f_scope phi1))) by apply (good_ask _ _ (good_sub _ _ Go)).
    apply (Permutation_NoDup (l := f_scope phi1 ++ set_diff (f_scope phi2) (f_scope phi1))).
    - symmetry. now apply Permutation_app.
    - apply NoDup_app_intro; [apply W1|apply NoDup_set_diff|]. intros x Hx. rewrite In_set_diff. tauto. }
  assert (NDss : NoDup ss) by apply NoDup_set_union.
  assert (Pss : Permutation rvo ss).
  { apply NoDup_Permutation; [assumption|assumption|]. intros x. now rewrite Irvo, Iss. }
  assert (NDc2 : NoDup (dkeys (f_card phi2))).
  { eapply Permutation_NoDup; [symmetry; apply (wf_ckeys _ _ W2)|apply W2]. }
  assert (NDc1 : NoDup (dkeys (f_card phi1))).
  { eapply Permutation_NoDup; [symmetry; apply (wf_ckeys _ _ W1)|apply W1]. }
  assert (K1 : forall v, In v (dkeys (f_card phi1)) <-> In v (f_scope phi1))
    by (intros v; split; apply Permutation_in; [|symmetry]; apply W1).
  assert (K2 : forall v, In v (dkeys (f_card phi2)) <-> In v (f_scope phi2))
    by (intros v; split; apply Permutation_in; [|symmetry]; apply W2).
  assert (T1 : forall v, In v (dkeys (f_stride phi1)) <-> In v (f_scope phi1))
    by (intros v; split; apply Permutation_in; [|symmetry]; apply W1).
  assert (T2 : forall v, In v (dkeys (f_stride phi2)) <-> In v (f_scope phi2))
    by (intros v; split; apply Permutation_in; [|symmetry]; apply W2).
  assert (Hc1 : forall v, In v rvo -> dget card1 v = Some (cd v)).
  { intros v Hv. unfold card1. rewrite dget_dupdate by assumption.
    destruct (in_dec name_eq_dec v (f_scope phi2)) as [I|I].
    - now rewrite (wf_card _ _ W2 v I).
    - assert (dget (f_card phi2) v = None) as -> by (apply dget_None; now rewrite K2).
      apply (wf_card _ _ W1). apply Irvo in Hv. tauto. }
  assert (Kc1 : forall v, In v (dkeys card1) <-> In v rvo).
  { intros v. unfold card1. rewrite In_dkeys_dupdate, K1, K2, Irvo. tauto. }
  assert (NDk : NoDup (dkeys card1)) by now apply NoDup_dkeys_dupdate.
  assert (Pk : Permutation (dkeys card1) rvo) by (apply NoDup_Permutation; assumption).
  assert (Pos : forall v, In v rvo -> 0 < cd v).
  { intros v Hv. apply Irvo in Hv as [H|H]; [apply (wf_pos _ _ W1)|apply (wf_pos _ _ W2)]; assumption. }
  assert (Sz : nprod (map snd card1) = size cd rvo).
  { rewrite (map_snd_dget cd); [|assumption|intros v Hv; apply Hc1; now apply Kc1].
    apply nprod_perm. now apply Permutation_map. }
  assert (BP : bump_pre cd (f_scope phi1) (f_scope phi2) card1 (f_card phi2) (f_stride phi1) (f_stride phi2) rvo).
  { repeat split; try assumption.
    - intros v _ H. now apply (wf_card _ _ W2).
    - intros v _ H. apply dget_In. now apply T1.
    - intros v _ H. apply dget_In. now apply T2. }
  assert (A0 : forall v, In v rvo -> dget asg0 v = Some 0).
  { intros v Hv. unfold asg0. rewrite (dget_dict_of (fun _ => 0)).
    assert (mem v ss = true) as ->; [|reflexivity]. apply mem_In, Iss. now apply Irvo. }
  assert (V0 : valid cd rvo (aof asg0)).
  { intros v Hv. unfold aof. rewrite A0 by assumption. auto. }
  assert (Rad0 : radix cd rvo (aof asg0) = 0).
  { clear -A0. induction rvo as [|v r IH]; simpl; [reflexivity|].
    rewrite IH by (intros; apply A0; now right). unfold aof. rewrite A0 by now left. lia. }
  assert (Dot0 : forall st, dot st rvo (aof asg0) = 0).
  { intros st. clear -A0. unfold dot. induction rvo as [|v r IH]; simpl; [reflexivity|].
    rewrite IH by (intros; apply A0; now right). unfold aof. rewrite A0 by now left. lia. }
  assert (I1 : incl (f_scope phi1) rvo) by (intros v Hv; apply Irvo; auto).
  assert (I2 : incl (f_scope phi2) rvo) by (intros v Hv; apply Irvo; auto).
  rewrite Sz.
  destruct (mul_loop_ok cd (f_scope phi1) (f_scope phi2) card1 (f_card phi2) (f_stride phi1) (f_stride phi2)
              (f_cpt phi1) (f_cpt phi2) rvo f1 f2 BP) with (n := size cd rvo) (asg := asg0) (j := 0%Z) (k := 0%Z)
    as (l & HL & HLen & HN).
  - intros a V. rewrite dot_rst by (assumption || apply W1).
    rewrite <- offset_dot. apply L1. now apply (valid_incl _ _ rvo).
  - intros a V. rewrite dot_rst by (assumption || apply W2).
    rewrite <- offset_dot. apply L2. now apply (valid_incl _ _ rvo).
  - intros v Hv. rewrite A0 by assumption. discriminate.
  - assumption.
  - left. lia.
  - now rewrite Dot0.
  - now rewrite Dot0.
  - rewrite HL. cbn [bind].
    destruct (run_strides_ok cd card1 rvo NDrvo Hc1 1 []) as (st & HS & HRun & HK & _); [intros v _ []|].
    rewrite HS. cbn [bind]. simpl in HK.
    eexists _, _. split; [reflexivity|].
    assert (P3 : Permutation (ask (sub o 3) ss) ss) by apply (good_ask _ _ (good_sub _ _ Go)).
    split; [|split; [|split; [|split; [|split]]]].
    + split.
      * constructor; simpl.
        -- eapply Permutation_NoDup; [symmetry; exact P3|assumption].
        -- rewrite P3, <- Pss. assumption.
        -- rewrite HK, P3. assumption.
        -- intros v Hv. apply Hc1. eapply Permutation_in; [|exact Hv]. rewrite P3. now symmetry.
        -- intros v Hv. apply Pos. eapply Permutation_in; [|exact Hv]. rewrite P3. now symmetry.
        -- exists rvo. split; [now rewrite P3|assumption].
        -- rewrite HLen. apply size_perm. rewrite P3. assumption.
      * intros a V. simpl in V.
        assert (Va : valid cd rvo a) by (eapply valid_perm; [|exact V]; now rewrite P3).
        unfold lookup. rewrite offset_dot. simpl.
        rewrite (dot_perm _ _ rvo) by (rewrite P3; now symmetry).
        rewrite (running_dot _ _ _ _ _ HRun), Nat.mul_1_l.
        rewrite (HN _ a) ; [| now apply radix_lt | assumption | lia].
        f_equal. unfold f1, f2. destruct sp; ring.
    + intros v. simpl.
      assert (In v (ask (sub o 3) ss) <-> In v ss) as -> by (split; apply Permutation_in; [|symmetry]; assumption).
      rewrite Iss. unfold phi1, phi2. destruct sp; tauto.
    + reflexivity.
    + reflexivity.
    + intros H. unfold sp, self_is_phi1. apply Nat.leb_le in H. now rewrite H.
    + destruct sp; repeat split; reflexivity.
Qed.
