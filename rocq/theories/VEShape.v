(** VEShape.v -- how many factors are left after eliminating: one per connected group. *)
From Verif Require Import Py Num BayesNet Factor SpecFactor Radix SumOver FactorMul FactorOut FactorMore FactorLaws Rounding Factorization SpecInference VE.
Open Scope nat_scope.

Definition fam (bn : bayesnet) (u : name) : list name := u :: nparents bn u.
(** [f]'s scope is the union of the families of the nodes of [g] minus [gone] *)
Definition covers (bn : bayesnet) (gone : list name) (f : factor) (g : list name) : Prop :=
  forall w, In w (f_scope f) <-> (exists u, In u g /\ In w (fam bn u)) /\ ~ In w gone.

Record ginv (bn : bayesnet) (fixed evk elim : list name) (fs : list factor) (gs : list (list name)) : Prop := {
  gi_cov : Forall2 (covers bn (evk ++ elim)) fs gs;
  gi_perm : Permutation (concat gs) (bn_V bn);
  gi_ne : forall g, In g gs -> g <> [];
  gi_con : forall g u w, In g gs -> In u g -> In w g -> clos_refl_trans _ (linked bn fixed) u w;
  gi_join : forall x u w, In x elim -> In u (bn_V bn) -> In w (bn_V bn) -> In x (fam bn u) -> In x (fam bn w) ->
            exists g, In g gs /\ In u g /\ In w g }.

Definition touches (bn : bayesnet) (v : name) (g : list name) : bool := existsb (fun u => mem v (fam bn u)) g.
Lemma touches_spec bn v g : touches bn v g = true <-> exists u, In u g /\ In v (fam bn u).
Proof.
  unfold touches. rewrite existsb_exists. split; intros (u & Hu & H); exists u; split; auto; now apply mem_In.
Qed.

Lemma Forall2_filter {A B} (R : A -> B -> Prop) p q l m : Forall2 R l m -> (forall x y, R x y -> p x = q y) ->
  Forall2 R (filter p l) (filter q m).
Proof.
  intros H E. induction H as [|x y l m H H2 IH]; simpl; [constructor|].
  rewrite (E x y H). destruct (q y); [now constructor|assumption].
Qed.
Lemma Forall2_length_eq {A B} (R : A -> B -> Prop) l m : Forall2 R l m -> length l = length m.
Proof. induction 1; simpl; congruence. Qed.
Lemma Forall2_In_l {A B} (R : A -> B -> Prop) l m x : Forall2 R l m -> In x l -> exists y, In y m /\ R x y.
Proof.
  induction 1 as [|a b l m H H2 IH]; simpl; intros I; [destruct I|]. destruct I as [->|I]; [eauto|].
  destruct (IH I) as (y & Hy & Hr). eauto.
Qed.
Lemma Forall2_In_r {A B} (R : A -> B -> Prop) l m y : Forall2 R l m -> In y m -> exists x, In x l /\ R x y.
Proof.
  induction 1 as [|a b l m H H2 IH]; simpl; intros I; [destruct I|]. destruct I as [->|I]; [eauto|].
  destruct (IH I) as (x & Hx & Hr). eauto.
Qed.
Lemma concat_filter_perm {A} (p : list A -> bool) gs :
  Permutation (concat (filter (fun g => negb (p g)) gs ++ [concat (filter p gs)])) (concat gs).
Proof.
  rewrite concat_app. simpl. rewrite app_nil_r. induction gs as [|g r IH]; simpl; [reflexivity|].
  destruct (p g); simpl.
  - rewrite Permutation_app_comm, <- app_assoc. apply Permutation_app_head. rewrite Permutation_app_comm. exact IH.
  - rewrite <- app_assoc. now apply Permutation_app_head.
Qed.
Lemma Permutation_concat_In {A} (x : A) gs l : Permutation (concat gs) l -> In x l <-> exists g, In g gs /\ In x g.
Proof.
  intros P. rewrite <- in_concat. split; intros H.
  - now apply (Permutation_in _ (Permutation_sym P)).
  - now apply (Permutation_in _ P).
Qed.

Lemma clos_rt_sym {A} (R : A -> A -> Prop) : (forall x y, R x y -> R y x) -> forall x y, clos_refl_trans _ R x y -> clos_refl_trans _ R y x.
Proof.
  intros S x y H. induction H as [x y H|x|x y z H1 IH1 H2 IH2]; [apply rt_step; auto|apply rt_refl|eapply rt_trans; eassumption].
Qed.

Lemma Forall2_filter_in {A B} (R S : A -> B -> Prop) p q l m : Forall2 R l m -> (forall x y, R x y -> p x = q y) ->
  (forall x y, R x y -> p x = true -> S x y) -> Forall2 S (filter p l) (filter q m).
Proof.
  intros H E K. induction H as [|x y l m H H2 IH]; simpl; [constructor|].
  pose proof (E x y H) as Exy. destruct (p x) eqn:Px; rewrite <- Exy; [constructor; auto|assumption].
Qed.

Lemma ginv_step bn fixed evk elim fs gs v psi' :
  ginv bn fixed evk elim fs gs -> ~ In v fixed -> ~ In v (evk ++ elim) ->
  in_scopes fs v ->
  (forall w, In w (f_scope psi') <-> in_scopes (relevant_factors v fs) w /\ w <> v) ->
  ginv bn fixed evk (elim ++ [v]) (irrelevant_factors v fs ++ [psi'])
       (filter (fun g => negb (touches bn v g)) gs ++ [concat (filter (touches bn v) gs)]).
Proof.
  intros [Cov Perm Ne Con Join] Nf Ng Iv Sp.
  assert (T : forall f g, covers bn (evk ++ elim) f g -> mem v (f_scope f) = touches bn v g).
  { intros f g H. destruct (mem_spec v (f_scope f)) as [M|M]; symmetry.
    - apply touches_spec. now apply H in M.
    - destruct (touches bn v g) eqn:E; [|reflexivity]. apply touches_spec in E. exfalso. apply M. apply H. auto. }
  assert (Sym : forall a b, linked bn fixed a b -> linked bn fixed b a) by (intros a b (Ha & Hb & x & H1 & H2 & H3); split; [assumption|]; split; [assumption|]; exists x; auto).
  constructor.
  - apply Forall2_app.
    + apply (Forall2_filter_in (covers bn (evk ++ elim))); [assumption| |].
      * intros f g H. f_equal. now apply T.
      * intros f g H Hp w. apply negb_true_iff, mem_false in Hp. rewrite (H w). rewrite !in_app_iff. simpl. split; [|tauto].
        intros [Hu Hn]. split; [assumption|]. intros [K|[K|[K|[]]]]; [tauto|tauto|].
        subst w. apply Hp. apply H. rewrite in_app_iff. auto.
    + constructor; [|constructor]. intros w. rewrite Sp. rewrite app_assoc, in_app_iff. split.
      * intros [(f & Hf & Hw) Nw]. apply In_relevant in Hf as [Hf Hv].
        destruct (Forall2_In_l _ _ _ _ Cov Hf) as (g & Hg & C). pose proof Hw as Hw'. apply C in Hw' as [(u & Hu & Hfu) Hng].
        split; [|simpl; intuition congruence]. exists u. split; [|assumption]. apply in_concat. exists g. split; [|assumption].
        apply filter_In. split; [assumption|]. rewrite <- (T f g C). now apply mem_In.
      * intros [(u & Hu & Hw) Nw]. split; [|simpl in Nw; intuition congruence].
        apply in_concat in Hu as (g & Hg & Hu). apply filter_In in Hg as [Hg Tg].
        destruct (Forall2_In_r _ _ _ _ Cov Hg) as (f & Hf & C).
        exists f. split; [apply In_relevant; split; [assumption|]; apply mem_In; now rewrite (T f g C)|].
        apply C. split; [eauto|tauto].
  - eapply perm_trans; [apply concat_filter_perm|assumption].
  - intros g Hg. apply in_app_or in Hg as [Hg|[<-|[]]].
    + apply filter_In in Hg as [Hg _]. now apply Ne.
    + destruct Iv as (f & Hf & Hv). destruct (Forall2_In_l _ _ _ _ Cov Hf) as (g & Hg & C).
      apply C in Hv as [(u & Hu & Hfu) _]. intros E.
      assert (In u (concat (filter (touches bn v) gs))) as K; [|rewrite E in K; destruct K].
      apply in_concat. exists g. split; [apply filter_In; split; [assumption|]; apply touches_spec; eauto|assumption].
  - intros g u w Hg Hu Hw. apply in_app_or in Hg as [Hg|[<-|[]]].
    + apply filter_In in Hg as [Hg _]. now apply (Con g).
    + apply in_concat in Hu as (g1 & Hg1 & Hu). apply in_concat in Hw as (g2 & Hg2 & Hw).
      apply filter_In in Hg1 as [Hg1 T1]. apply filter_In in Hg2 as [Hg2 T2].
      apply touches_spec in T1 as (u1 & Hu1 & F1). apply touches_spec in T2 as (u2 & Hu2 & F2).
      eapply rt_trans; [apply (Con g1 u u1); assumption|]. eapply rt_trans; [|apply (Con g2 u2 w); assumption].
      apply rt_step. split; [apply (Permutation_concat_In u1 _ _ Perm); eauto|]. split; [apply (Permutation_concat_In u2 _ _ Perm); eauto|].
      exists v. auto.
  - intros x u w Hx Hu Hw Fu Fw. apply in_app_or in Hx as [Hx|[<-|[]]].
    + destruct (Join x u w Hx Hu Hw Fu Fw) as (g & Hg & Gu & Gw).
      destruct (touches bn v g) eqn:Tg.
      * exists (concat (filter (touches bn v) gs)). split; [apply in_or_app; right; now left|].
        split; apply in_concat; exists g; (split; [now apply filter_In|assumption]).
      * exists g. split; [apply in_or_app; left; apply filter_In; rewrite Tg; auto|auto].
    + exists (concat (filter (touches bn v) gs)). split; [apply in_or_app; right; now left|].
      apply (Permutation_concat_In u gs _ Perm) in Hu as (g1 & Hg1 & Hu). apply (Permutation_concat_In w gs _ Perm) in Hw as (g2 & Hg2 & Hw).
      split; apply in_concat; [exists g1|exists g2]; (split; [apply filter_In; split; [assumption|]; apply touches_spec; eauto|assumption]).
Qed.

Lemma ginv_init bn fs evk fixed : Forall2 (fun v f => forall w, In w (f_scope f) <-> In w (fam bn v) /\ ~ In w evk) (bn_V bn) fs ->
  ginv bn fixed evk [] fs (map (fun v => [v]) (bn_V bn)).
Proof.
  intros H. constructor.
  - rewrite app_nil_r. revert H. generalize (bn_V bn). intros l. induction 1 as [|v f l fs H H2 IH]; simpl; constructor; [|assumption].
    intros w. rewrite H. split; intros [A B]; (split; [|assumption]).
    + exists v. simpl. auto.
    + destruct A as (u & [<-|[]] & A). assumption.
  - clear. induction (bn_V bn) as [|v l IH]; simpl; [reflexivity|now constructor].
  - intros g Hg. apply in_map_iff in Hg as (v & <- & _). discriminate.
  - intros g u w Hg Hu Hw. apply in_map_iff in Hg as (v & <- & _). destruct Hu as [<-|[]], Hw as [<-|[]]. apply rt_refl.
  - intros x u w [].
Qed.

(** at the end there is one group iff the network is connected *)
Lemma concat_disjoint {A} (gs : list (list A)) : NoDup (concat gs) ->
  forall g h u, In g gs -> In h gs -> In u g -> In u h -> g = h.
Proof.
  induction gs as [|k r IH]; intros ND g h u Hg Hh Hu Hw; [destruct Hg|]. simpl in ND.
  assert (D : forall y, In y k -> ~ In y (concat r)).
  { clear - ND. intros y Hy Hy'. induction k as [|z q IH]; [destruct Hy|]. simpl in ND. inversion ND; subst.
    destruct Hy as [->|Hy]; [apply H1; apply in_or_app; auto|now apply IH]. }
  assert (NDr : NoDup (concat r)) by (clear - ND; induction k; simpl in ND; [assumption|]; inversion ND; auto).
  destruct Hg as [->|Hg], Hh as [->|Hh]; auto.
  - exfalso. apply (D u Hu). apply in_concat. eauto.
  - exfalso. apply (D u Hw). apply in_concat. eauto.
  - now apply (IH NDr g h u).
Qed.

Lemma groups_one bn fixed evk elim fs gs : ginv bn fixed evk elim fs gs -> bn_V bn <> [] -> NoDup (bn_V bn) ->
  (forall u x, In u (bn_V bn) -> In x (fam bn u) -> ~ In x fixed -> In x elim) ->
  (length fs = 1 <-> connected bn fixed).
Proof.
  intros [Cov Perm Ne Con Join] NE ND El. rewrite (Forall2_length_eq _ _ _ Cov). split.
  - intros L. destruct gs as [|g [|g' r]]; try discriminate. intros u w Hu Hw.
    apply (Con g); [now left| |]; [apply (Permutation_concat_In u _ _ Perm) in Hu|apply (Permutation_concat_In w _ _ Perm) in Hw].
    + destruct Hu as (h & [<-|[]] & Hu). assumption.
    + destruct Hw as (h & [<-|[]] & Hw). assumption.
  - intros C.
    assert (NDc : NoDup (concat gs)) by (eapply Permutation_NoDup; [symmetry; exact Perm|assumption]).
    pose proof (concat_disjoint gs NDc) as U.
    assert (K : forall u w, clos_refl_trans _ (linked bn fixed) u w -> forall g, In g gs -> In u g -> In w g).
    { intros u w H. apply clos_rt_rt1n in H. induction H as [u|u y w L H IH]; intros g Hg Hu; [assumption|].
      destruct L as (Vu & Vy & x & Hx & Fu & Fy).
      destruct (Join x u y (El u x Vu Fu Hx) Vu Vy Fu Fy) as (h & Hh & Hu' & Hy').
      assert (g = h) by (apply (U g h u); auto). subst h. auto. }
    destruct gs as [|g [|g' r]].
    + simpl in Perm. apply Permutation_nil in Perm. contradiction.
    + reflexivity.
    + exfalso.
      assert (I1 : In g (g :: g' :: r)) by (simpl; auto). assert (I2 : In g' (g :: g' :: r)) by (simpl; auto).
      destruct g as [|u gu]; [now apply (Ne [] I1)|]. destruct g' as [|w gw]; [now apply (Ne [] I2)|].
      assert (Vu : In u (bn_V bn)) by (apply (Permutation_concat_In u _ _ Perm); exists (u :: gu); simpl; auto).
      assert (Vw : In w (bn_V bn)) by (apply (Permutation_concat_In w _ _ Perm); exists (w :: gw); simpl; auto).
      pose proof (K u w (C u w Vu Vw) (u :: gu) I1 (or_introl eq_refl)) as Iw.
      simpl in NDc. change (NoDup ((u :: gu) ++ (w :: gw) ++ concat r)) in NDc.
      revert NDc Iw. generalize (u :: gu). intros l NDc Iw. induction l as [|z q IH]; [destruct Iw|].
      simpl in NDc. inversion NDc; subst. destruct Iw as [->|Iw]; [|auto].
      apply H1. apply in_or_app. right. now left.
Qed.

(** the groups after a whole sum-product or max-product pass *)
Lemma sum_elim_groups bn fixed evk order : forall o z gs elim, good o -> fine (ncard bn) bn (fz_phi z) ->
  ginv bn fixed evk elim (fz_phi z) gs -> NoDup order ->
  (forall v, In v order -> in_scopes (fz_phi z) v /\ ~ In v fixed /\ ~ In v (evk ++ elim)) ->
  forall z', elim_all fz_sum_elim o z order = Ok z' -> exists gs', ginv bn fixed evk (elim ++ order) (fz_phi z') gs'.
Proof.
  induction order as [|v r IH]; intros o z gs elim Go F G ND I z' E.
  - simpl in E. inversion E; subst. rewrite app_nil_r. eauto.
  - inversion ND as [|? ? Hn Hr]; subst. destruct (I v (or_introl eq_refl)) as (Iv & Nf & Ng).
    destruct (sum_elim_ok (ncard bn) bn (sub o 0) z v (good_sub _ 0 Go) F Iv) as (psi' & E1 & F1 & Sp & S1 & _).
    cbn [elim_all] in E. rewrite E1 in E. cbn [bind] in E.
    replace (elim ++ v :: r) with ((elim ++ [v]) ++ r) by now rewrite <- app_assoc.
    eapply (IH (sub o 1) (mkFz (fz_bn z) (irrelevant_factors v (fz_phi z) ++ [psi']) (fz_map z) (fz_asg z))); [exact (good_sub _ 1 Go)|exact F1|cbn [fz_phi]; eapply ginv_step; eassumption|assumption| |exact E].
    intros w Hw. destruct (I w (or_intror Hw)) as (Iw & Nfw & Ngw). cbn [fz_phi]. split; [apply S1; split; [assumption|congruence]|].
    split; [assumption|]. rewrite app_assoc, in_app_iff. simpl. intuition congruence.
Qed.

Lemma evidence_scopes bn fs fs' ks : Forall2 (fun v f => f_scope f = v :: nparents bn v) (bn_V bn) fs ->
  Forall2 (fun f f' => forall w, In w (f_scope f') <-> In w (f_scope f) /\ ~ In w ks) fs fs' ->
  Forall2 (fun v f => forall w, In w (f_scope f) <-> In w (fam bn v) /\ ~ In w ks) (bn_V bn) fs'.
Proof.
  intros H. revert fs'. induction H as [|v f l fs H H2 IH]; intros fs' K; inversion K; subst; constructor; auto.
  intros w. rewrite H3, H. reflexivity.
Qed.

(** The run leaves exactly one factor iff the network is connected outside target and evidence. *)
Lemma sum_run_length bn target ev o z' : wfnet bn -> In target (bn_V bn) -> good_evidence bn ev ->
  ~ In target (map fst ev) -> good o ->
  (do z <- fz_init bn ;; do p <- apply_evidence (sub o 0) z (remove1 target (bn_V bn)) ev ;;
     elim_all fz_sum_elim (sub o 1) (fst p) (snd p)) = Ok z' ->
  (length (fz_phi z') = 1 <-> connected bn (target :: map fst ev)).
Proof.
  intros W Ht GE Nt Go E. destruct (fz_init_ok bn W) as (fs & E0 & F & S0 & S & P). rewrite E0 in E. cbn [bind] in E.
  set (z := mkFz bn fs [] []) in *.
  assert (NDV : NoDup (bn_V bn)) by apply W.
  assert (ND1 : NoDup (remove1 target (bn_V bn))) by now apply NoDup_remove1.
  assert (I1 : incl (map fst ev) (remove1 target (bn_V bn))).
  { intros w Hw. apply In_remove1; [assumption|]. split; [|congruence].
    apply in_map_iff in Hw as ([q u] & <- & Hq). now apply (proj2 GE) in Hq. }
  destruct (apply_evidence_ok bn ev W (sub o 0) z (remove1 target (bn_V bn)) GE F ND1 I1) as (z1 & E1 & _ & _ & F1 & S1 & _ & _ & _).
  rewrite E1 in E. cbn [bind fst snd] in E.
  set (order := minus (remove1 target (bn_V bn)) (map fst ev)) in *.
  assert (Ho : forall w, In w order <-> In w (bn_V bn) /\ w <> target /\ ~ In w (map fst ev)).
  { intros w. unfold order. rewrite In_minus by assumption. rewrite In_remove1 by assumption. tauto. }
  pose proof (Forall2_scopes_ev _ _ _ S1) as SS1.
  pose proof (evidence_scopes bn fs (fz_phi z1) (map fst ev) S0 S1) as S2.
  destruct (sum_elim_groups bn (target :: map fst ev) (map fst ev) order (sub o 1) z1 _ [] (good_sub _ 1 Go) F1
             (ginv_init bn (fz_phi z1) (map fst ev) (target :: map fst ev) S2)) with (z' := z') as (gs' & G').
  { now apply NoDup_minus. }
  { intros v Hv. apply Ho in Hv as (H1 & H2 & H3). split; [apply SS1; split; [now apply S|assumption]|].
    split; [simpl; intuition congruence|]. now rewrite app_nil_r. }
  { assumption. }
  apply (groups_one bn (target :: map fst ev) (map fst ev) _ _ gs' G').
  - intros E2. rewrite E2 in Ht. destruct Ht.
  - assumption.
  - intros u x Hu [<-|Hx] Hn; simpl; apply Ho; simpl in Hn.
    + intuition congruence.
    + split; [now apply (wn_par _ W u Hu)|intuition congruence].
Qed.

(** marginal_ve_e: full description on valid queries *)
Lemma marginal_result bn target ev o : wfnet bn -> In target (bn_V bn) -> good_evidence bn ev ->
  ~ In target (map fst ev) -> good o ->
  (connected bn (target :: map fst ev) /\
     exists f, marginal_factor o bn target ev = Ok f /\ f_cpt f = map (marginal bn target ev) (seq 0 (ncard bn target))) \/
  (~ connected bn (target :: map fst ev) /\ marginal_factor o bn target ev = Raise NameError).
Proof.
  intros W Ht GE Nt Go. destruct (sum_run_ok bn target ev o W Ht GE Nt Go) as (z & z' & E & Er & Ea & F & S & P).
  assert (L : length (fz_phi z') = 1 <-> connected bn (target :: map fst ev)).
  { apply (sum_run_length bn target ev o z'); auto. rewrite E. cbn [bind]. exact Ea. }
  assert (M : marginal_factor o bn target ev = consolidate (fz_phi z')).
  { unfold marginal_factor. rewrite E. cbn [bind]. rewrite Er. cbn [bind].
    apply bind_Ok in Ea as (p & Ep & Ea). rewrite Ep. cbn [bind]. rewrite Ea. reflexivity. }
  rewrite M. destruct (fz_phi z') as [|f [|g r]] eqn:Ez; cbn [consolidate].
  - exfalso. destruct (proj2 (S target) eq_refl) as (f & [] & _).
  - left. split; [now apply L|]. exists f. split; [reflexivity|].
    destruct (F f (or_introl eq_refl)) as [Wf _].
    rewrite (single_cpt (ncard bn) f target Wf).
    + apply map_ext_in. intros x Hx. apply in_seq in Hx. rewrite <- P by lia. unfold prodval. simpl. ring.
    + intros w. rewrite <- (S w). split; [intros H; exists f; simpl; auto|intros (g & [<-|[]] & H); assumption].
  - right. split; [|reflexivity]. intros C. apply L in C. discriminate.
Qed.
