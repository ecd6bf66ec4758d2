(** FaithfulMain.v -- the constraint-based learners run with a faithful test. *)
From Verif Require Import Py Num BayesNet SpecFactor SpecGraph SpecInference SpecConstraint SpecMarkov SpecFaithful MarkovFacts MarkovSep ConstraintFacts
  Graph GraphNet Data ParamLearn StructScore Constraint ConstraintMain FaithfulFacts.
Open Scope nat_scope.

Lemma dep_not_indep test alpha x y z : dep test alpha x y z -> ~ indep test alpha x y z.
Proof. intros (p & E & L) (q & E' & L'). rewrite E in E'. injection E' as <-. apply (Qclt_not_le _ _ L). now apply Qclt_le_weak. Qed.
Lemma rest_props s y r : NoDup s -> rest_of s y r -> NoDup r /\ ~ In y r /\ In y s /\ forall v, In v s <-> v = y \/ In v r.
Proof.
  intros N (a & b & -> & ->). split; [now apply NoDup_remove_1 in N|]. split; [now apply NoDup_remove_2 in N|]. split; [apply in_or_app; simpl; auto|].
  intros v. rewrite !in_app_iff. simpl. intuition.
Qed.

Lemma blanket_dec bn x y : in_blanket bn x y \/ ~ in_blanket bn x y.
Proof.
  assert (P : forall u v, is_parent bn u v \/ ~ is_parent bn u v) by (intros u v; unfold is_parent; destruct (in_dec name_eq_dec v (bn_V bn)), (in_dec name_eq_dec u (nparents bn v)); tauto).
  assert (Q : forall l, (exists c, In c l /\ is_parent bn x c /\ is_parent bn y c) \/ ~ exists c, In c l /\ is_parent bn x c /\ is_parent bn y c).
  { induction l as [|c l IH]; [right; intros (c & [] & _)|]. destruct IH as [(c' & H1 & H2)|IH]; [left; exists c'; split; [now right|exact H2]|].
    destruct (P x c), (P y c); [left; exists c; split; [now left|auto]| | |]; right; intros (c' & [<-|H'] & H1 & H2); try contradiction; apply IH; eauto. }
  unfold in_blanket, adjacent. destruct (name_eqb_spec y x) as [|Ne]; [right; tauto|]. destruct (P x y); [left; tauto|]. destruct (P y x); [left; tauto|].
  destruct (Q (bn_V bn)) as [(c & _ & H1 & H2)|Q']; [left; split; [exact Ne|right; eauto]|right]. intros [_ [[]|(c & H1 & H2)]]; try contradiction. apply Q'. exists c. split; [apply H1|auto].
Qed.

Section Faithful.
Variables (bn : bayesnet) (n : nat) (test : ptest) (alpha : Qc).
Hypothesis D : dag_net bn.
Hypothesis HV : forall v, In v (bn_V bn) <-> In v (columns n).
Hypothesis F : faithful bn test alpha.

(** a set outside which nothing depends on [x] contains the blanket of [x] *)
Lemma grown_contains x s : In x (columns n) -> NoDup s -> incl s (columns n) -> ~ In x s ->
  (forall y, In y (columns n) -> y <> x -> ~ In y s -> ~ dep test alpha x y s) -> forall y, in_blanket bn x y -> In y s.
Proof.
  intros Hx N I Nx G.
  assert (A1 : forall y, In y (columns n) -> y <> x -> (exists d, active bn s x y d) -> In y s).
  { intros y Hy Ne Ac. destruct (in_dec name_eq_dec y s) as [H|H]; [exact H|]. exfalso. apply (G y Hy Ne H). apply (F x y s); auto; [now apply HV|now apply HV|intros v Hv; apply HV; auto]. }
  intros y B. destruct (blanket_nodes bn x y D B) as [_ Hy]. apply HV in Hy. destruct B as [Ne [B|(c & H1 & H2)]]; apply A1; auto; [now apply adjacent_active|].
  exists Up. apply (spouse_active bn s x y c); auto. apply A1; [apply HV; apply H1|intros ->; now apply (no_self bn x)|]. apply adjacent_active; [now left|exact Nx].
Qed.
(** members depend on [x] given the rest, others do not *)
Lemma member_dep x s y r : In x (columns n) -> NoDup s -> incl s (columns n) -> ~ In x s -> (forall y, in_blanket bn x y -> In y s) -> rest_of s y r -> in_blanket bn x y -> dep test alpha x y r.
Proof.
  intros Hx N I Nx C R B. destruct (rest_props s y r N R) as (Nr & Ny & Iy & E). assert (Nxr : ~ In x r) by (intros H; apply Nx, E; auto).
  apply (F x y r); auto; [now apply HV|apply HV; auto|intros ->; contradiction|intros v Hv; apply HV, I, E; auto|].
  destruct B as [Ne [B|(c & H1 & H2)]]; [now apply adjacent_active|]. exists Up. apply (spouse_active bn r x y c); auto.
  assert (Ic : In c s). { apply C. split; [intros ->; now apply (no_self bn x)|left; now left]. } apply E in Ic as [-> |Ic]; [exfalso; now apply (no_self bn y)|exact Ic].
Qed.
Lemma other_indep x s y r : In x (columns n) -> NoDup s -> incl s (columns n) -> ~ In x s -> (forall y, in_blanket bn x y -> In y s) -> rest_of s y r -> ~ in_blanket bn x y -> indep test alpha x y r.
Proof.
  intros Hx N I Nx C R B. destruct (rest_props s y r N R) as (Nr & Ny & Iy & E). assert (Nxr : ~ In x r) by (intros H; apply Nx, E; auto). assert (Ne : x <> y) by (intros ->; contradiction).
  apply (F x y r); auto; [now apply HV|apply HV; auto|intros v Hv; apply HV, I, E; auto|].
  intros d Ac. assert (B' : forall v, in_blanket bn x v -> In v r). { intros v Hv. assert (C' := C v Hv). apply E in C' as [-> |C']; [contradiction|exact C']. }
  destruct (blanket_blocks bn r x y d D B' Ac) as [-> |H]; [congruence|contradiction].
Qed.
Lemma blanket_exact x s : In x (columns n) -> blanket test alpha (columns n) x s -> forall y, In y s <-> in_blanket bn x y.
Proof.
  intros Hx (N & I & Nx & M & O). assert (C := grown_contains x s Hx N I Nx O). intros y. split; [|apply C]. intros Hy.
  assert (R : exists r, rest_of s y r) by (apply in_split in Hy as (a & b & ->); exists (a ++ b), a, b; auto). destruct R as (r & R).
  assert (Dec := blanket_dec bn x y).
  destruct Dec as [B|B]; [exact B|]. exfalso. apply (dep_not_indep test alpha x y r); [now apply M|now apply (other_indep x s)].
Qed.

(** ** resolve_markov_blanket *)
Lemma linked_adjacent Mb x y : (forall v l, dget Mb v = Some l -> NoDup l) -> (forall v, In v (columns n) -> exists s, dget Mb v = Some s /\ forall w, In w s <-> in_blanket bn v w) -> dkeys Mb = columns n ->
  (linked test alpha Mb x y <-> adjacent bn x y).
Proof.
  intros NL HB K. assert (EM : forall v w, edge Mb v w -> In v (columns n) /\ in_blanket bn v w).
  { intros v w (l & Dl & Hw). assert (Hv : In v (columns n)) by (rewrite <- K; now apply dget_Some_In in Dl). destruct (HB v Hv) as (s & Ds & Hs). rewrite Dl in Ds. injection Ds as <-. split; [exact Hv|now apply Hs]. }
  assert (Filt : forall v l w, dget Mb v = Some l -> In v (columns n) -> forall u, In u (filter (fun u => negb (name_eqb u w)) l) <-> in_blanket bn v u /\ u <> w).
  { intros v l w Dl Hv u. destruct (HB v Hv) as (s & Ds & Hs). rewrite Dl in Ds. injection Ds as <-. rewrite filter_In, Hs, negb_true_iff. destruct (name_eqb_spec u w); intuition congruence. }
  split.
  - intros [E L]. destruct (EM x y E) as [Hx B]. destruct (blanket_nodes bn x y D B) as [Vx Vy]. assert (Hy : In y (columns n)) by now apply HV.
    assert (Dec : adjacent bn x y \/ ~ adjacent bn x y) by (unfold adjacent, is_parent; destruct (in_dec name_eq_dec x (nparents bn y)), (in_dec name_eq_dec y (nparents bn x)); tauto).
    destruct Dec as [A|A]; [exact A|]. exfalso. destruct B as [Ne B].
    destruct (HB x Hx) as (mx & Dx & _), (HB y Hy) as (my & Dy & _).
    set (T := if length mx <? length my then filter (fun v => negb (name_eqb v y)) mx else filter (fun v => negb (name_eqb v x)) my).
    assert (SB : smaller_blanket Mb x y T) by (exists mx, my; auto).
    assert (Z : exists z, sublist z T /\ length z < length T /\ d_separated bn z x y /\ ~ In x z /\ ~ In y z /\ NoDup T /\ incl T (bn_V bn)).
    { unfold T. destruct (length mx <? length my).
      - destruct (separating_set bn x y (filter (fun v => negb (name_eqb v y)) mx) D Vx Vy) as (z & Sz & Dz & Lz); auto; [apply NoDup_filter; now apply (NL x)|].
        exists z. split; [exact Sz|]. split; [apply Lz; now split|]. split; [exact Dz|]. assert (Iz := sublist_incl _ _ Sz).
        split; [intros I; apply Iz, (Filt x mx y Dx Hx) in I as [[I _] _]; congruence|]. split; [intros I; apply Iz, (Filt x mx y Dx Hx) in I; tauto|].
        split; [apply NoDup_filter; now apply (NL x)|]. intros v Hv. apply (Filt x mx y Dx Hx) in Hv as [Hv _]. now apply (blanket_nodes bn x v D).
      - assert (A' : ~ adjacent bn y x) by (unfold adjacent in *; tauto).
        destruct (separating_set bn y x (filter (fun v => negb (name_eqb v x)) my) D Vy Vx) as (z & Sz & Dz & Lz); auto; [apply NoDup_filter; now apply (NL y)|].
        assert (Iz := sublist_incl _ _ Sz). assert (Nx : ~ In x z) by (intros I; apply Iz, (Filt y my x Dy Hy) in I; tauto). assert (Ny : ~ In y z) by (intros I; apply Iz, (Filt y my x Dy Hy) in I as [[I _] _]; congruence).
        assert (IV : incl (filter (fun v => negb (name_eqb v x)) my) (bn_V bn)) by (intros v Hv; apply (Filt y my x Dy Hy) in Hv as [Hv _]; now apply (blanket_nodes bn y v D)).
        exists z. split; [exact Sz|]. split; [apply Lz; apply blanket_sym; now split|]. split; [apply dsep_sym; auto; intros v Hv; auto|]. split; [exact Nx|]. split; [exact Ny|].
        split; [apply NoDup_filter; now apply (NL y)|exact IV]. }
    destruct Z as (z & Sz & Lz & Dz & Nx & Ny & NT & IT). apply (L T SB z Sz Lz). apply (F x y z); auto; [eapply sublist_NoDup; eauto|intros v Hv; apply IT; now apply (sublist_incl _ _ Sz)].
  - intros A. assert (B : in_blanket bn x y) by (split; [intros ->; destruct A as [A|A]; now apply (no_self bn x)|now left]).
    destruct (blanket_nodes bn x y D B) as [Vx Vy]. assert (Hx : In x (columns n)) by now apply HV. assert (Hy : In y (columns n)) by now apply HV. split.
    + destruct (HB x Hx) as (s & Ds & Hs). exists s. split; [exact Ds|now apply Hs].
    + intros T (mx & my & Dx & Dy & ->) s Ss _. apply dep_not_indep.
      assert (IT : incl s (bn_V bn) /\ ~ In x s /\ ~ In y s /\ NoDup s).
      { destruct (length mx <? length my); assert (Is := sublist_incl _ _ Ss); (split; [|split; [|split]]).
        - intros v Hv. apply Is, (Filt x mx y Dx Hx) in Hv as [Hv _]. now apply (blanket_nodes bn x v D).
        - intros I. apply Is, (Filt x mx y Dx Hx) in I as [[I _] _]. congruence.
        - intros I. apply Is, (Filt x mx y Dx Hx) in I. tauto.
        - eapply sublist_NoDup; [exact Ss|]. apply NoDup_filter. now apply (NL x).
        - intros v Hv. apply Is, (Filt y my x Dy Hy) in Hv as [Hv _]. now apply (blanket_nodes bn y v D).
        - intros I. apply Is, (Filt y my x Dy Hy) in I. tauto.
        - intros I. apply Is, (Filt y my x Dy Hy) in I as [[I _] _]. congruence.
        - eapply sublist_NoDup; [exact Ss|]. apply NoDup_filter. now apply (NL y). }
      destruct IT as (IT & Nx & Ny & Ns). destruct B as [Ne _]. apply (F x y s); auto. now apply adjacent_active.
Qed.
End Faithful.
