(** Properties_Faithful.v -- C137 to C140: the constraint-based learners when the test answers exactly the
    d-separations of a directed acyclic graph over the columns.  Specification: SpecFaithful.v, SpecMarkov.v. *)
From Verif Require Import Py Num BayesNet SpecFactor SpecGraph SpecInference SpecConstraint SpecMarkov SpecFaithful MarkovFacts MarkovSep ConstraintFacts
  Graph GraphNet GraphTheory GraphCheck Data ParamLearn StructScore StructFacts Constraint ConstraintMain FaithfulFacts FaithfulMain PerfectTest Properties_Constraint.
Open Scope nat_scope.

(** faithful tests exist: the perfect test of SpecConstraint.v, used in the refutations of C55 to C76, is one *)
Theorem C137_perfect_test : forall dag alpha, dag_net (net_of dag) -> (0 < alpha)%Qc -> (alpha < 1)%Qc -> faithful (net_of dag) (perfect' dag) alpha.
Proof. intros dag alpha D A0 A1. apply perfect_faithful; [exact D| |exact A0|exact A1]. intros x y z. reflexivity. Qed.
Print Assumptions C137_perfect_test.

(** ** C137: the blankets of gs *)
(** the grow phase finds the whole Markov blanket *)
Theorem C137_grow : forall bn n test alpha x, dag_net bn -> (forall v, In v (bn_V bn) <-> In v (columns n)) -> faithful bn test alpha -> answers test -> In x (columns n) ->
  exists s, grow (S n) test alpha n x [] = Ok s /\ forall y, in_blanket bn x y -> In y s.
Proof.
  intros bn n test alpha x D HV F A Hx. destruct (C57_grow test alpha n x A) as (s & E & N & I & Nx & G). exists s. split; [exact E|]. now apply (grown_contains bn n test alpha D HV F x s).
Qed.
Print Assumptions C137_grow.
(** the shrink phase returns it if it found nothing else, and otherwise never ends *)
Theorem C137_shrink : forall bn n test alpha x s, dag_net bn -> (forall v, In v (bn_V bn) <-> In v (columns n)) -> faithful bn test alpha -> answers test -> In x (columns n) ->
  grow (S n) test alpha n x [] = Ok s ->
  ((forall y, In y s -> in_blanket bn x y) -> forall fuel, shrink (S fuel) test alpha x s = Ok s) /\
  ((exists y, In y s /\ ~ in_blanket bn x y) -> forall fuel, shrink fuel test alpha x s = Raise OutOfFuel).
Proof.
  intros bn n test alpha x s D HV F A Hx E. destruct (C57_grow test alpha n x A) as (s' & E' & N & I & Nx & G). rewrite E in E'. injection E' as <-.
  assert (C := grown_contains bn n test alpha D HV F x s Hx N I Nx G). destruct (C57_shrink test alpha x s A N) as [S1 S2]. split.
  - intros H. apply S1. intros y r R. apply (member_dep bn n test alpha D HV F x s y r); auto. apply H. destruct (rest_props s y r N R) as (_ & _ & Iy & _). exact Iy.
  - intros (y & Hy & Nb). apply S2. apply in_split in Hy as (a & b & E'). exists y, (a ++ b). assert (R : rest_of s y (a ++ b)) by (exists a, b; auto). split; [exact R|].
    intros Dp. apply (dep_not_indep _ _ _ _ _ Dp). now apply (other_indep bn n test alpha D HV F x s y (a ++ b)).
Qed.
Print Assumptions C137_shrink.
(** so when the blankets are returned they are the Markov blankets *)
Theorem C137_blankets : forall bn fuel n test alpha Mb, dag_net bn -> (forall v, In v (bn_V bn) <-> In v (columns n)) -> faithful bn test alpha ->
  gs_blankets fuel test alpha n (columns n) = Ok Mb -> forall x, In x (columns n) -> exists s, dget Mb x = Some s /\ NoDup s /\ forall y, In y s <-> in_blanket bn x y.
Proof.
  intros bn fuel n test alpha Mb D HV F E x Hx. destruct (gs_blankets_ok fuel test alpha n (columns n) Mb (fun z Hz => Hz) E) as (K & L & B).
  destruct (B x Hx) as (s & Ds & Bs). exists s. split; [exact Ds|]. split; [apply Bs|]. now apply (blanket_exact bn n test alpha D HV F).
Qed.
Print Assumptions C137_blankets.
(** and gs never returns as soon as one grow phase has picked up a column that is not in the Markov blanket *)
Theorem C137_diverges : forall bn fuel o test alpha t x s y, dag_net bn -> (forall v, In v (bn_V bn) <-> In v (columns (t_ncols t))) -> faithful bn test alpha -> answers test -> table_ok t ->
  In x (columns (t_ncols t)) -> grow (S (t_ncols t)) test alpha (t_ncols t) x [] = Ok s -> In y s -> ~ in_blanket bn x y ->
  gs fuel o test alpha t SelNone = Raise OutOfFuel.
Proof.
  intros bn fuel o test alpha t x s y D HV F A T Hx E Hy Nb. unfold gs. destruct (value_dict_ok t T) as (vd & -> & _). cbn [bind].
  destruct (C57_grow test alpha (t_ncols t) x A) as (s' & E' & N & I & Nx & G). rewrite E in E'. injection E' as <-.
  assert (C := grown_contains bn _ test alpha D HV F x s Hx N I Nx G). assert (Hy' := Hy). apply in_split in Hy' as (a & b & Es). assert (R : rest_of s y (a ++ b)) by (exists a, b; auto).
  rewrite (gs_blankets_loops fuel test alpha (t_ncols t) (columns (t_ncols t)) x s y (a ++ b)); auto; [intros z Hz; exact Hz|].
  intros Dp. apply (dep_not_indep _ _ _ _ _ Dp). now apply (other_indep bn (t_ncols t) test alpha D HV F x s y (a ++ b)).
Qed.
Print Assumptions C137_diverges.

(** ** C138: adjacencies *)
(** resolve_markov_blanket turns the Markov blankets into exactly the adjacencies of the graph, although it never
    conditions on the whole smaller blanket (C56_full_refuted): a proper subset always suffices *)
Theorem C138_skeleton : forall bn n test alpha Mb, dag_net bn -> (forall v, In v (bn_V bn) <-> In v (columns n)) -> faithful bn test alpha -> answers test ->
  dkeys Mb = columns n -> (forall x, In x (columns n) -> exists s, dget Mb x = Some s /\ NoDup s /\ forall y, In y s <-> in_blanket bn x y) ->
  exists E, resolve_markov_blanket test alpha n Mb = Ok E /\ adjacency (columns n) E /\ forall x y, edge E x y <-> adjacent bn x y.
Proof.
  intros bn n test alpha Mb D HV F A K B.
  assert (NL : forall v l, dget Mb v = Some l -> NoDup l /\ incl l (columns n)).
  { intros v l Dl. assert (Hv : In v (columns n)) by (rewrite <- K; now apply dget_Some_In in Dl). destruct (B v Hv) as (s & Ds & N & Hs). rewrite Dl in Ds. injection Ds as <-. split; [exact N|].
    intros w Hw. apply HV. apply Hs in Hw. now apply (blanket_nodes bn v w). }
  destruct (C56_resolve test alpha n Mb K NL) as [R1 R2]. destruct (resolve_markov_blanket test alpha n Mb) as [E|e] eqn:EE.
  2:{ destruct (R1 e eq_refl) as (c & Hc). destruct (A c). congruence. }
  destruct (R2 E eq_refl) as (KE & LE & SE & Lk). exists E. split; [reflexivity|].
  assert (LA : forall x y, linked test alpha Mb x y <-> adjacent bn x y).
  { intros x y. apply (linked_adjacent bn n test alpha D HV F); auto; [intros v l Dl; now apply NL in Dl|]. intros v Hv. destruct (B v Hv) as (s & Ds & _ & Hs). eauto. }
  assert (EA : forall x y, edge E x y <-> adjacent bn x y) by (intros x y; rewrite Lk, !LA; unfold adjacent; tauto).
  split; [|exact EA]. constructor; auto.
  - intros x l Dl. split; [now apply (LE x)|]. intros y Hy. assert (Ed : edge E x y) by (exists l; auto). apply EA in Ed. apply HV.
    assert (Bl : in_blanket bn x y) by (split; [intros ->; destruct Ed as [H|H]; now apply (no_self bn x)|now left]). now apply (blanket_nodes bn x y).
  - intros x H. apply EA in H. destruct H as [H|H]; now apply (no_self bn x).
Qed.
Print Assumptions C138_skeleton.
(** every edge of a network that gs returns joins adjacent nodes of the graph *)
Theorem C138_gs : forall bn fuel o test t l, dag_net bn -> (forall v, In v (bn_V bn) <-> In v (columns (t_ncols t))) -> faithful bn test alpha05 -> answers test -> good o -> table_ok t ->
  gs fuel o test alpha05 t SelNone = Ok l -> exists bn', l = Net bn' /\ dkeys (bn_E bn') = columns (t_ncols t) /\ forall x y, edge (bn_E bn') x y -> adjacent bn x y.
Proof.
  intros bn fuel o test t l D HV F A Go T H. set (n := t_ncols t) in *. unfold gs in H. destruct (value_dict_ok t T) as (vd & EV & _). rewrite EV in H. cbn [bind] in H. fold n in H.
  apply bind_Ok in H as (Mb & EM & H). apply bind_Ok in H as (E & EE & H). apply bind_Ok in H as (D' & ED & H). apply bind_Ok in H as (bn' & EB & H). injection H as <-.
  destruct (gs_blankets_ok _ _ _ _ _ _ (fun z Hz => Hz) EM) as (K & L & _).
  destruct (C138_skeleton bn n test alpha05 Mb D HV F A K (C137_blankets bn fuel n test alpha05 Mb D HV F EM)) as (E' & EE' & AE & HE). rewrite EE in EE'. injection EE' as <-.
  assert (C := adjacency_closed _ _ (NoDup_columns n) AE).
  pose proof (safe_Ok _ _ _ _ (orient_edges_MB_ok test alpha05 n Mb K o E Go C (ad_keys _ _ AE) (fun x l Dl => proj1 (ad_lists _ _ AE x l Dl))) ED) as (KD & LD & SD).
  destruct (build_ok D' t vd T EV KD) as (bn2 & EB' & HE' & _ & Inc & _).
  { split; [rewrite KD; apply NoDup_columns|]. intros u v Huv. rewrite KD, <- (ad_keys _ _ AE). apply (proj2 C u). auto. }
  rewrite EB in EB'. injection EB' as <-. exists bn'. split; [reflexivity|]. rewrite HE'. split; [exact KD|]. intros x y Hxy. apply HE. auto.
Qed.
Print Assumptions C138_gs.

(** ** C139: pc *)
(** pc keeps every true adjacency, and the separating sets it records separate *)
Theorem C139_keeps : forall bn test alpha n E B, dag_net bn -> (forall v, In v (bn_V bn) <-> In v (columns n)) -> faithful bn test alpha ->
  pc_skeleton test alpha n = Ok (E, B) -> forall x y, adjacent bn x y -> edge E x y.
Proof.
  intros bn test alpha n E B D HV F H x y Ad. destruct (C55_skeleton test alpha n E B H) as (AE & S & _).
  assert (Bl : in_blanket bn x y) by (split; [intros ->; destruct Ad as [K|K]; now apply (no_self bn x)|now left]). destruct (blanket_nodes bn x y D Bl) as [Vx Vy]. destruct Bl as [Ne _].
  assert (Dec : edge E x y \/ ~ edge E x y).
  { assert (Hx : In x (dkeys E)) by (rewrite (ad_keys _ _ AE); now apply HV). destruct (In_dget _ _ Hx) as (l & Dl). destruct (in_dec name_eq_dec y l) as [I|I]; [left; exists l; auto|right]. intros (l' & Dl' & I'). congruence. }
  destruct Dec as [K|K]; [exact K|]. exfalso. destruct (S x y) as (z & _ & Nz & Iz & Nxz & Nyz & [I|I]); auto; [now apply HV|now apply HV| |].
  - apply (dep_not_indep test alpha x y z); [|exact I]. apply (F x y z); auto; [intros v Hv; apply HV; auto|now apply adjacent_active].
  - apply (dep_not_indep test alpha y x z); [|exact I]. apply (F y x z); auto; [intros v Hv; apply HV; auto|]. apply adjacent_active; [unfold adjacent in *; tauto|exact Nyz].
Qed.
Print Assumptions C139_keeps.
Theorem C139_separates : forall bn test alpha n E B x y s, dag_net bn -> (forall v, In v (bn_V bn) <-> In v (columns n)) -> faithful bn test alpha ->
  pc_skeleton test alpha n = Ok (E, B) -> In x (columns n) -> In y (columns n) -> x <> y -> recorded B x y s -> d_separated bn s x y /\ ~ adjacent bn x y.
Proof.
  intros bn test alpha n E B x y s D HV F H Hx Hy Ne R. destruct (C55_skeleton test alpha n E B H) as (_ & _ & S). destruct (S x y s R) as (NE & _ & Ns & Is & Nx & Ny & I).
  assert (Vs : incl s (bn_V bn)) by (intros v Hv; apply HV; auto). apply HV in Hx as Vx. apply HV in Hy as Vy. split.
  - destruct I as [I|I].
    + intros d Ac. apply (dep_not_indep test alpha x y s); [|exact I]. apply (F x y s); eauto.
    + apply dsep_sym; auto. intros d Ac. apply (dep_not_indep test alpha y x s); [|exact I]. apply (F y x s); eauto.
  - intros Ad. apply NE. now apply (C139_keeps bn test alpha n E B D HV F H).
Qed.
Print Assumptions C139_separates.

(** ** C140: iamb *)
(** with a measure of association that is 0 exactly for separated columns, the growing phase finds the whole blanket *)
Theorem C140_grow : forall bn n o mi test T, dag_net bn -> (forall v, In v (bn_V bn) <-> In v (columns n)) -> faithful bn test alpha05 -> faithful_measure bn mi -> answers mi -> answers test ->
  good o -> In T (columns n) -> exists m, iamb_grow (S n) o mi test n T [] = Ok m /\ forall y, in_blanket bn T y -> In y m.
Proof.
  intros bn n o mi test T D HV F FM Am At Go HT. destruct (C58_grow o mi test n T [] Go Am At (NoDup_nil _) (fun z (h : In z []) => match h with end) (fun h => h)) as (m & E & N & _ & I & NT & St).
  exists m. split; [exact E|]. destruct St as (cands & HC & St). assert (Vm : incl m (bn_V bn)) by (intros v Hv; apply HV; auto). apply HV in HT as VT.
  assert (A1 : forall y, In y (columns n) -> y <> T -> (exists d, active bn m T y d) -> In y m).
  { intros y Hy Ne Ac. destruct (in_dec name_eq_dec y m) as [H|H]; [exact H|]. exfalso. apply HV in Hy as Vy. assert (Ic : In y cands) by (apply HC; auto).
    assert (NS : ~ d_separated bn m y T) by (apply active_not_sep; auto).
    (* connected candidates exist, so the best one is not separated *)
    destruct (FM y T m Vy VT Ne N Vm H NT) as (v & Ev & V0 & V1).
    destruct St as [NC|(mx & (Imx & w & Ew & Lw & Best) & Nd)].
    - destruct (FM y T m) as (v' & Ev' & _ & _); auto. specialize (NC y v Ic Ev). apply NS. intros d Ac'. specialize (V1 (ex_intro _ d Ac')). apply (Qclt_not_le _ _ V1). eapply Qcle_trans; [exact NC|discriminate].
    - apply NS. intros d Ac'. specialize (V1 (ex_intro _ d Ac')). specialize (Best y v Ic Ev). apply HC in Imx as (Hmx & Nmx & Im). apply HV in Hmx.
      destruct (FM mx T m Hmx VT Nmx N Vm Im NT) as (w' & Ew' & W0 & _). rewrite Ew in Ew'. injection Ew' as <-.
      assert (NSm : ~ d_separated bn m mx T) by (intros Ds; rewrite (W0 Ds) in Best; now apply (Qclt_not_le _ _ V1)). apply NSm. intros d' Ac''. apply Nd. apply (F mx T m); eauto. }
  intros y Bl. destruct (blanket_nodes bn T y D Bl) as [_ Vy]. apply HV in Vy as Hy. destruct Bl as [Ne [B|(c & H1 & H2)]]; apply A1; auto; [now apply adjacent_active|].
  exists Up. apply (spouse_active bn m T y c); auto. apply A1; [apply HV; apply H1|intros ->; now apply (no_self bn T)|]. apply adjacent_active; [now left|exact NT].
Qed.
Print Assumptions C140_grow.

(** the shrinking phase drops the first column of the grown list exactly when it belongs to the Markov blanket *)
Lemma shrink_keeps_head fuel o test alpha T x pos m m' : good o -> NoDup (x :: m) -> iamb_shrink fuel o test alpha T (S pos) (x :: m) = Ok m' -> In x m'.
Proof.
  intros Go. revert pos m. induction fuel as [|f IH]; intros pos m N H; [discriminate|]. cbn [iamb_shrink nth_error] in H. destruct (nth_error m pos) as [X|] eqn:EX; [|injection H as <-; now left].
  apply nth_error_In in EX. assert (Ne : X <> x) by (inversion N; congruence). apply bind_Ok in H as (d & _ & H). apply bind_Ok in H as (l & El & H). destruct d; [|injection El as <-; now apply (IH (S pos) m)].
  unfold list_remove in El. destruct (mem X (x :: m)); [|discriminate]. assert (El' : l = remove1 X (x :: m)) by congruence. clear El. subst l. assert (E : remove1 X (x :: m) = x :: remove1 X m) by (cbn [remove1]; destruct (name_eqb_spec X x); [congruence|reflexivity]).
  rewrite E in H. apply (IH (S pos) (remove1 X m)); [|exact H]. rewrite <- E. now apply Py.NoDup_remove1.
Qed.
Theorem C140_shrink_first : forall bn n o test alpha T x m m' fuel, dag_net bn -> (forall v, In v (bn_V bn) <-> In v (columns n)) -> faithful bn test alpha -> answers test -> good o ->
  In T (columns n) -> NoDup (x :: m) -> incl (x :: m) (columns n) -> ~ In T (x :: m) -> (forall y, in_blanket bn T y -> In y (x :: m)) ->
  length (x :: m) < fuel -> iamb_shrink fuel o test alpha T 0 (x :: m) = Ok m' -> (In x m' <-> ~ in_blanket bn T x).
Proof.
  intros bn n o test alpha T x m m' fuel D HV F A Go HT N I NT C Lf H. destruct fuel as [|f]; [discriminate|]. cbn [iamb_shrink nth_error] in H.
  set (r := ask (sub o 0) (set_diff (x :: m) [x])) in *.
  assert (Pr : Permutation r (set_diff (x :: m) [x])) by (apply good_ask, good_sub, Go).
  assert (Hr : forall v, In v r <-> In v m). { intros v. rewrite (Permutation_in' eq_refl Pr), In_set_diff. simpl. inversion N as [|? ? Nx _]; subst. intuition congruence. }
  assert (Nr : NoDup r) by (eapply Permutation_NoDup; [symmetry; exact Pr|apply NoDup_set_diff]).
  assert (Hx : In x (columns n)) by (apply I; now left). assert (NeT : x <> T) by (intros ->; apply NT; now left). assert (Nx : ~ In x r) by (rewrite Hr; now inversion N).
  assert (NTr : ~ In T r) by (rewrite Hr; intros K; apply NT; now right). assert (Ir : incl r (bn_V bn)) by (intros v Hv; apply HV, I; right; now apply Hr).
  apply HV in Hx as Vx. apply HV in HT as VT. destruct (F x T r Vx VT NeT Nr Ir Nx NTr) as [F1 F2]. unfold are_independent in H. apply bind_Ok in H as (d & Ed & H). apply bind_Ok in Ed as (p & Ep & Ed). injection Ed as <-.
  apply bind_Ok in H as (m1 & Em & H). destruct (p_lt p alpha) eqn:PL.
  - assert (Dp : dep test alpha x T r) by (now apply (p_lt_dep _ _ _ _ _ _ Ep)).
    assert (B : in_blanket bn T x).
    { destruct (blanket_dec bn T x) as [B|B]; [exact B|]. exfalso. apply (dep_not_indep _ _ _ _ _ Dp). apply F1. apply dsep_sym; auto. intros d Ac.
      destruct (blanket_blocks bn r T x d D) as [-> |K]; [|exact Ac|congruence|contradiction]. intros v Hv. apply Hr. destruct (C v Hv) as [<-|K]; [contradiction|exact K]. }
    split; [|contradiction]. intros K _. unfold list_remove in Em. destruct (mem x (x :: m)); [|discriminate]. assert (Em' : m1 = remove1 x (x :: m)) by congruence. clear Em. subst m1.
    assert (E : remove1 x (x :: m) = m) by (cbn [remove1]; destruct (name_eqb_spec x x); [reflexivity|congruence]). rewrite E in H. inversion N as [|? ? Nm N']; subst.
    pose proof (iamb_shrink_ok test alpha T f o 1 m (length m + 1) Go N' ltac:(lia) ltac:(lia)) as S. cbn [length] in Lf. specialize (S ltac:(lia)). rewrite H in S. destruct S as (_ & Im & _). apply Nm, Im, K.
  - injection Em as <-. split; [|intros _; now apply (shrink_keeps_head f o test alpha T x 0 m)]. intros _ B. rewrite <- not_true_iff_false in PL. apply PL.
    assert (Dp : dep test alpha x T r).
    { apply F2. destruct B as [_ [B|(c & H1 & H2)]]; [apply adjacent_active; [unfold adjacent in *; tauto|exact Nx]|]. exists Up. apply (spouse_active bn r x T c); auto.
      assert (Ic : In c (x :: m)) by (apply C; split; [intros ->; now apply (no_self bn T)|left; now left]). apply Hr. destruct Ic as [<-|Ic]; [exfalso; now apply (no_self bn x)|exact Ic]. }
    destruct Dp as (q & Eq & Lq). rewrite Ep in Eq. injection Eq as ->. now apply qltb_lt.
Qed.
Print Assumptions C140_shrink_first.
(** hence, however the sets are iterated, iamb never returns a Markov blanket that has a member: as soon as the growing phase
    has found something, the blanket recorded for the column lacks a true member or contains a false one *)
Lemma iamb_blankets_each o mi test alpha n targets Mb T : incl targets (columns n) -> NoDup targets -> iamb_blankets o mi test alpha n targets = Ok Mb -> In T targets ->
  exists i m s, iamb_grow (S n) (sub (sub o i) 0) mi test n T [] = Ok m /\ iamb_shrink (S (length m)) (sub (sub o i) 1) test alpha T 0 m = Ok s /\ dget Mb T = Some s.
Proof.
  intros Inc N H HT. unfold iamb_blankets in H. revert H.
  assert (Es : map snd (enum targets) = targets).
  { unfold enum. assert (forall (a : list name) k, map snd (combine (seq k (length a)) a) = a) as G. { induction a as [|x a IH]; intros k; [reflexivity|]. simpl. now rewrite IH. } apply G. }
  assert (G : forall l M0 Mb, (forall x, In x (map snd l) -> dget M0 x = Some []) -> NoDup (map snd l) ->
    foldM (fun Mb iT => do m0 <- getitem Mb (snd iT) ;;
        do m1 <- iamb_grow (S n) (sub (sub o (fst iT)) 0) mi test n (snd iT) m0 ;;
        do m2 <- iamb_shrink (S (length m1)) (sub (sub o (fst iT)) 1) test alpha (snd iT) 0 m1 ;;
        Ok (dset Mb (snd iT) m2)) l M0 = Ok Mb ->
    (forall x, ~ In x (map snd l) -> dget Mb x = dget M0 x) /\ forall x, In x (map snd l) ->
    exists i m s, iamb_grow (S n) (sub (sub o i) 0) mi test n x [] = Ok m /\ iamb_shrink (S (length m)) (sub (sub o i) 1) test alpha x 0 m = Ok s /\ dget Mb x = Some s).
  { induction l as [|iT l IH]; intros M0 M E0 Nd H; cbn [foldM] in H; [injection H as <-; split; [reflexivity|intros x []]|].
    cbn [map] in *. inversion Nd as [|? ? Nin Nd']; subst. unfold getitem at 1 in H. rewrite (E0 (snd iT)) in H by (now left). cbn [bind] in H.
    apply bind_Ok in H as (M1 & E1 & H). apply bind_Ok in E1 as (m1 & Eg & E1). apply bind_Ok in E1 as (m2 & Esh & E1). injection E1 as <-.
    destruct (IH (dset M0 (snd iT) m2) M) as [IH1 IH2]; auto.
    { intros x Hx. rewrite dget_dset. destruct (name_eqb_spec x (snd iT)) as [-> |_]; [contradiction|]. apply E0. now right. }
    split.
    - intros x Hx. rewrite IH1; [|intros K; apply Hx; now right]. rewrite dget_dset. destruct (name_eqb_spec x (snd iT)) as [-> |_]; [exfalso; apply Hx; now left|reflexivity].
    - intros x [<-|Hx]; [|now apply IH2]. exists (fst iT), m1, m2. split; [exact Eg|]. split; [exact Esh|]. rewrite IH1 by exact Nin. rewrite dget_dset. destruct (name_eqb_spec (snd iT) (snd iT)); congruence. }
  intros H. destruct (G (enum targets) (edgeless n) Mb) as [_ G2]; [|now rewrite Es|exact H|apply G2; now rewrite Es].
  rewrite Es. intros x Hx. apply Inc in Hx. unfold columns in Hx. rewrite <- edgeless_keys in Hx. apply In_dget in Hx as (l & Dl). rewrite Dl. f_equal. now apply edgeless_get in Dl.
Qed.
Theorem C140_never_exact : forall bn n o mi test alpha Mb, dag_net bn -> (forall v, In v (bn_V bn) <-> In v (columns n)) -> faithful bn test alpha05 -> faithful bn test alpha -> faithful_measure bn mi ->
  answers mi -> answers test -> good o -> iamb_blankets o mi test alpha n (columns n) = Ok Mb ->
  forall T s, In T (columns n) -> dget Mb T = Some s -> (forall y, In y s <-> in_blanket bn T y) -> s = [] /\ forall y, ~ in_blanket bn T y.
Proof.
  intros bn n o mi test alpha Mb D HV F5 F FM Am At Go H T s HT Ds Ex.
  destruct (iamb_blankets_each o mi test alpha n (columns n) Mb T (fun z Hz => Hz) (NoDup_columns n) H HT) as (i & m & s' & Eg & Es & Ds'). rewrite Ds in Ds'. injection Ds' as <-.
  set (o' := sub (sub o i) 0) in *. assert (Go' : good o') by (now apply good_sub, good_sub).
  destruct (C140_grow bn n o' mi test T D HV F5 FM Am At Go' HT) as (m' & Em & C). rewrite Eg in Em. injection Em as <-.
  destruct (C58_grow o' mi test n T [] Go' Am At (NoDup_nil _) (fun z (h : In z []) => match h with end) (fun h => h)) as (m' & Em & N & _ & I & NT & _). rewrite Eg in Em. injection Em as <-.
  destruct m as [|x m].
  - cbn in Es. injection Es as <-. split; [reflexivity|]. intros y Hy. apply (C y Hy).
  - exfalso. assert (K := C140_shrink_first bn n (sub (sub o i) 1) test alpha T x m s (S (length (x :: m))) D HV F At (good_sub _ _ (good_sub _ _ Go)) HT N I NT C (Nat.lt_succ_diag_r _) Es).
    rewrite Ex in K. tauto.
Qed.
Print Assumptions C140_never_exact.

(** ** the hypotheses are met *)
Lemma dag_net_of dag : forallb (fun i => forallb (fun j => j <? i) (nth i dag [])) (seq 0 (length dag)) = true -> dag_net (net_of dag).
Proof.
  intros H. rewrite forallb_forall in H.
  assert (B : forall i j, i < length dag -> In j (nth i dag []) -> j < i). { intros i j L Hj. specialize (H i ltac:(apply in_seq; lia)). rewrite forallb_forall in H. now apply Nat.ltb_lt, H. }
  constructor.
  - apply NoDup_columns.
  - intros v Hv p Hp. cbn [bn_V net_of] in *. apply In_columns in Hv as (i & -> & L). rewrite net_parents in Hp. apply in_map_iff in Hp as (j & <- & Hj). apply In_columns. exists j. split; [reflexivity|]. specialize (B i j L Hj). lia.
  - exists (columns (length dag)). split; [reflexivity|]. intros p v q E u Hu.
    assert (NE : forall k, k < length dag -> nth_error (columns (length dag)) k = Some (NInt k)).
    { intros k L. unfold columns. rewrite nth_error_map. rewrite (nth_error_nth' _ 0) by (now rewrite seq_length). rewrite seq_nth by exact L. reflexivity. }
    assert (Lp : length p < length dag). { apply (f_equal (@length name)) in E. unfold columns in E. rewrite map_length, seq_length, app_length in E. cbn [length] in E. lia. }
    assert (Ev : v = NInt (length p)). { specialize (NE _ Lp). rewrite E, nth_error_app2, Nat.sub_diag in NE by lia. cbn in NE. congruence. }
    subst v. rewrite net_parents in Hu. apply in_map_iff in Hu as (j & <- & Hj). specialize (B _ _ Lp Hj). apply (nth_error_In p j). rewrite <- (NE j) by lia. rewrite E. now rewrite nth_error_app1.
Qed.
Lemma assoc_faithful dag : dag_net (net_of dag) -> faithful_measure (net_of dag) (assoc_of dag).
Proof.
  intros D x y z Hx Hy Ne Nz Iz Nx Ny. assert (A0 : (0 < alpha05)%Qc) by reflexivity. assert (A1 : (alpha05 < 1)%Qc) by reflexivity.
  destruct (C137_perfect_test dag alpha05 D A0 A1 x y z Hx Hy Ne Nz Iz Nx Ny) as [F1 F2]. unfold assoc_of.
  assert (P : perfect' dag (x :: y :: z) = Ok (Some 1%Qc) \/ perfect' dag (x :: y :: z) = Ok (Some 0%Qc)) by (unfold perfect', perfect; destruct (d_separatedb _ _ _ _); auto).
  destruct P as [P|P]; rewrite P; eexists; (split; [reflexivity|]); split.
  - intros _. apply Qc_is_canon. reflexivity.
  - intros Ac. apply F2 in Ac as (p & Ep & Lp). rewrite P in Ep. injection Ep as <-. discriminate Lp.
  - intros Ds. apply F1 in Ds as (p & Ep & Lp). rewrite P in Ep. injection Ep as <-. discriminate Lp.
  - intros _. reflexivity.
Qed.
Lemma assoc_answers dag : answers (assoc_of dag).
Proof. intros c. unfold assoc_of. destruct (perfect'_answers dag c) as (p & ->). destruct p; eauto. Qed.

(** 0 -> 2 <- 1: the blankets are everything, gs returns, and its skeleton is the graph *)
Example C137_example : let dag := [[]; []; [0; 1]] in dag_net (net_of dag) /\ faithful (net_of dag) (perfect' dag) alpha05 /\ answers (perfect' dag) /\ table_ok (tab 3) /\
  in_blanket (net_of dag) c0 c1 /\ ~ adjacent (net_of dag) c0 c1 /\
  gs_blankets 1 (perfect' dag) alpha05 3 (columns 3) = Ok [(c0, [c2; c1]); (c1, [c2; c0]); (c2, [c0; c1])].
Proof.
  intros dag. assert (D : dag_net (net_of dag)) by (apply dag_net_of; reflexivity). split; [exact D|]. split; [now apply C137_perfect_test|]. split; [apply perfect'_answers|].
  split; [apply tab_ok|].
  split; [split; [discriminate|right; exists c2; split; (split; [vm_compute; tauto|vm_compute; tauto])]|]. split; [intros [[_ H]|[_ H]]; exact H|]. vm_compute. reflexivity.
Qed.

Lemma net_of_columns dag n : length dag = n -> forall v, In v (bn_V (net_of dag)) <-> In v (columns n).
Proof. intros <- v. reflexivity. Qed.
Example C138_example : let dag := [[]; []; [0; 1]] in
  resolve_markov_blanket (perfect' dag) alpha05 3 [(c0, [c2; c1]); (c1, [c2; c0]); (c2, [c0; c1])] = Ok [(c0, [c2]); (c1, [c2]); (c2, [c0; c1])] /\
  exists l, gs 1 id_oracle (perfect' dag) alpha05 (tab 3) SelNone = Ok l.
Proof. cbv zeta. split; [vm_compute; reflexivity|]. eexists. vm_compute. reflexivity. Qed.
(** the skeleton is right but not the directions: with a perfect test for 0 -> 2 <- 1, gs returns the edges 0 -> 2, 1 -> 2 and 2 -> 1, a cycle *)
Theorem C138_directions_refuted : exists dag t bn', dag_net (net_of dag) /\ faithful (net_of dag) (perfect' dag) alpha05 /\ table_ok t /\ t_ncols t = length dag /\
  gs 1 id_oracle (perfect' dag) alpha05 t SelNone = Ok (Net bn') /\ edge (bn_E bn') c1 c2 /\ edge (bn_E bn') c2 c1 /\ ~ is_parent (net_of dag) c2 c1.
Proof.
  exists [[]; []; [0; 1]], (tab 3). eexists. assert (D : dag_net (net_of [[]; []; [0; 1]])) by (apply dag_net_of; reflexivity). split; [exact D|]. split; [now apply C137_perfect_test|].
  split; [apply tab_ok|]. split; [reflexivity|]. split; [vm_compute; reflexivity|]. split; [eexists; split; [reflexivity|now left]|]. split; [eexists; split; [reflexivity|now left]|]. intros [_ H]. exact H.
Qed.
Print Assumptions C138_directions_refuted.
(** 0 -> 1 -> 2: the grow phase of column 2 picks up column 0 *)
Example C137_diverges_example : let dag := [[]; [0]; [1]] in dag_net (net_of dag) /\ grow 4 (perfect' dag) alpha05 3 c2 [] = Ok [c0; c1] /\ ~ in_blanket (net_of dag) c2 c0.
Proof.
  cbv zeta. split; [apply dag_net_of; reflexivity|]. split; [vm_compute; reflexivity|]. intros [_ [[[_ H]|[_ H]]|(c & [_ H1] & [Hc H2])]]; try (vm_compute in H; intuition congruence).
  vm_compute in Hc. destruct Hc as [<-|[<-|[<-|[]]]]; vm_compute in H1, H2; intuition congruence.
Qed.
Example C139_example : exists E B, pc_skeleton (perfect' [[]; [0]; [1]]) alpha05 3 = Ok (E, B) /\ edge E c0 c1 /\ recorded B c0 c2 [c1].
Proof. eexists _, _. split; [vm_compute; reflexivity|]. split; [eexists; split; [reflexivity|now left]|]. eexists. split; reflexivity. Qed.
Example C140_example : let dag := [[]; [0]; []] in dag_net (net_of dag) /\ faithful_measure (net_of dag) (assoc_of dag) /\ answers (assoc_of dag) /\
  iamb_grow 4 id_oracle (assoc_of dag) (perfect' dag) 3 c0 [] = Ok [c2; c1] /\ in_blanket (net_of dag) c0 c1 /\
  iamb_shrink 3 id_oracle (perfect' dag) alpha05 c0 0 [c2; c1] = Ok [c2].
Proof.
  cbv zeta. assert (D : dag_net (net_of [[]; [0]; []])) by (apply dag_net_of; reflexivity). split; [exact D|]. split; [now apply assoc_faithful|]. split; [apply assoc_answers|].
  split; [vm_compute; reflexivity|]. split; [split; [discriminate|]; left; left; split; vm_compute; tauto|]. vm_compute. reflexivity.
Qed.
