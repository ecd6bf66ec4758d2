(** Properties_Order.v -- the order in which a network is written down does not change its answers; saving and loading (C146). *)
From Verif Require Import Py Num BayesNet Factor Rounding Factorization SpecFactor SpecInference SpecGraph SpecSample Graph GraphNet GraphCheck IO JsonFacts
  Radix SumOver FactorOut VE VETotal VEShape VEMap QueryErr Sampling SampleLaws Examples Properties_Inference Properties_Query Properties_Coherence Properties_Graph Properties_IO Properties_Sample SpecLaw Properties_Law.
From Coq Require Import Lia Relations.
Open Scope nat_scope.

(** the same nodes, in any order, each with the same parents, values and conditional probabilities *)
Definition same_model (bn1 bn2 : bayesnet) : Prop :=
  Permutation (bn_V bn1) (bn_V bn2) /\
  forall v, In v (bn_V bn1) -> nparents bn1 v = nparents bn2 v /\ nvalues bn1 v = nvalues bn2 v /\ forall a, cond_prob bn1 v a = cond_prob bn2 v a.
Lemma same_model_sym bn1 bn2 : same_model bn1 bn2 -> same_model bn2 bn1.
Proof.
  intros [P H]. split; [now symmetry|]. intros v Hv. apply (Permutation_in _ (Permutation_sym P)) in Hv. destruct (H v Hv) as (H1 & H2 & H3).
  split; [auto|]. split; [auto|]. intros a. symmetry. apply H3.
Qed.
Lemma same_model_joint bn1 bn2 : same_model bn1 bn2 -> same_joint bn1 bn2.
Proof.
  intros [P H]. split; [exact P|]. split; [intros v Hv; now apply H|]. intros a _. unfold joint.
  rewrite (map_ext_in _ (fun v => getq (cond_prob bn2 v a))); [apply qprod_perm, Permutation_map, P|].
  intros v Hv. f_equal. now apply H.
Qed.
Lemma connected_model bn1 bn2 f : same_model bn1 bn2 -> connected bn1 f -> connected bn2 f.
Proof.
  intros [P H] C u w Hu Hw. apply (Permutation_in _ (Permutation_sym P)) in Hu, Hw. specialize (C u w Hu Hw). clear Hu Hw.
  induction C as [u w (H1 & H2 & x & H3 & H4 & H5)|u|u y w C1 IH1 C2 IH2]; [|apply rt_refl|eapply rt_trans; eauto].
  apply rt_step. split; [now apply (Permutation_in _ P)|]. split; [now apply (Permutation_in _ P)|]. exists x. split; [assumption|].
  destruct (H u H1) as (<- & _). destruct (H w H2) as (<- & _). auto.
Qed.
Lemma answerable_model bn1 bn2 t ev : same_model bn1 bn2 -> answerable bn1 t ev -> answerable bn2 t ev.
Proof.
  intros [P H] [A B]. split; [now apply (Permutation_in _ P)|]. intros v x K. destruct (B v x K) as (B1 & B2 & B3).
  split; [now apply (Permutation_in _ P)|]. split; [exact B2|]. destruct (H v B1) as (_ & <- & _). exact B3.
Qed.
Lemma good_evidence_model bn1 bn2 ev : same_model bn1 bn2 -> good_evidence bn1 ev -> good_evidence bn2 ev.
Proof.
  intros [P H] [A B]. split; [exact A|]. intros v x K. destruct (B v x K) as (B1 & B2).
  split; [now apply (Permutation_in _ P)|]. destruct (H v B1) as (_ & <- & _). exact B2.
Qed.

(** every query ends in the same way, with the same numbers or the same exception *)
Theorem C146_marginal : forall bn1 bn2 t ev o1 o2, wfnet bn1 -> wfnet bn2 -> same_model bn1 bn2 -> good o1 -> good o2 -> NoDup (map fst ev) ->
  marginal_ve_e o1 bn1 t ev = marginal_ve_e o2 bn2 t ev.
Proof.
  intros bn1 bn2 t ev o1 o2 W1 W2 S G1 G2 ND. pose proof (same_model_sym _ _ S) as S'.
  destruct (query_ends bn1 t ev o1 W1 ND G1) as [(A1 & E1)|[(A1 & C1 & E1)|(A1 & C1 & E1)]];
  destruct (query_ends bn2 t ev o2 W2 ND G2) as [(A2 & E2)|[(A2 & C2 & E2)|(A2 & C2 & E2)]];
    try (exfalso; first [apply A1; now apply (answerable_model bn2)|apply A2; now apply (answerable_model bn1)|apply C1; now apply (connected_model bn2)|apply C2; now apply (connected_model bn1)]).
  - now rewrite E1, E2.
  - now rewrite E1, E2.
  - destruct (marginal_ve_e o1 bn1 t ev) as [l1|] eqn:Q1; [|discriminate]. destruct (marginal_ve_e o2 bn2 t ev) as [l2|] eqn:Q2; [|discriminate].
    apply f_equal. exact (C143_joint_decides_marginals bn1 bn2 t ev o1 o2 l1 l2 W1 W2 G1 G2 (same_model_joint _ _ S) ND Q1 Q2).
Qed.
Print Assumptions C146_marginal.
(** both give a most probable explanation (where several are equally probable, perhaps not the same one), and report the same probability or the same exception *)
Theorem C146_map : forall bn1 bn2 ev o1 o2, wfnet bn1 -> wfnet bn2 -> nonneg_net bn1 -> nonneg_net bn2 -> same_model bn1 bn2 -> good o1 -> good o2 ->
  good_evidence bn1 ev -> bn_V bn1 <> [] ->
  exists m1 m2, ve_map o1 bn1 ev = Ok m1 /\ ve_map o2 bn2 ev = Ok m2 /\ joint bn1 (asg_of bn1 m1) = joint bn1 (asg_of bn1 m2) /\
    ((exists q, ve_map_prob o1 bn1 ev = Ok (q, m1) /\ ve_map_prob o2 bn2 ev = Ok (q, m2)) \/
     (ve_map_prob o1 bn1 ev = Raise NameError /\ ve_map_prob o2 bn2 ev = Raise NameError)).
Proof.
  intros bn1 bn2 ev o1 o2 W1 W2 N1 N2 S G1 G2 GE NE. pose proof (same_model_sym _ _ S) as S'. pose proof (good_evidence_model _ _ _ S GE) as GE2.
  assert (NE2 : bn_V bn2 <> []). { intros E. apply NE. destruct S as [P _]. rewrite E in P. now apply Permutation_sym, Permutation_nil in P. }
  destruct (C16_ve_map bn1 ev o1 W1 N1 GE G1) as (m1 & E1 & _). destruct (C16_ve_map bn2 ev o2 W2 N2 GE2 G2) as (m2 & E2 & _).
  exists m1, m2. split; [exact E1|]. split; [exact E2|].
  destruct (C143_joint_decides_maxima bn1 bn2 ev o1 o2 m1 m2 W1 W2 N1 N2 G1 G2 (same_model_joint _ _ S) GE E1 E2) as [J1 J2]. split; [exact J1|].
  destruct (ve_map_prob_result bn1 ev o1 W1 N1 GE G1 NE) as [(C1 & a & Ea & Pa)|(C1 & Pa)];
  destruct (ve_map_prob_result bn2 ev o2 W2 N2 GE2 G2 NE2) as [(C2 & b & Eb & Pb)|(C2 & Pb)];
    try (exfalso; first [apply C1; now apply (connected_model bn2)|apply C2; now apply (connected_model bn1)]).
  - left. rewrite E1 in Ea. rewrite E2 in Eb. inversion Ea. inversion Eb. subst a b. exists (py_round 5 (joint bn1 (asg_of bn1 m1))). split; [exact Pa|]. now rewrite J2.
  - right. auto.
Qed.
Print Assumptions C146_map.

(** in particular, a network saved by write_bn and loaded by read_bn answers every query as before, whatever order the loaded dicts have *)
Theorem C146_reloaded : forall o bn, good o -> wfnet bn -> closed_edges (bn_E bn) -> acyclic (bn_E bn) -> Permutation (bn_V bn) (dkeys (bn_E bn)) -> NoDup (dkeys (bn_F bn)) ->
  (forall k, In k (dkeys (bn_E bn)) \/ In k (dkeys (bn_F bn)) -> exists s, k = NStr s) ->
  exists bn', read_json o (Some (write_json bn)) = Ok bn' /\ same_model bn' bn /\
    (forall t ev o1 o2, good o1 -> good o2 -> NoDup (map fst ev) -> marginal_ve_e o1 bn' t ev = marginal_ve_e o2 bn t ev) /\
    (forall ev o1 o2, nonneg_net bn -> good o1 -> good o2 -> good_evidence bn ev -> bn_V bn <> [] ->
       exists m1 m2, ve_map o1 bn' ev = Ok m1 /\ ve_map o2 bn ev = Ok m2 /\ joint bn (asg_of bn m1) = joint bn (asg_of bn m2)).
Proof.
  intros o bn G W CE AC PV NF St. destruct (C48_distribution o bn G W CE AC PV NF St) as (bn' & E & W' & P & H & _ & _).
  destruct (C48_roundtrip o bn G CE NF St) as (bn'' & E' & _ & _ & _ & DF & _). rewrite E in E'. inversion E'. subst bn''. clear E'.
  assert (S : same_model bn' bn) by (split; [exact P|intros v _; apply H]).
  exists bn'. split; [exact E|]. split; [exact S|]. split.
  - intros t ev o1 o2 G1 G2 ND. now apply C146_marginal.
  - intros ev o1 o2 NN G1 G2 GE NE.
    assert (NN' : nonneg_net bn'). { intros v x Hv Hx. apply (Permutation_in _ P) in Hv. unfold ncpt in Hx. rewrite DF in Hx. now apply (NN v). }
    destruct (C146_map bn bn' ev o2 o1 W W' NN NN' (same_model_sym _ _ S) G2 G1 GE NE) as (m2 & m1 & E2 & E1 & J & _).
    exists m1, m2. auto.
Qed.
Print Assumptions C146_reloaded.

(** if both lists of nodes are topological, random_sample draws any given table of values from both with the same frequency
    (over all streams of draws on a grid fine enough for the tables) *)
Theorem C146_same_law : forall bn1 bn2 M d o1 o2 junk1 junk2 n (a : nat -> asg), wfnet bn1 -> wfnet bn2 -> nonneg_net bn1 -> nonneg_net bn2 -> normalised bn1 -> normalised bn2 ->
  nodes_topological bn1 -> nodes_topological bn2 -> same_model bn1 bn2 -> denominator bn1 M -> denominator bn2 M -> positions d ->
  (forall i, i < n -> valid (ncard bn1) (bn_V bn1) (a i)) ->
  fraction (cells M n (length (bn_V bn1)))
    (fun c => same_table (random_sample o1 bn1 (junk1 c) (draws M d c) n) (map (fun i => map (fun v => Z.of_nat (a i v)) (bn_V bn1)) (seq 0 n))) =
  fraction (cells M n (length (bn_V bn2)))
    (fun c => same_table (random_sample o2 bn2 (junk2 c) (draws M d c) n) (map (fun i => map (fun v => Z.of_nat (a i v)) (bn_V bn2)) (seq 0 n))).
Proof.
  intros bn1 bn2 M d o1 o2 junk1 junk2 n a W1 W2 N1 N2 O1 O2 T1 T2 S D1 D2 Pd V. pose proof (same_model_joint _ _ S) as (P & Vs & J).
  rewrite (C111_independent_rows bn1 M d o1 junk1 n a W1 N1 O1 T1 D1 Pd V). rewrite (C111_independent_rows bn2 M d o2 junk2 n a W2 N2 O2 T2 D2 Pd).
  - f_equal. apply map_ext_in. intros i Hi. apply J, V. apply in_seq in Hi. lia.
  - intros i Hi v Hv. apply (Permutation_in _ (Permutation_sym P)) in Hv. rewrite ncard_values, <- (Vs v Hv), <- ncard_values. now apply V.
Qed.
Print Assumptions C146_same_law.
(** sampling is not so lucky: a network that forward_sample can sample (for every stream of draws) may be loaded with a node before
    one of its parents, and then forward_sample raises KeyError, for every number of samples and every stream of draws *)
Definition exSaved : bayesnet := mkBN (bn_V ex3) exDag (bn_F ex3).
Lemma exSaved_ok : wfnet exSaved /\ closed_edges (bn_E exSaved) /\ acyclic (bn_E exSaved) /\ Permutation (bn_V exSaved) (dkeys (bn_E exSaved)) /\ NoDup (dkeys (bn_F exSaved)) /\
  (forall k, In k (dkeys (bn_E exSaved)) \/ In k (dkeys (bn_F exSaved)) -> exists s, k = NStr s) /\ agree exSaved.
Proof.
  split; [apply wfnetb_ok; vm_compute; reflexivity|]. split; [now apply closedb_ok|]. split; [now apply acyclicb_ok|]. split; [reflexivity|]. split; [now apply nodupb_ok|].
  split; [|apply agreeb_ok; vm_compute; reflexivity].
  intros k H. assert (HH : k = exA \/ k = exB \/ k = exC) by (simpl in H; intuition). destruct HH as [-> |[-> | ->]]; eexists; reflexivity.
Qed.
Theorem C146_sampling_refuted : exists bn bn', wfnet bn /\ closed_edges (bn_E bn) /\ acyclic (bn_E bn) /\ agree bn /\
  read_json id_oracle (Some (write_json bn)) = Ok bn' /\ same_model bn' bn /\
  forall o u n, unit_draws u -> 0 < n -> (exists D, forward_sample o bn u n = Ok D) /\ forward_sample o bn' u n = Raise KeyError.
Proof.
  destruct exSaved_ok as (W & CE & AC & PV & NF & St & Ag).
  destruct (C146_reloaded id_oracle exSaved good_id W CE AC PV NF St) as (bn' & E & S & _).
  destruct (C48_distribution id_oracle exSaved good_id W CE AC PV NF St) as (b & E' & W' & _). rewrite E in E'. inversion E'. subst b. clear E'.
  destruct (C48_roundtrip id_oracle exSaved good_id CE NF St) as (b & E' & _ & _ & _ & DF & _). rewrite E in E'. inversion E'. subst b. clear E'.
  exists exSaved, bn'. split; [exact W|]. split; [exact CE|]. split; [exact AC|]. split; [exact Ag|]. split; [exact E|]. split; [exact S|].
  assert (NN : nonneg_net exSaved) by exact ex3_nonneg. assert (NO : normalised exSaved) by exact ex3_norm. assert (TP : nodes_topological exSaved) by exact ex3_top.
  pose proof S as [P H].
  assert (NN' : nonneg_net bn'). { intros v x Hv Hx. apply (Permutation_in _ P) in Hv. unfold ncpt in Hx. rewrite DF in Hx. now apply (NN v). }
  assert (EC : forall v, ncard bn' v = ncard exSaved v) by (intros v; unfold ncard; now rewrite DF).
  assert (NO' : normalised bn').
  { intros v a Hv V. pose proof (Permutation_in _ P Hv) as Hv'. rewrite EC. rewrite <- (NO v a Hv').
    - f_equal. apply map_ext. intros x. f_equal. now apply H.
    - intros w Hw. rewrite <- EC. apply V. now apply (Permutation_in _ (Permutation_sym P)). }
  assert (EV : bn_V bn' = [exA; exC; exB]).
  { pose proof (f_equal (fun r => match r with Ok b => bn_V b | _ => [] end) E) as Q. cbn beta iota in Q. rewrite <- Q. vm_compute. reflexivity. }
  intros o u n U L. split.
  - destruct (C44_forward_sample exSaved o u n W NN (normalised_nearly _ NO) TP U L) as (s & _ & F). eexists. exact F.
  - apply (C44_misordered_raises bn' o u n [exA] exC [exB] exB W' NN' (normalised_nearly _ NO') U L EV); [|intros [Q|[]]; discriminate].
    unfold nparents. rewrite DF. vm_compute. auto.
Qed.
Print Assumptions C146_sampling_refuted.
(** a concrete pair: the same network with its nodes and dicts listed backwards; both are asked about B given C *)
Definition exBack : bayesnet := mkBN [exC; exB; exA] (rev exDag) (rev (bn_F ex3)).
Example C146_example : wfnet exSaved /\ wfnet exBack /\ same_model exSaved exBack /\ nonneg_net exSaved /\
  (exists l, marginal_ve_e id_oracle exSaved exB [(exC, nm "1")] = Ok l /\ marginal_ve_e rev_oracle exBack exB [(exC, nm "1")] = Ok l) /\
  good_evidence exSaved [(exC, nm "1")].
Proof.
  split; [apply exSaved_ok|]. split; [apply wfnetb_ok; vm_compute; reflexivity|]. split; [|split; [exact ex3_nonneg|split]].
  - split; [apply (Permutation_rev [exA; exB; exC])|]. intros v [<- |[<- |[<- |[]]]]; (split; [reflexivity|]); (split; [reflexivity|]); intros a; reflexivity.
  - eexists. split; vm_compute; reflexivity.
  - split; [apply nodupb_ok; reflexivity|]. intros rv x [E|[]]. injection E as <- <-. split; simpl; tauto.
Qed.
