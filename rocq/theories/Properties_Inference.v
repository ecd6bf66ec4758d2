(** Properties_Inference.v -- theorems C13 to C18.  Specification: SpecFactor.v, SpecInference.v. *)
From Verif Require Import Py Num BayesNet Factor SpecFactor Radix SumOver FactorMul FactorOut FactorMore FactorLaws
  Rounding Factorization SpecInference VE VEShape VETotal VEMap Examples.
Open Scope nat_scope.

(** product of the factors of a Factorization at an assignment *)
Definition factors_at (fs : list factor) (a : asg) : Qc := qprod (map (fun f => getq (lookup f a)) fs).

(** C13 *)
Theorem C13_sum_product_step : forall cd o z rv, good o ->
  (forall f, In f (fz_phi z) -> wf cd f /\ f_bn f = fz_bn z) ->
  (exists f, In f (fz_phi z) /\ In rv (f_scope f)) ->
  exists z', fz_sum_elim o z rv = Ok z' /\
    (forall f, In f (fz_phi z') -> wf cd f /\ ~ In rv (f_scope f)) /\
    (forall w, (exists f, In f (fz_phi z') /\ In w (f_scope f)) <-> (exists f, In f (fz_phi z) /\ In w (f_scope f)) /\ w <> rv) /\
    (forall a, (forall f, In f (fz_phi z') -> valid cd (f_scope f) a) ->
       factors_at (fz_phi z') a = qsum (map (fun x => factors_at (fz_phi z) (upd a rv x)) (seq 0 (cd rv)))).
Proof.
  intros cd o z rv Go F I. destruct (sum_elim_ok cd (fz_bn z) o z rv Go F I) as (psi' & E & F1 & _ & S1 & P1).
  eexists. split; [exact E|]. cbn [fz_phi]. split; [|split].
  - intros f Hf. split; [now apply F1|]. intros H. destruct (proj1 (S1 rv)) as [_ K]; [exists f; auto|congruence].
  - exact S1.
  - intros a V. apply P1. intros w (f & Hf & Hw). now apply (V f Hf).
Qed.
Print Assumptions C13_sum_product_step.
Theorem C13_no_factor : forall o z rv, (forall f, In f (fz_phi z) -> ~ In rv (f_scope f)) -> fz_sum_elim o z rv = Raise IndexError.
Proof.
  intros o z rv H. unfold fz_sum_elim, product_relevant.
  destruct (relevant_factors rv (fz_phi z)) as [|f r] eqn:E; [reflexivity|].
  exfalso. assert (In f (relevant_factors rv (fz_phi z))) as I by (rewrite E; now left).
  apply In_relevant in I as [I1 I2]. now apply (H f).
Qed.
Print Assumptions C13_no_factor.
Example C13_nonvacuous : exists z, fz_init ex3 = Ok z /\
  (forall f, In f (fz_phi z) -> wf (ncard ex3) f /\ f_bn f = fz_bn z) /\ (exists f, In f (fz_phi z) /\ In exA (f_scope f)).
Proof.
  destruct (fz_init_ok ex3 ex3_wf) as (fs & E & F & _ & S & _). exists (mkFz ex3 fs [] []).
  split; [assumption|]. split; [exact F|]. apply S. simpl. auto.
Qed.

(** C14: complete description of marginal_ve_e on valid queries *)
Theorem C14_marginal : forall bn target ev o, wfnet bn -> In target (bn_V bn) -> good_evidence bn ev ->
  ~ In target (map fst ev) -> good o -> connected bn (target :: map fst ev) ->
  marginal_ve_e o bn target ev =
    Ok (map (fun x => np_round 4 (marginal bn target ev x)) (seq 0 (ncard bn target))).
Proof.
  intros bn target ev o W Ht GE Nt Go C. destruct (marginal_result bn target ev o W Ht GE Nt Go) as [(_ & f & E & Ef)|[N _]]; [|contradiction].
  unfold marginal_ve_e. rewrite E. cbn [bind]. rewrite Ef, map_map. reflexivity.
Qed.
Print Assumptions C14_marginal.
Theorem C14_name_error : forall bn target ev o, wfnet bn -> In target (bn_V bn) -> good_evidence bn ev ->
  ~ In target (map fst ev) -> good o -> ~ connected bn (target :: map fst ev) ->
  marginal_ve_e o bn target ev = Raise NameError.
Proof.
  intros bn target ev o W Ht GE Nt Go C. destruct (marginal_result bn target ev o W Ht GE Nt Go) as [(N & _)|[_ E]]; [contradiction|].
  unfold marginal_ve_e. now rewrite E.
Qed.
Print Assumptions C14_name_error.
(** every query about a root of a network with two or more nodes fails *)
Theorem C14_root_target_raises : forall bn target ev o, wfnet bn -> In target (bn_V bn) -> good_evidence bn ev ->
  ~ In target (map fst ev) -> good o -> nparents bn target = [] -> 2 <= length (bn_V bn) ->
  marginal_ve_e o bn target ev = Raise NameError.
Proof.
  intros bn target ev o W Ht GE Nt Go Root L. apply C14_name_error; auto. intros C.
  assert (exists w, In w (bn_V bn) /\ w <> target) as (w & Hw & Ne).
  { pose proof (wn_V _ W) as ND. destruct (bn_V bn) as [|x [|y r]]; simpl in L; try lia. inversion ND; subst.
    destruct (name_eqb_spec x target) as [->|N]; [exists y|exists x]; simpl; split; auto. intros ->. apply H1. now left. }
  specialize (C target w Ht Hw). apply clos_rt_rt1n in C. inversion C as [|y q Hl Hr]; subst; [congruence|].
  destruct Hl as (_ & _ & x & Hx & Hf & _). rewrite Root in Hf. destruct Hf as [<-|[]]. apply Hx. now left.
Qed.
Print Assumptions C14_root_target_raises.
Theorem C14_unknown_target : forall bn target ev o, wfnet bn -> ~ In target (bn_V bn) ->
  marginal_ve_e o bn target ev = Raise ValueError.
Proof.
  intros bn target ev o W Ht. unfold marginal_ve_e, marginal_factor.
  destruct (fz_init_ok bn W) as (fs & E & _). rewrite E. cbn [bind]. unfold list_remove, bn_nodes.
  apply mem_false in Ht. now rewrite Ht.
Qed.
Print Assumptions C14_unknown_target.
Theorem C14_target_in_evidence : forall bn target ev o, wfnet bn -> In target (bn_V bn) -> good_evidence bn ev ->
  In target (map fst ev) -> marginal_ve_e o bn target ev = Raise ValueError.
Proof.
  intros bn target ev o W Ht GE It. unfold marginal_ve_e, marginal_factor.
  destruct (fz_init_ok bn W) as (fs & E & F & _). rewrite E. cbn [bind]. unfold list_remove, bn_nodes.
  assert (M : mem target (bn_V bn) = true) by now apply mem_In. rewrite M. cbn [bind].
  assert (G : forall ev z order o, good_evidence bn ev -> fine (ncard bn) bn (fz_phi z) -> In target (map fst ev) ->
     ~ In target order -> apply_evidence o z order ev = Raise ValueError).
  { clear ev GE It M E F fs o. intros ev. induction ev as [|[q u] r IH]; intros z order o GE F It No; [destruct It|].
    destruct (good_evidence_idx bn _ q u W GE (or_introl eq_refl)) as (d & Hd & Hx & Hi).
    destruct (reduce_all_ok (ncard bn) bn q u _ d (fz_phi z) Hd Hx Hi (sub o 0) F) as (fs1 & E1 & F1 & _).
    cbn [apply_evidence]. unfold fz_sub. rewrite E1. cbn [bind]. unfold list_remove.
    destruct (mem_spec q order) as [Mq|Mq]; [|reflexivity]. cbn [bind]. apply IH.
    - destruct GE as [K1 K2]. simpl in K1. inversion K1; subst. split; [assumption|]. intros rv x H. apply K2. now right.
    - exact F1.
    - destruct It as [It|It]; [cbn [fst] in It; congruence|assumption].
    - intros K. apply remove1_incl in K. contradiction. }
  rewrite G; auto. intros K. apply In_remove1 in K; [tauto|apply W].
Qed.
Print Assumptions C14_target_in_evidence.
Example C14_nonvacuous : wfnet ex3 /\ good_evidence ex3 [(exB, nm "0")] /\ connected ex3 (exC :: map fst [(exB, nm "0")]) /\
  ~ connected ex3 [exA] /\
  marginal ex3 exC [(exB, nm "0")] 0 = qq 17 250.
Proof.
  split; [exact ex3_wf|]. split.
  { split; [constructor; [intros []|constructor]|]. intros rv x [H|[]]. inversion H; subst. simpl. auto. }
  split.
  { intros u w Hu Hw. apply rt_step. split; [assumption|]. split; [assumption|].
    exists exA. split; [vm_compute; intuition discriminate|].
    split; [destruct Hu as [<-|[<-|[<-|[]]]]|destruct Hw as [<-|[<-|[<-|[]]]]]; vm_compute; auto. }
  split.
  { intros C. assert (T : marginal_ve_e id_oracle ex3 exA [] = Raise NameError) by (vm_compute; reflexivity).
    rewrite (C14_marginal ex3 exA [] id_oracle ex3_wf) in T; [discriminate|simpl; auto| |intros []|exact good_id|exact C].
    split; [constructor|intros ? ? []]. }
  apply Qc_eq_Q. vm_compute. reflexivity.
Qed.

(** C15 *)
Theorem C15_distribution : forall bn target o, wfnet bn -> nonneg_net bn -> normalised bn -> acyclic_net bn ->
  In target (bn_V bn) -> good o -> connected bn [target] ->
  exists p, marginal_ve_e o bn target [] = Ok (map (np_round 4) p) /\ length p = ncard bn target /\
    (forall x, In x p -> (0 <= x)%Qc) /\ qsum p = 1%Qc /\
    (forall x, In x p -> (x - half / pow10 4 <= np_round 4 x /\ np_round 4 x <= x + half / pow10 4)%Qc).
Proof.
  intros bn target o W N Nm A Ht Go C. exists (map (marginal bn target []) (seq 0 (ncard bn target))).
  split; [rewrite (C14_marginal bn target [] o W Ht); auto; [now rewrite map_map|split; [constructor|intros ? ? []]]|].
  split; [now rewrite map_length, seq_length|]. split; [|split].
  - intros x Hx. apply in_map_iff in Hx as (i & <- & _). now apply marginal_nonneg.
  - rewrite (marginal_sum bn target [] W Ht). now apply evidence_prob_nil.
  - intros x _. apply np_round_near.
Qed.
Print Assumptions C15_distribution.
(** with evidence: the vector adds up to P(evidence) *)
Theorem C15_evidence_mass : forall bn target ev, wfnet bn -> In target (bn_V bn) ->
  qsum (map (marginal bn target ev) (seq 0 (ncard bn target))) = evidence_prob bn ev.
Proof. intros. now apply marginal_sum. Qed.
Print Assumptions C15_evidence_mass.
(** ... so the answer to a query with evidence is in general not a distribution *)
Theorem C15_evidence_refuted : exists bn target ev v, wfnet bn /\ good_evidence bn ev /\
  marginal_ve_e id_oracle bn target ev = Ok v /\ qsum v = qq 19 50.
Proof.
  exists ex3, exC, [(exB, nm "0")]. eexists. split; [exact ex3_wf|]. split; [apply C14_nonvacuous|].
  split; [vm_compute; reflexivity|]. apply Qc_eq_Q. vm_compute. reflexivity.
Qed.
Print Assumptions C15_evidence_refuted.
Example C15_nonvacuous : nonneg_net ex3 /\ normalised ex3 /\ acyclic_net ex3 /\ connected ex3 [exC].
Proof.
  split; [|split; [|split]].
  - intros v x [<-|[<-|[<-|[]]]] Hx; vm_compute in Hx; repeat (destruct Hx as [<-|Hx]; [discriminate|]); destruct Hx.
  - intros v a Hv V.
    assert (HA : a exA < 2) by (apply (V exA); simpl; auto). assert (HB : a exB < 3) by (apply (V exB); simpl; auto).
    destruct Hv as [<-|[<-|[<-|[]]]].
    + apply Qc_eq_Q. vm_compute. reflexivity.
    + unfold cond_prob, radix, nparents. simpl. unfold upd. simpl.
      destruct (a exA) as [|[|k]]; [| |lia]; apply Qc_eq_Q; vm_compute; reflexivity.
    + unfold cond_prob, radix, nparents. simpl. unfold upd. simpl.
      destruct (a exA) as [|[|k]]; [| |lia]; (destruct (a exB) as [|[|[|k]]]; [| | |lia]); apply Qc_eq_Q; vm_compute; reflexivity.
  - exists [exA; exB; exC]. split; [reflexivity|]. intros p v q E.
    destruct p as [|x [|y [|z p]]]; simpl in E; inversion E; subst.
    + intros w [].
    + intros w [<-|[]]. now left.
    + intros w [<-|[<-|[]]]; simpl; auto.
    + destruct p; discriminate.
  - intros u w Hu Hw. apply rt_step. split; [assumption|]. split; [assumption|].
    exists exA. split; [vm_compute; intuition discriminate|].
    split; [destruct Hu as [<-|[<-|[<-|[]]]]|destruct Hw as [<-|[<-|[<-|[]]]]]; vm_compute; auto.
Qed.

(** C16 *)
Theorem C16_ve_map : forall bn ev o, wfnet bn -> nonneg_net bn -> good_evidence bn ev -> good o ->
  exists m, ve_map o bn ev = Ok m /\
    (forall v, In v (bn_V bn) -> exists x, dget m v = Some x /\ In x (nvalues bn v)) /\
    (forall E e, In (E, e) ev -> dget m E = Some e) /\
    (forall b, valid (ncard bn) (bn_V bn) b -> agrees bn ev b = true -> (joint bn b <= joint bn (asg_of bn m))%Qc).
Proof.
  intros bn ev o W N GE Go. destruct (map_run_ok bn ev o W N GE Go) as (z' & m & E & K & VI & EV & Opt & _).
  exists m. unfold ve_map. rewrite E. split; [reflexivity|]. split; [|split; assumption].
  intros v Hv. destruct (VI v Hv) as (x & i & Hx & Hi). exists x. split; [assumption|].
  apply index_of_Some in Hi. now apply nth_error_In in Hi.
Qed.
Print Assumptions C16_ve_map.
Example C16_nonvacuous : exists m, wfnet ex3 /\ nonneg_net ex3 /\ good_evidence ex3 [(exC, nm "1")] /\
  ve_map rev_oracle ex3 [(exC, nm "1")] = Ok m /\ dget m exA = Some (nm "1") /\ dget m exB = Some (nm "0").
Proof.
  eexists. split; [exact ex3_wf|]. split; [apply C15_nonvacuous|]. split.
  { split; [constructor; [intros []|constructor]|]. intros rv x [H|[]]. inversion H; subst. simpl. auto. }
  split; [vm_compute; reflexivity|]. split; vm_compute; reflexivity.
Qed.

(** C17 *)
Theorem C17_map_probability : forall bn ev o, wfnet bn -> nonneg_net bn -> good_evidence bn ev -> good o ->
  bn_V bn <> [] -> connected bn (map fst ev) ->
  exists m, ve_map o bn ev = Ok m /\ ve_map_prob o bn ev = Ok (py_round 5 (joint bn (asg_of bn m)), m).
Proof.
  intros bn ev o W N GE Go NE C. destruct (ve_map_prob_result bn ev o W N GE Go NE) as [(_ & H)|[K _]]; [assumption|contradiction].
Qed.
Print Assumptions C17_map_probability.
Theorem C17_name_error : forall bn ev o, wfnet bn -> nonneg_net bn -> good_evidence bn ev -> good o ->
  bn_V bn <> [] -> ~ connected bn (map fst ev) -> ve_map_prob o bn ev = Raise NameError.
Proof.
  intros bn ev o W N GE Go NE C. destruct (ve_map_prob_result bn ev o W N GE Go NE) as [(K & _)|[_ H]]; [contradiction|assumption].
Qed.
Print Assumptions C17_name_error.
(** observing a root makes its own factor a separate constant *)
Theorem C17_root_evidence_raises : forall bn ev o r, wfnet bn -> nonneg_net bn -> good_evidence bn ev -> good o ->
  In r (map fst ev) -> nparents bn r = [] -> 2 <= length (bn_V bn) -> ve_map_prob o bn ev = Raise NameError.
Proof.
  intros bn ev o r W N GE Go Ir Root L. apply C17_name_error; auto.
  { intros E. rewrite E in L. simpl in L. lia. }
  intros C. assert (Hr : In r (bn_V bn)) by (apply in_map_iff in Ir as ([q u] & <- & Hq); now apply (proj2 GE) in Hq).
  assert (exists w, In w (bn_V bn) /\ w <> r) as (w & Hw & Ne).
  { pose proof (wn_V _ W) as ND. destruct (bn_V bn) as [|x [|y l]]; simpl in L; try lia. inversion ND; subst.
    destruct (name_eqb_spec x r) as [->|Nx]; [exists y|exists x]; simpl; split; auto. intros ->. apply H1. now left. }
  specialize (C r w Hr Hw). apply clos_rt_rt1n in C. inversion C as [|y q Hl Hq]; subst; [congruence|].
  destruct Hl as (_ & _ & x & Hx & Hf & _). rewrite Root in Hf. destruct Hf as [<-|[]]. contradiction.
Qed.
Print Assumptions C17_root_evidence_raises.

(** C18 *)
Lemma connected_incl bn f1 f2 : (forall x, In x f1 <-> In x f2) -> connected bn f1 -> connected bn f2.
Proof.
  intros E C u w Hu Hw. specialize (C u w Hu Hw). induction C as [u w (H1 & H2 & x & H3 & H4)|u|u y w C1 IH1 C2 IH2].
  - apply rt_step. split; [assumption|]. split; [assumption|]. exists x. split; [now rewrite <- E|assumption].
  - apply rt_refl.
  - assert (Hy : In y (bn_V bn)).
    { clear IH1 IH2 C2. apply clos_rt_rtn1 in C1. destruct C1 as [|y z (_ & Hz & _) _]; assumption. }
    eapply rt_trans; [apply IH1|apply IH2]; assumption.
Qed.
Theorem C18_hash_order : forall bn target ev ev' o1 o2, wfnet bn -> In target (bn_V bn) -> good_evidence bn ev ->
  ~ In target (map fst ev) -> good o1 -> good o2 -> Permutation ev ev' ->
  marginal_ve_e o1 bn target ev = marginal_ve_e o2 bn target ev'.
Proof.
  intros bn target ev ev' o1 o2 W Ht GE Nt G1 G2 P.
  assert (Pk : Permutation (map fst ev) (map fst ev')) by now apply Permutation_map.
  assert (GE' : good_evidence bn ev').
  { destruct GE as [K1 K2]. split; [now apply (Permutation_NoDup Pk)|]. intros rv x H. apply K2.
    now apply (Permutation_in _ (Permutation_sym P)). }
  assert (Nt' : ~ In target (map fst ev')) by (intros H; apply Nt; now apply (Permutation_in _ (Permutation_sym Pk))).
  assert (Ei : forall x, In x (target :: map fst ev) <-> In x (target :: map fst ev')).
  { intros x. simpl. split; intros [H|H]; auto; right; [now apply (Permutation_in _ Pk)|now apply (Permutation_in _ (Permutation_sym Pk))]. }
  destruct (marginal_result bn target ev o1 W Ht GE Nt G1) as [(C & f & E & Ef)|[C E]].
  - rewrite (C14_marginal bn target ev o1), (C14_marginal bn target ev' o2); auto.
    + f_equal. apply map_ext. intros x. f_equal. now apply marginal_perm.
    + now apply (connected_incl _ _ _ Ei).
  - rewrite (C14_name_error bn target ev o1), (C14_name_error bn target ev' o2); auto.
    intros C'. apply C. revert C'. apply connected_incl. intros x. symmetry. apply Ei.
Qed.
Print Assumptions C18_hash_order.
