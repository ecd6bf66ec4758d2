(** Properties_Query.v -- queries that cannot be answered are refused (C124), and what the target
    argument of ve_map selects (C125). *)
From Verif Require Import Py Num BayesNet Factor Rounding Factorization SpecFactor SpecInference
  FactorOut VE VETotal VEShape VEMap QueryErr SpecHistory FzHistory Examples Properties_Inference.
From Coq Require Import Lia Relations.
Open Scope nat_scope.

(** the query asks for a node of the network, observes other nodes only, at values they have *)
Definition answerable (bn : bayesnet) (target : name) (ev : list (name * name)) : Prop :=
  In target (bn_V bn) /\
  forall v x, In (v, x) ev -> In v (bn_V bn) /\ v <> target /\ In x (nvalues bn v).

(** ** C124: marginal_ve_e.  The evidence is a dict: no key twice.  Nothing is assumed about the query. *)
Theorem C124_marginal_refuses : forall bn target ev o, wfnet bn -> NoDup (map fst ev) -> good o ->
  (marginal_ve_e o bn target ev = Raise ValueError <-> ~ answerable bn target ev).
Proof.
  intros bn target ev o W NK Go.
  assert (D : answerable bn target ev -> marginal_ve_e o bn target ev <> Raise ValueError).
  { intros [Ht A] E.
    assert (GE : good_evidence bn ev) by (split; [assumption|intros v x H; destruct (A v x H) as (A1 & _ & A3); auto]).
    assert (Nt : ~ In target (map fst ev)) by (intros K; apply in_map_iff in K as ([q u] & Eq & Hq); cbn [fst] in Eq; now apply A in Hq).
    unfold marginal_ve_e in E. destruct (marginal_result bn target ev o W Ht GE Nt Go) as [(_ & f & Ef & _)|(_ & Ef)]; rewrite Ef in E; discriminate E. }
  split; [intros E A; now apply D|]. intros A.
  destruct (in_dec name_eq_dec target (bn_V bn)) as [Ht|Ht]; [|now apply C14_unknown_target].
  unfold marginal_ve_e, marginal_factor. destruct (fz_init_ok bn W) as (fs & E & F & _ & S & _). rewrite E. cbn [bind].
  unfold list_remove at 1, bn_nodes. assert (M : mem target (bn_V bn) = true) by now apply mem_In. rewrite M. cbn [bind].
  destruct (evidence_outcome bn ev W NK (sub o 0) (mkFz bn fs [] []) (remove1 target (bn_V bn)) F) as [G|G].
  - apply NoDup_remove1, W.
  - intros v Hv. now apply remove1_incl in Hv.
  - intros v _. symmetry. apply S.
  - exfalso. apply A. split; [assumption|]. intros v x H. destruct (G v x H) as (G1 & G2 & G3).
    apply In_remove1 in G2; [|apply W]. tauto.
  - now rewrite G.
Qed.
Print Assumptions C124_marginal_refuses.
(** so an answer, when there is one, is the right answer to a query about the network; and the only
    exceptions are ValueError (the query is wrong) and NameError (C14_name_error: it is not) *)
Theorem C124_marginal_outcomes : forall bn target ev o, wfnet bn -> NoDup (map fst ev) -> good o ->
  match marginal_ve_e o bn target ev with
  | Ok l => answerable bn target ev /\ connected bn (target :: map fst ev) /\
            l = map (fun x => np_round 4 (marginal bn target ev x)) (seq 0 (ncard bn target))
  | Raise ValueError => ~ answerable bn target ev
  | Raise NameError => answerable bn target ev /\ ~ connected bn (target :: map fst ev)
  | Raise _ => False
  end.
Proof.
  intros bn target ev o W NK Go. pose proof (C124_marginal_refuses bn target ev o W NK Go) as R.
  assert (D : answerable bn target ev \/ ~ answerable bn target ev).
  { unfold answerable. destruct (in_dec name_eq_dec target (bn_V bn)) as [Ht|Ht]; [|right; tauto].
    set (P := fun p : name * name => In (fst p) (bn_V bn) /\ fst p <> target /\ In (snd p) (nvalues bn (fst p))).
    assert (DP : forall p, {P p} + {~ P p}).
    { intros p. unfold P. destruct (in_dec name_eq_dec (fst p) (bn_V bn)); [|right; tauto].
      destruct (name_eq_dec (fst p) target); [right; tauto|].
      destruct (in_dec name_eq_dec (snd p) (nvalues bn (fst p))); [left|right]; tauto. }
    destruct (Forall_Exists_dec P DP ev) as [H|H].
    - left. split; [assumption|]. intros v x K. rewrite Forall_forall in H. now apply (H (v, x)).
    - right. intros [_ K]. apply Exists_exists in H as ([v x] & Hin & N). apply N. now apply K. }
  destruct D as [A|A].
  - pose proof A as [Ht A'].
    assert (GE : good_evidence bn ev) by (split; [assumption|intros v x H; destruct (A' v x H) as (A1 & _ & A3); auto]).
    assert (Nt : ~ In target (map fst ev)) by (intros K; apply in_map_iff in K as ([q u] & Eq & Hq); cbn [fst] in Eq; now apply A' in Hq).
    destruct (marginal_result bn target ev o W Ht GE Nt Go) as [(C & f & Ef & Ef')|(C & Ef)].
    + rewrite (C14_marginal bn target ev o W Ht GE Nt Go C). auto.
    + rewrite (C14_name_error bn target ev o W Ht GE Nt Go C). auto.
  - rewrite (proj2 R A). assumption.
Qed.
Print Assumptions C124_marginal_outcomes.

(** ** C124: ve_map *)
Lemma map_run_refuses bn ev o : wfnet bn -> NoDup (map fst ev) -> ~ good_evidence bn ev -> map_run o bn ev = Raise ValueError.
Proof.
  intros W NK A. unfold map_run. destruct (fz_init_ok bn W) as (fs & E & F & _ & S & _). rewrite E. cbn [bind]. unfold bn_nodes.
  destruct (evidence_outcome bn ev W NK (sub o 0) (mkFz bn fs [] []) (bn_V bn) F) as [G|G].
  - apply W.
  - apply incl_refl.
  - intros v _. symmetry. apply S.
  - exfalso. apply A. split; [assumption|]. intros v x H. destruct (G v x H) as (G1 & _ & G3). auto.
  - now rewrite G.
Qed.
Theorem C124_map_refuses : forall bn ev target prob o, wfnet bn -> nonneg_net bn -> NoDup (map fst ev) -> good o ->
  (ve_map_call o bn ev target prob = Raise ValueError <-> ~ good_evidence bn ev).
Proof.
  intros bn ev target prob o W NN NK Go. split.
  - intros E GE. destruct (map_run_ok bn ev o W NN GE Go) as (z' & m & R & _). unfold ve_map_call in E. rewrite R in E. cbn [bind fst snd] in E.
    destruct prob.
    + destruct (fz_phi z') as [|f [|g r]]; cbn [consolidate bind] in E; try discriminate E.
      unfold nget in E. destruct (nth_error (f_cpt f) 0); cbn [bind] in E; [|discriminate E].
      destruct target as [t|]; [|discriminate E]. unfold getitem in E. destruct (dget m t); discriminate E.
    + destruct target as [t|]; [|discriminate E]. unfold getitem in E. destruct (dget m t); discriminate E.
  - intros A. unfold ve_map_call. now rewrite map_run_refuses.
Qed.
Print Assumptions C124_map_refuses.

(** ** C125: what ve_map returns for each combination of its arguments *)
Theorem C125_map_answers : forall bn ev o, wfnet bn -> nonneg_net bn -> good_evidence bn ev -> good o -> bn_V bn <> [] ->
  exists m, ve_map o bn ev = Ok m /\
    (forall t, In t (bn_V bn) -> exists x, dget m t = Some x /\ In x (nvalues bn t)) /\
    ve_map_call o bn ev None false = Ok (MapAll m) /\
    (forall t x, dget m t = Some x -> ve_map_call o bn ev (Some t) false = Ok (MapValue x)) /\
    (forall t, ~ In t (bn_V bn) -> ve_map_call o bn ev (Some t) false = Raise KeyError) /\
    (connected bn (map fst ev) ->
       ve_map_call o bn ev None true = Ok (MapProbAll (py_round 5 (joint bn (asg_of bn m))) m) /\
       (forall t x, dget m t = Some x ->
          ve_map_call o bn ev (Some t) true = Ok (MapProbValue (py_round 5 (joint bn (asg_of bn m))) x)) /\
       (forall t, ~ In t (bn_V bn) -> ve_map_call o bn ev (Some t) true = Raise KeyError)) /\
    (~ connected bn (map fst ev) -> forall target, ve_map_call o bn ev target true = Raise NameError).
Proof.
  intros bn ev o W NN GE Go NE. destruct (map_run_ok bn ev o W NN GE Go) as (z' & m & R & K & VI & _).
  exists m. unfold ve_map. rewrite R. cbn [bind snd]. split; [reflexivity|].
  assert (KN : forall t, ~ In t (bn_V bn) -> dget m t = None) by (intros t Ht; apply dget_None; now rewrite K).
  assert (PR := ve_map_prob_result bn ev o W NN GE Go NE).
  unfold ve_map_prob, ve_map in PR. unfold ve_map_call. rewrite R in *. cbn [bind fst snd] in *.
  split; [|split; [reflexivity|split; [|split; [|split]]]].
  - intros v Hv. destruct (VI v Hv) as (x & i & Hx & Hi). exists x. split; [assumption|]. apply index_of_Some in Hi. now apply nth_error_In in Hi.
  - intros t x Hx. unfold getitem. now rewrite Hx.
  - intros t Ht. unfold getitem. now rewrite (KN t Ht).
  - intros C. destruct PR as [(_ & m' & Em & P)|(N & _)]; [|contradiction]. inversion Em; subst m'.
    destruct (consolidate (fz_phi z')) as [f|]; cbn [bind] in *; [|discriminate P].
    destruct (nget (f_cpt f) 0) as [p|]; cbn [bind] in *; [|discriminate P]. inversion P as [Ep].
    split; [reflexivity|]. split; intros t; [intros x Hx|intros Ht]; unfold getitem; [now rewrite Hx|now rewrite (KN t Ht)].
  - intros C target. destruct PR as [(N & _)|(_ & P)]; [contradiction|].
    destruct (consolidate (fz_phi z')) as [f|e]; cbn [bind] in *; [|now inversion P].
    unfold nget in *. destruct (nth_error (f_cpt f) 0); cbn [bind] in *; discriminate P.
Qed.
Print Assumptions C125_map_answers.
(** the target's value in the most probable joint assignment need not be the target's most probable value *)
Definition exM1 := nm "A". Definition exM2 := nm "B".
Definition exMix : bayesnet := mkBN [exM1; exM2] [(exM1, [exM2]); (exM2, [])]
  [(exM1, mkF [] [nm "0"; nm "1"] [qq 2 5; qq 3 5]);
   (exM2, mkF [exM1] [nm "0"; nm "1"] [qq 1 1; qq 0 1; qq 1 2; qq 1 2])].
Lemma exMix_wf : wfnet exMix. Proof. apply wfnetb_ok. vm_compute. reflexivity. Qed.
Lemma exMix_nonneg : nonneg_net exMix.
Proof.
  intros v x Hv Hx. destruct Hv as [<-|[<-|[]]]; vm_compute in Hx;
    repeat (destruct Hx as [<-|Hx]; [vm_compute; discriminate|]); destruct Hx.
Qed.
Theorem C125_target_value_refuted : exists bn t x, wfnet bn /\ nonneg_net bn /\ In t (bn_V bn) /\
  (forall o, good o -> ve_map_call o bn [] (Some t) false = Ok (MapValue x)) /\
  exists i j, val_index bn t x = Some i /\ j < ncard bn t /\ (marginal bn t [] i < marginal bn t [] j)%Qc.
Proof.
  exists exMix, exM1, (nm "0"). split; [exact exMix_wf|]. split; [exact exMix_nonneg|]. split; [now left|]. split.
  - intros o Go.
    assert (GE : good_evidence exMix []) by (split; [constructor|intros ? ? []]).
    destruct (C125_map_answers exMix [] o exMix_wf exMix_nonneg GE Go ltac:(discriminate)) as (m & E & V & _ & T & _).
    destruct (C16_ve_map exMix [] o exMix_wf exMix_nonneg GE Go) as (m' & E' & V' & _ & Opt). rewrite E in E'. inversion E'; subst m'. clear E'.
    apply T. destruct (V exM1) as (x & Hx & Ix); [now left|]. destruct (V exM2) as (y & Hy & Iy); [right; now left|].
    vm_compute in Ix. destruct Ix as [<-|[<-|[]]]; [assumption|]. exfalso.
    specialize (Opt (fun _ => 0)). assert (K : (joint exMix (fun _ => 0%nat) <= joint exMix (asg_of exMix m))%Qc).
    { apply Opt; [intros v [<-|[<-|[]]]; vm_compute; lia|reflexivity]. }
    revert K. unfold joint, asg_of, cond_prob, radix. cbn. rewrite Hx, Hy. vm_compute in Iy.
    destruct Iy as [<-|[<-|[]]]; vm_compute; intros K; apply K; reflexivity.
  - exists 0, 1. split; [reflexivity|]. split; [vm_compute; lia|]. vm_compute. reflexivity.
Qed.
Print Assumptions C125_target_value_refuted.

Example C124_nonvacuous : wfnet exMix /\ nonneg_net exMix /\
  answerable exMix exM2 [] /\ (exists l, marginal_ve_e rev_oracle exMix exM2 [] = Ok l /\ map this l = [7 # 10; 3 # 10]%Q) /\
  ~ answerable exMix exM2 [(exM1, nm "2")] /\ ~ answerable exMix exM2 [(exM2, nm "0")] /\ ~ answerable exMix exM2 [(nm "Z", nm "0")] /\
  marginal_ve_e id_oracle exMix exM2 [(nm "Z", nm "0")] = Raise ValueError.
Proof.
  split; [exact exMix_wf|]. split; [exact exMix_nonneg|]. split; [split; [right; now left|intros ? ? []]|].
  split; [eexists; split; vm_compute; reflexivity|]. split; [|split; [|split; [|reflexivity]]]; intros [_ H]; specialize (H _ _ (or_introl eq_refl)); vm_compute in H; intuition discriminate.
Qed.
Example C125_nonvacuous : bn_V exMix <> [] /\ connected exMix (map fst ([] : list (name * name))) /\
  (exists p, ve_map_call rev_oracle exMix [] (Some exM1) true = Ok (MapProbValue p (nm "0")) /\ this p = (2 # 5)%Q) /\
  ve_map_call rev_oracle exMix [] (Some (nm "Z")) true = Raise KeyError /\
  ve_map_call id_oracle exMix [(exM1, nm "7")] None false = Raise ValueError.
Proof.
  split; [discriminate|]. split; [|split; [eexists; split; vm_compute; reflexivity|split; vm_compute; reflexivity]].
  intros u w Hu Hw. apply rt_step. split; [assumption|]. split; [assumption|]. exists exM1. split; [intros []|].
  split; [destruct Hu as [<-|[<-|[]]]|destruct Hw as [<-|[<-|[]]]]; vm_compute; auto.
Qed.

(** ** C126: any history of operations on a Factorization, of the whole network or of chosen nodes *)
Definition fz_op_dec (p q : fz_op) : {p = q} + {p <> q}.
Proof. decide equality; apply name_eq_dec. Defined.
Theorem C126_history : forall bn nodes ps o, wfnet bn -> nonneg_net bn -> incl nodes (bn_V bn) -> good o ->
  ops_ok bn (mentioned bn nodes) ps ->
  exists z0 z, fz_init_nodes bn nodes = Ok z0 /\ fz_history o z0 ps = Ok z /\
    (forall w, (exists f, In f (fz_phi z) /\ In w (f_scope f)) <-> mentioned bn nodes w /\ ~ In w (map op_var ps)) /\
    (forall a, (forall w, mentioned bn nodes w -> ~ In w (map op_var ps) -> a w < ncard bn w) ->
       factors_at (fz_phi z) a = ops_mean bn ps (nodes_prob bn nodes) a) /\
    (forall v x, dget (fz_asg z) v = Some x <-> In (Given v x) ps).
Proof.
  intros bn nodes ps o W NN I Go O. destruct (init_nodes_ok bn nodes W NN I) as (fs & E & F & N & S & P).
  set (z0 := mkFz bn fs [] []). assert (O' : ops_ok bn (in_scopes (fz_phi z0)) ps).
  { apply (ops_ok_iff bn ps (mentioned bn nodes)); [|assumption]. intros w. symmetry. apply S. }
  destruct (history_ok bn ps W o z0 Go F N O') as (z & E' & F' & S' & P').
  exists z0, z. unfold fz_init_nodes. rewrite E. cbn [bind]. split; [reflexivity|]. split; [assumption|].
  assert (S2 : forall w, in_scopes (fz_phi z) w <-> mentioned bn nodes w /\ ~ In w (map op_var ps)).
  { intros w. rewrite S'. cbn [z0 fz_phi]. now rewrite S. }
  split; [exact S2|]. split.
  - intros a Ha. change (factors_at (fz_phi z) a) with (prodval (fz_phi z) a). rewrite P' by (intros w Hw; apply S2 in Hw as [H1 H2]; now apply Ha).
    apply (ops_mean_congr bn ps _ _ (in_scopes (fz_phi z0)) a O'); [intros b Hb; now apply P|].
    intros w Hw Hn. apply Ha; [now apply S|assumption].
  - intros v x. destruct (ops_ok_vars bn ps _ O) as [ND _]. destruct (history_asg ps o z0 z E' ND v) as [A1 A2]. split; [|apply A1].
    intros H. destruct (dget (fz_asg z) v) as [y|] eqn:D; [|discriminate]. inversion H; subst y.
    destruct (in_dec fz_op_dec (Given v x) ps) as [K|K]; [assumption|].
    exfalso. assert (dget (fz_asg z0) v = Some x) as Z; [|discriminate Z]. rewrite <- A2; [reflexivity|].
    intros y Hy. pose proof Hy as Hy'. apply A1 in Hy'. inversion Hy'; subst. contradiction.
Qed.
Print Assumptions C126_history.
(** the whole network is the case nodes=None *)
Theorem C126_whole_network : forall bn, fz_init bn = fz_init_nodes bn (bn_nodes bn).
Proof. reflexivity. Qed.
Print Assumptions C126_whole_network.
(** a variable that no factor mentions: / and // raise, - is silently accepted with any value and recorded *)
Theorem C126_not_mentioned : forall o z v x, (forall f, In f (fz_phi z) -> ~ In v (f_scope f)) ->
  fz_apply o z (SumOut v) = Raise IndexError /\ fz_apply o z (MaxOut v) = Raise IndexError /\
  exists z', fz_apply o z (Given v x) = Ok z' /\ fz_phi z' = fz_phi z /\ dget (fz_asg z') v = Some x.
Proof.
  intros o z v x H.
  assert (R : relevant_factors v (fz_phi z) = []).
  { destruct (relevant_factors v (fz_phi z)) as [|f r] eqn:E; [reflexivity|]. exfalso.
    assert (In f (relevant_factors v (fz_phi z))) as K by (rewrite E; now left). apply In_relevant in K as [K1 K2]. now apply (H f). }
  cbn [fz_apply]. unfold fz_sum_elim, fz_max_elim, product_relevant. rewrite R. split; [reflexivity|]. split; [reflexivity|].
  unfold fz_sub. rewrite reduce_all_absent by (intros (f & Hf & Hv); now apply (H f)). cbn [bind]. eexists. split; [reflexivity|].
  split; [reflexivity|]. cbn [fz_asg]. now rewrite dget_dset, name_eqb_refl.
Qed.
Print Assumptions C126_not_mentioned.
Example C126_nonvacuous : incl [exC; exA] (bn_V ex3) /\ ops_ok ex3 (mentioned ex3 [exC; exA]) [SumOut exA; Given exB (nm "1"); MaxOut exC] /\
  exists z, (do z0 <- fz_init_nodes ex3 [exC; exA] ;; fz_history rev_oracle z0 [SumOut exA; Given exB (nm "1"); MaxOut exC]) = Ok z /\
    factors_at (fz_phi z) (fun _ => 0) = qq 16 25 /\ fz_asg z = [(exB, nm "1")].
Proof.
  split; [intros v Hv; simpl in *; tauto|]. split.
  { assert (M : forall w, In w [exC; exA; exB] -> mentioned ex3 [exC; exA] w) by (intros w Hw; exists exC; split; [now left|vm_compute in *; tauto]).
    cbn [ops_ok op_var]. split; [apply M; simpl; auto|]. split; [exact I|]. split; [split; [apply M; simpl; auto|discriminate]|].
    split; [vm_compute; auto|]. split; [split; [split; [apply M; simpl; auto|discriminate]|discriminate]|]. auto. }
  eexists. split; [vm_compute; reflexivity|]. split; [apply Qc_is_canon; vm_compute; reflexivity|reflexivity].
Qed.
