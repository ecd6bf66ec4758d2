(** Properties_Sample.v -- theorems C44 to C47 and C72: approximate inference and sampling.
    Specification: SpecSample.v (cum, drawn_by, ancestral, weighted_sample, likelihood, hits, answer).
    All theorems hold for every state of the random generator: [u i j] is the uniform draw used for
    the j-th node of nodes() in sample i. *)
From Verif Require Import Py Num BayesNet Factor SpecFactor Radix FactorOut SpecInference VE VETotal GraphNet Rounding Graph SpecGraph Data SpecLearn ParamLearn
  ParamFacts ParamMain NaiveFacts SpecSample Sampling SampleFacts GraphCheck Mst SampleMain SampleLaws Examples Properties_Graph Properties_Inference Properties_Learn.
Open Scope nat_scope.

Lemma samplable_of bn : wfnet bn -> nonneg_net bn -> nearly_normalised bn -> samplable bn.
Proof. intros A B C. exact (conj A (conj B C)). Qed.

(** ** C44 *)
Theorem C44_forward_sample : forall bn o u n, wfnet bn -> nonneg_net bn -> nearly_normalised bn -> nodes_topological bn ->
  unit_draws u -> 0 < n ->
  exists s, (forall i, i < n -> ancestral bn (u i) (s i)) /\
    forward_sample o bn u n = Ok (answer bn (fun v x => (nQc (hits s (seq 0 n) v x) / nQc n)%Qc)).
Proof. intros bn o u n W NN N Top U L. apply forward_ok; auto. now apply samplable_of. Qed.
Print Assumptions C44_forward_sample.

Theorem C44_frequencies_sum_to_one : forall bn o u n D, wfnet bn -> nonneg_net bn -> nearly_normalised bn -> nodes_topological bn ->
  unit_draws u -> 0 < n -> forward_sample o bn u n = Ok D ->
  map fst D = bn_V bn /\
  forall v, In v (bn_V bn) -> exists m, dget D v = Some m /\ map fst m = nvalues bn v /\ qsum (map snd m) = 1%Qc /\
    forall x p, In (x, p) m -> (0 <= p)%Qc.
Proof.
  intros bn o u n D W NN N Top U L H. assert (Sm := samplable_of bn W NN N).
  destruct (forward_ok bn o u n Sm Top U L) as (s & Hs & E). rewrite E in H. injection H as <-.
  split; [unfold answer; rewrite map_map; simpl; now rewrite map_id|]. intros v Hv.
  eexists. split; [now apply answer_get|]. split; [|split].
  - rewrite map_map. simpl. rewrite (nvalues_card bn v). symmetry. apply map_nth_seq.
  - rewrite map_map. cbn [snd]. rewrite qsum_div, hits_sum.
    + rewrite seq_length. field. now apply nQc_nz.
    + intros i Hi. apply in_seq in Hi. assert (A := Hs i ltac:(lia)). now apply (ancestral_valid _ _ _ A).
  - intros x p Hx. apply in_map_iff in Hx as (k & E' & _). injection E' as _ <-.
    replace 0%Qc with (0 / nQc n)%Qc by (field; now apply nQc_nz). apply div_le; [now apply nQc_pos|apply nQc_nonneg].
Qed.
Print Assumptions C44_frequencies_sum_to_one.

(** the draws determine the sample, and the draws that lead to a given sample form a box whose
    volume is the joint probability of that sample: the samples have exactly the network's distribution *)
Theorem C44_sample_is_determined : forall bn u a b, wfnet bn -> nonneg_net bn -> nearly_normalised bn -> nodes_topological bn ->
  ancestral bn u a -> ancestral bn u b -> forall v, In v (bn_V bn) -> a v = b v.
Proof. intros bn u a b W NN N Top. apply ancestral_unique; [now apply samplable_of|assumption]. Qed.
Print Assumptions C44_sample_is_determined.

Lemma qprod_map_nth (f : name -> Qc) l d : qprod (map (fun j => f (nth j l d)) (seq 0 (length l))) = qprod (map f l).
Proof. f_equal. rewrite (map_nth_seq l d) at 2. now rewrite map_map. Qed.
Lemma cum_norm bn v a : wfnet bn -> normalised bn -> In v (bn_V bn) -> valid (ncard bn) (bn_V bn) a -> cum bn v a (ncard bn v) = 1%Qc.
Proof. intros W N Hv V. now apply N. Qed.
Lemma div_1 (x : Qc) : (x / 1 = x)%Qc. Proof. field. discriminate. Qed.
Lemma cond_self bn v a : cond_prob bn v (upd a v (a v)) = cond_prob bn v a.
Proof. apply cond_prob_ext. intros w _. unfold upd. destruct (name_eqb_spec w v) as [-> |]; reflexivity. Qed.

Theorem C44_exact_distribution : forall bn a, wfnet bn -> nonneg_net bn -> normalised bn -> valid (ncard bn) (bn_V bn) a ->
  exists lo hi : nat -> Qc,
    (forall u, ancestral bn u a <-> forall j, j < length (bn_V bn) -> (lo j <= u j /\ u j < hi j)%Qc) /\
    (forall j, j < length (bn_V bn) -> (0 <= lo j /\ lo j <= hi j /\ hi j <= 1)%Qc) /\
    qprod (map (fun j => (hi j - lo j)%Qc) (seq 0 (length (bn_V bn)))) = joint bn a.
Proof.
  intros bn a W NN N V.
  set (nd := fun j => nth j (bn_V bn) (NInt 0)).
  assert (I : forall j, j < length (bn_V bn) -> In (nd j) (bn_V bn)) by (intros j Hj; now apply nth_In).
  exists (fun j => cum bn (nd j) a (a (nd j))), (fun j => cum bn (nd j) a (S (a (nd j)))). split; [|split].
  - intros u. split.
    + intros A j Hj. destruct (A j (nd j)) as (_ & B & C); [now apply nth_error_nth'|].
      rewrite cum_norm, div_1 in B, C by auto. now split.
    + intros H j v Hv. assert (Lj : j < length (bn_V bn)) by (apply nth_error_Some; congruence).
      assert (nd j = v) by (unfold nd; now apply nth_error_nth). specialize (H j Lj). rewrite H0 in H.
      assert (Hv' : In v (bn_V bn)) by (rewrite <- H0; auto).
      split; [now apply V|]. rewrite cum_norm, !div_1 by auto. exact H.
  - intros j Hj. assert (Hv := I j Hj). split; [|split].
    + replace 0%Qc with (cum bn (nd j) a 0) by reflexivity. apply cum_mono; auto. lia.
    + apply cum_mono; auto.
    + rewrite <- (cum_norm bn (nd j) a W N Hv V). apply cum_mono; auto. now apply V.
  - unfold joint. rewrite <- (qprod_map_nth (fun v => getq (cond_prob bn v a)) (bn_V bn) (NInt 0)). f_equal. apply map_ext. intros j.
    rewrite cum_S. fold (nd j). rewrite cond_self. ring.
Qed.
Print Assumptions C44_exact_distribution.

(** nodes() listed with a child before its parent (topsort can do this, C21): KeyError *)
Theorem C44_misordered_raises : forall bn o u n p v q x, wfnet bn -> nonneg_net bn -> nearly_normalised bn -> unit_draws u -> 0 < n ->
  bn_V bn = p ++ v :: q -> In x (nparents bn v) -> ~ In x p -> forward_sample o bn u n = Raise KeyError.
Proof.
  intros bn o u n p v q x W NN N U L E Hx Nx. apply forward_key; auto; [now apply samplable_of|].
  exists p, v, q. split; [assumption|]. intros I. apply Nx. now apply I.
Qed.
Print Assumptions C44_misordered_raises.

(** ** C45 *)
(** the counts are those of the states burn+1 .. n-1 although the divisor is n-burn, so a node's
    unrounded entries add up to (n-burn-1)/(n-burn), never to 1; when nodes() is topological each
    state is simply the ancestral sample of its own draws *)
Theorem C45_gibbs_sample : forall bn o d u n burn, wfnet bn -> nonneg_net bn -> nearly_normalised bn -> unit_draws u -> burn < n ->
  exists count : name -> nat -> nat, gibbs_sample o bn d u n burn =
      Ok (answer bn (fun v x => py_round 4 (nQc (count v x) / nQc (n - burn))%Qc)) /\
    (forall v, In v (bn_V bn) -> qsum (map (fun x => (nQc (count v x) / nQc (n - burn))%Qc) (seq 0 (ncard bn v))) = (nQc (n - burn - 1) / nQc (n - burn))%Qc) /\
    (nodes_topological bn -> exists s, (forall i, i < n -> ancestral bn (u i) (s i)) /\
       forall v x, count v x = hits s (seq (S burn) (n - S burn)) v x).
Proof.
  intros bn o d u n burn W NN N U L. assert (Sm := samplable_of bn W NN N).
  destruct (gibbs_ok bn o d u n burn Sm U L) as (s & Hs & E).
  exists (hits s (seq (S burn) (n - S burn))). split; [exact E|]. split.
  - intros v Hv. rewrite qsum_div, hits_sum.
    + rewrite seq_length. do 2 f_equal. lia.
    + intros i Hi. apply in_seq in Hi. destruct (Hs i ltac:(lia)) as [V _]. now apply V.
  - intros Top. exists s. split; [|reflexivity]. intros i Hi. now apply Hs.
Qed.
Print Assumptions C45_gibbs_sample.
Theorem C45_refuted : forall bn o d u n burn D, wfnet bn -> nonneg_net bn -> nearly_normalised bn -> unit_draws u -> n = S burn ->
  gibbs_sample o bn d u n burn = Ok D ->
  forall v, In v (bn_V bn) -> exists m, dget D v = Some m /\ forall x p, In (x, p) m -> p = 0%Qc.
Proof.
  intros bn o d u n burn D W NN N U -> H v Hv. assert (Sm := samplable_of bn W NN N).
  destruct (gibbs_ok bn o d u (S burn) burn Sm U ltac:(lia)) as (s & Hs & E). rewrite E in H. injection H as <-.
  eexists. split; [now apply answer_get|]. intros x p Hx. apply in_map_iff in Hx as (k & E' & _). apply (f_equal snd) in E'. cbn [snd] in E'. subst p.
  rewrite Nat.sub_diag. change (hits s (seq (S burn) 0) v k) with 0. rewrite nQc_0.
  replace (0 / nQc (S burn - burn))%Qc with 0%Qc by (field; apply nQc_nz; lia). apply py_round_0.
Qed.
Print Assumptions C45_refuted.
(** not a Markov chain: when nodes() is topological the initial state has no influence *)
Theorem C45_no_chain : forall bn o o' d d' u n burn, wfnet bn -> nonneg_net bn -> nearly_normalised bn -> unit_draws u -> nodes_topological bn ->
  burn < n -> gibbs_sample o bn d u n burn = gibbs_sample o' bn d' u n burn.
Proof.
  intros bn o o' d d' u n burn W NN N U Top L. assert (Sm := samplable_of bn W NN N).
  destruct (gibbs_ok bn o d u n burn Sm U L) as (s & Hs & E). destruct (gibbs_ok bn o' d' u n burn Sm U L) as (s' & Hs' & E').
  rewrite E, E'. f_equal. apply answer_ext. intros v x Hv _. do 3 f_equal. apply hits_ext. intros i Hi. apply in_seq in Hi.
  apply (ancestral_unique bn (u i)); auto; [apply Hs|apply Hs']; auto; lia.
Qed.
Print Assumptions C45_no_chain.
Theorem C45_burn_equals_n : forall bn o d u n, wfnet bn -> nonneg_net bn -> nearly_normalised bn -> unit_draws u -> bn_V bn <> [] ->
  gibbs_sample o bn d u n n = Raise ZeroDivisionError.
Proof.
  intros bn o d u n W NN N U NE. assert (Sm := samplable_of bn W NN N). unfold gibbs_sample. rewrite empty_tally_ok by assumption. cbn [bind].
  destruct (gs_init_ok bn d W) as (a0 & E0 & V0). rewrite E0. cbn [bind].
  destruct (gs_outer bn o u n Sm U (seq 0 n) a0 (fun _ _ => 0%Qc) (seq_NoDup _ _) V0) as (s & a' & Hs & E). rewrite E. cbn [bind fst].
  destruct (bn_V bn) as [|v r] eqn:EV; [contradiction|]. assert (Hv : In v (bn_V bn)) by (rewrite EV; now left).
  assert (Cp := card_pos bn v W Hv). unfold map_tally, answer. rewrite EV. cbn [map mapM snd fst].
  destruct (ncard bn v) as [|c] eqn:Ec; [lia|]. cbn [seq map mapM snd]. unfold float_div at 1.
  destruct (Qc_eq_dec (nQc n - nQc n) 0) as [_|Z]; [reflexivity|]. exfalso. apply Z. ring.
Qed.
Print Assumptions C45_burn_equals_n.

(** ** C46 *)
Theorem C46_lw_sample : forall bn ev o u n, wfnet bn -> nonneg_net bn -> nearly_normalised bn -> nodes_topological bn ->
  good_evidence bn ev -> unit_draws u -> 0 < n ->
  exists s w, (forall i, i < n -> weighted_sample bn ev (u i) (s i) /\ w i = likelihood bn ev (s i)) /\
    let total := qsum (map w (seq 0 n)) in
    let estimate v x := (qsum (map w (filter (fun i => s i v =? x)%nat (seq 0 n))) / total)%Qc in
    (total = 0%Qc -> lw_sample o bn ev u n = Ok (answer bn (fun v x => None))) /\
    (total <> 0%Qc -> lw_sample o bn ev u n = Ok (answer bn (fun v x => Some (py_round 4 (estimate v x)))) /\
      (forall v, In v (bn_V bn) -> qsum (map (estimate v) (seq 0 (ncard bn v))) = 1%Qc) /\
      (forall v x k, In (v, x) ev -> val_index bn v x = Some k -> estimate v k = 1%Qc)).
Proof.
  intros bn ev o u n W NN N Top GE U L. assert (Sm := samplable_of bn W NN N).
  destruct (lw_ok bn ev o u n Sm Top GE U L) as (s & Hs & E). exists s, (fun i => likelihood bn ev (s i)).
  split; [intros i Hi; split; [now apply Hs|reflexivity]|]. cbn zeta in *. set (total := qsum (map (fun i => likelihood bn ev (s i)) (seq 0 n))) in *.
  assert (Wf : forall v x, qsum (map (fun i => likelihood bn ev (s i)) (filter (fun i => s i v =? x) (seq 0 n))) = whits s (fun i => likelihood bn ev (s i)) (seq 0 n) v x).
  { intros v x. unfold whits. generalize (seq 0 n). induction l as [|i l IH]; [reflexivity|]. cbn [filter map]. destruct (s i v =? x); cbn [map qsum fold_right].
    - f_equal. exact IH.
    - change (fold_right Qcplus 0%Qc (map (fun i0 => if s i0 v =? x then likelihood bn ev (s i0) else 0%Qc) l)) with (qsum (map (fun i0 => if s i0 v =? x then likelihood bn ev (s i0) else 0%Qc) l)).
      rewrite <- IH. ring. }
  split.
  - intros Z. rewrite E. f_equal. apply answer_ext. intros v x _ _. destruct (Qc_eq_dec total 0); [reflexivity|contradiction].
  - intros NZ. split; [|split].
    + rewrite E. f_equal. apply answer_ext. intros v x _ _. destruct (Qc_eq_dec total 0); [contradiction|]. now rewrite Wf.
    + intros v Hv. rewrite qsum_div. rewrite (qsum_map_ext _ (whits s (fun i => likelihood bn ev (s i)) (seq 0 n) v)) by (intros x _; apply Wf).
      rewrite whits_sum; [fold total; now field|]. intros i Hi. apply in_seq in Hi. destruct (Hs i ltac:(lia)) as [_ V]. now apply V.
    + intros v x k Hx Hk. rewrite Wf. replace (whits s (fun i => likelihood bn ev (s i)) (seq 0 n) v k) with total; [now field|].
      unfold total, whits. f_equal. apply map_ext_in. intros i Hi. apply in_seq in Hi. destruct (Hs i ltac:(lia)) as [A _].
      destruct GE as [ND G]. destruct (G v x Hx) as [Hv _]. destruct (In_nth_error _ _ Hv) as [j Hj]. specialize (A j v Hj).
      assert (D : dget ev v = Some x) by (now apply In_dget_dict). rewrite D in A. assert (s i v = k) by congruence. rewrite H. now rewrite Nat.eqb_refl.
Qed.
Print Assumptions C46_lw_sample.
(** no samples: ZeroDivisionError; with a target the answer is that node's entry, KeyError if there is none *)
Theorem C46_no_samples : forall bn ev o u, wfnet bn -> bn_nodes bn <> [] -> lw_sample o bn ev u 0 = Raise ZeroDivisionError.
Proof.
  intros bn ev o u W NE. unfold bn_nodes in NE. unfold lw_sample. rewrite empty_tally_ok by assumption. cbn [bind seq foldM fst snd].
  destruct (bn_V bn) as [|v r] eqn:EV; [contradiction|]. assert (Hv : In v (bn_V bn)) by (rewrite EV; now left).
  assert (Cp := card_pos bn v W Hv). unfold map_tally, answer. rewrite EV. cbn [map mapM snd fst].
  destruct (ncard bn v) as [|c] eqn:Ec; [lia|]. cbn [seq map mapM snd]. unfold lw_entry at 1. cbn [qsum fold_right].
  destruct (Qc_eq_dec 0 0) as [_|Z]; [reflexivity|]. now destruct Z.
Qed.
Print Assumptions C46_no_samples.
Theorem C46_target : forall bn ev o u n D, lw_sample o bn ev u n = Ok D ->
  (forall v m, dget D v = Some m -> lw_sample_target o bn ev u n v = Ok m) /\ (forall v, dget D v = None -> lw_sample_target o bn ev u n v = Raise KeyError).
Proof. intros bn ev o u n D E. unfold lw_sample_target. rewrite E. cbn [bind]. unfold getitem. split; intros v; [intros m ->|intros ->]; reflexivity. Qed.
Print Assumptions C46_target.
(** why the weighted estimate is the right one: the draws that give sample [a] form a box with
    volume v, and v times the sample's weight is the joint probability of [a] *)
Theorem C46_exact_weighting : forall bn ev a, wfnet bn -> nonneg_net bn -> normalised bn -> valid (ncard bn) (bn_V bn) a ->
  good_evidence bn ev -> agrees bn ev a = true ->
  exists lo hi : nat -> Qc,
    (forall u, (forall j, 0 <= u j /\ u j < 1)%Qc -> (weighted_sample bn ev u a <-> forall j, j < length (bn_V bn) -> (lo j <= u j /\ u j < hi j)%Qc)) /\
    (forall j, j < length (bn_V bn) -> (0 <= lo j /\ lo j <= hi j /\ hi j <= 1)%Qc) /\
    (qprod (map (fun j => hi j - lo j) (seq 0 (length (bn_V bn)))) * likelihood bn ev a = joint bn a)%Qc.
Proof.
  intros bn ev a W NN N V GE Ag.
  set (nd := fun j => nth j (bn_V bn) (NInt 0)).
  assert (I : forall j, j < length (bn_V bn) -> In (nd j) (bn_V bn)) by (intros j Hj; now apply nth_In).
  set (ob := fun v => mem v (map fst ev)).
  exists (fun j => if ob (nd j) then 0%Qc else cum bn (nd j) a (a (nd j))), (fun j => if ob (nd j) then 1%Qc else cum bn (nd j) a (S (a (nd j)))). split; [|split].
  - intros u U. split.
    + intros A j Hj. specialize (A j (nd j) ltac:(now apply nth_error_nth')). unfold ob. rewrite mem_keys. destruct (dget ev (nd j)); [apply U|].
      destruct A as (_ & B & C). rewrite cum_norm, div_1 in B, C by auto. now split.
    + intros H j v Hv. assert (Lj : j < length (bn_V bn)) by (apply nth_error_Some; congruence).
      assert (nd j = v) by (unfold nd; now apply nth_error_nth). specialize (H j Lj). rewrite H0 in H. unfold ob in H. rewrite mem_keys in H.
      assert (Hv' : In v (bn_V bn)) by (rewrite <- H0; auto). destruct (dget ev v) as [x|] eqn:D.
      * apply dget_in_list in D. unfold agrees in Ag. rewrite forallb_forall in Ag. specialize (Ag _ D). cbn [fst snd] in Ag.
        destruct (val_index bn v x) as [k|]; [|discriminate]. apply Nat.eqb_eq in Ag. now rewrite Ag.
      * split; [now apply V|]. rewrite cum_norm, !div_1 by auto. exact H.
  - intros j Hj. assert (Hv := I j Hj). destruct (ob (nd j)).
    { split; [apply Qcle_refl|]. split; [discriminate|apply Qcle_refl]. }
    split; [|split].
    + replace 0%Qc with (cum bn (nd j) a 0) by reflexivity. apply cum_mono; auto. lia.
    + apply cum_mono; auto.
    + rewrite <- (cum_norm bn (nd j) a W N Hv V). apply cum_mono; auto. now apply V.
  - set (f := fun v => if ob v then 1%Qc else getq (cond_prob bn v a)).
    assert (E : map (fun j => ((if ob (nd j) then 1 else cum bn (nd j) a (S (a (nd j)))) - (if ob (nd j) then 0 else cum bn (nd j) a (a (nd j))))%Qc) (seq 0 (length (bn_V bn))) =
      map (fun j => f (nth j (bn_V bn) (NInt 0))) (seq 0 (length (bn_V bn)))).
    { apply map_ext. intros j. unfold f. fold (nd j). destruct (ob (nd j)); [ring|]. rewrite cum_S, cond_self. ring. }
    rewrite E, qprod_map_nth. unfold joint, likelihood. fold ob. clear. induction (bn_V bn) as [|v r IH]; [reflexivity|].
    cbn [map filter qprod fold_right]. fold (qprod (map f r)). fold (qprod (map (fun v => getq (cond_prob bn v a)) r)). rewrite <- IH.
    unfold f at 1. destruct (ob v); cbn [map qprod fold_right]; fold (qprod (map (fun v => getq (cond_prob bn v a)) (filter ob r))); ring.
Qed.
Print Assumptions C46_exact_weighting.

(** ** C47 *)
Theorem C47_random_sample : forall bn o junk u n, wfnet bn -> nonneg_net bn -> nearly_normalised bn -> nodes_topological bn -> unit_draws u ->
  exists s, random_sample o bn junk u n = Ok (map (fun i => map (fun v => Z.of_nat (s i v)) (bn_V bn)) (seq 0 n)) /\
    forall i, i < n -> ancestral bn (u i) (s i) /\ valid (ncard bn) (bn_V bn) (s i) /\ (0 < joint bn (s i))%Qc.
Proof.
  intros bn o junk u n W NN N Top U. assert (Sm := samplable_of bn W NN N).
  destruct (random_ok bn o junk u n Sm Top U) as (s & Hs & E). exists s. split; [exact E|]. intros i Hi. specialize (Hs i Hi).
  assert (V := ancestral_valid _ _ _ Hs). split; [assumption|]. split; [assumption|]. unfold joint.
  assert (G : forall vs, incl vs (bn_V bn) -> (0 < qprod (map (fun v => getq (cond_prob bn v (s i))) vs))%Qc).
  { induction vs as [|v r IH]; intros I; [reflexivity|]. cbn [map qprod fold_right]. fold (qprod (map (fun v => getq (cond_prob bn v (s i))) r)).
    assert (Hv : In v (bn_V bn)) by (apply I; now left). destruct (In_nth_error _ _ Hv) as [j Hj].
    assert (P : (0 < getq (cond_prob bn v (s i)))%Qc).
    { apply (drawn_positive bn v (s i) (u i j) Sm Hv); [|now apply Hs]. intros x Hx. apply V. now apply (wn_par _ W v Hv). }
    assert (Q := IH ltac:(intros z Hz; apply I; now right)). revert P Q. generalize (getq (cond_prob bn v (s i))) (qprod (map (fun v => getq (cond_prob bn v (s i))) r)).
    intros; qcnra. }
  apply G, incl_refl.
Qed.
Print Assumptions C47_random_sample.
(** with a child listed before its parent the row read is uninitialised memory: a row of probability 0 comes out *)
Definition exMis : bayesnet :=
  mkBN [exB; exA] [(exB, []); (exA, [exB])]
    [(exB, mkF [exA] [nm "0"; nm "1"] [1%Qc; 0%Qc; 0%Qc; 1%Qc]); (exA, mkF [] [nm "0"; nm "1"] [qq 1 2; qq 1 2])].
Theorem C47_misordered_refuted : exists junk u row, unit_draws u /\ wfnet exMis /\ acyclic (bn_E exMis) /\
  random_sample id_oracle exMis junk u 1 = Ok [row] /\
  forall a, (forall j v, nth_error (bn_V exMis) j = Some v -> nth_error row j = Some (Z.of_nat (a v))) -> joint exMis a = 0%Qc.
Proof.
  exists (fun _ _ => 0%Z), (fun _ _ => qq 3 4), [0%Z; 1%Z]. split; [|split; [|split; [|split]]].
  - intros i j. split; [discriminate|reflexivity].
  - apply wfnetb_ok. vm_compute. reflexivity.
  - apply acyclicb_ok. vm_compute. reflexivity.
  - vm_compute. reflexivity.
  - intros a H. assert (HB := H 0 exB eq_refl). assert (HA := H 1 exA eq_refl). simpl in HA, HB.
    assert (A : a exA = 1) by (injection HA; lia). assert (B : a exB = 0) by (injection HB; lia).
    unfold joint. cbn [exMis bn_V map qprod fold_right]. unfold cond_prob at 1. replace (nparents exMis exB) with [exA] by reflexivity.
    cbn [radix]. rewrite A, B. replace (ncpt exMis exB) with [1%Qc; 0%Qc; 0%Qc; 1%Qc] by reflexivity. replace (ncard exMis exB) with 2 by reflexivity.
    cbn. ring.
Qed.
Print Assumptions C47_misordered_refuted.

(** ** C72: tables learned from data need not be samplable *)
Lemma reduced_root o bn v get : wfnet bn -> In v (bn_V bn) -> nparents bn v = [] -> reduced_cpt o bn v get = Ok (ncpt bn v).
Proof.
  intros W Hv P. rewrite (reduced_cpt_ok bn get (fun _ => 0) v o W Hv); [|rewrite P; intros x []].
  f_equal. now apply (root_dist bn v (fun _ => 0)).
Qed.
Definition root_unnormalised (bn : bayesnet) (v : name) : Prop :=
  (Q2Qc (1 # 100000000) < qsum (ncpt bn v) - 1 \/ Q2Qc (1 # 100000000) < 1 - qsum (ncpt bn v))%Qc.
Lemma root_rejected bn v u : wfnet bn -> In v (bn_V bn) -> nparents bn v = [] -> root_unnormalised bn v ->
  np_choice u (nvalues bn v) (ncpt bn v) = Raise ValueError.
Proof.
  intros W Hv P R. assert (Cp := card_pos bn v W Hv). apply choice_rejects; [|rewrite <- nvalues_card|exact R].
  - rewrite <- nvalues_card. lia.
  - rewrite (wn_cpt _ W v Hv), P. cbn. lia.
Qed.
Theorem C72_unnormalised_root_raises : forall bn o d u n junk burn v r, wfnet bn -> bn_V bn = v :: r -> nparents bn v = [] ->
  root_unnormalised bn v -> 0 < n ->
  forward_sample o bn u n = Raise ValueError /\ gibbs_sample o bn d u n burn = Raise ValueError /\
  random_sample o bn junk u n = Raise ValueError /\
  (forall ev, dget ev v = None -> lw_sample o bn ev u n = Raise ValueError).
Proof.
  intros bn o d u n junk burn v r W EV P R L. assert (Hv : In v (bn_V bn)) by (rewrite EV; now left). destruct n as [|n]; [lia|].
  assert (En : enum (bn_nodes bn) = (0, v) :: combine (seq 1 (length r)) r) by (unfold enum, bn_nodes; now rewrite EV).
  split; [|split; [|split]].
  - unfold forward_sample. rewrite empty_tally_ok by assumption. cbn [bind seq foldM]. rewrite En. cbn [foldM]. unfold fs_node at 1.
    rewrite reduced_root by assumption. cbn [bind]. rewrite bn_values_ok by assumption. cbn [bind]. now rewrite root_rejected by assumption.
  - unfold gibbs_sample. rewrite empty_tally_ok by assumption. cbn [bind]. destruct (gs_init_ok bn d W) as (a0 & E0 & V0). rewrite E0. cbn [bind seq foldM].
    rewrite En. cbn [foldM]. unfold gs_node at 1. rewrite bn_parents_ok by assumption. cbn [bind]. rewrite P. cbn [length Nat.eqb].
    rewrite bn_cpt_ok by assumption. cbn [bind]. rewrite bn_values_ok by assumption. cbn [bind]. now rewrite root_rejected by assumption.
  - unfold random_sample. cbn [seq mapM]. rewrite En. cbn [foldM]. unfold rs_node at 1.
    rewrite reduced_root by assumption. cbn [bind]. rewrite bn_values_ok by assumption. cbn [bind]. now rewrite root_rejected by assumption.
  - intros ev D. unfold lw_sample. rewrite empty_tally_ok by assumption. cbn [bind seq foldM]. rewrite En. cbn [foldM]. unfold lw_node at 1.
    rewrite reduced_root by assumption. cbn [bind]. rewrite D. rewrite bn_values_ok by assumption. cbn [bind]. now rewrite root_rejected by assumption.
Qed.
Print Assumptions C72_unnormalised_root_raises.

Lemma zQc_opp z : zQc (- z) = (- zQc z)%Qc.
Proof. apply Qc_eq_Q. unfold zQc, Qcopp, Q2Qc. cbn [this]. rewrite !Qred_correct. reflexivity. Qed.
Lemma zQc_add x y : zQc (x + y) = (zQc x + zQc y)%Qc.
Proof. apply Qc_eq_Q. unfold zQc, Qcplus, Q2Qc. cbn [this]. rewrite !Qred_correct. now rewrite inject_Z_plus. Qed.
Lemma py_round_grid d x : exists z, py_round d x = (zQc z / pow10 d)%Qc.
Proof.
  unfold py_round. destruct (qltb x 0); eexists; [|reflexivity].
  instantiate (1 := (- qfloor ((- x) * pow10 d + half))%Z). rewrite zQc_opp. unfold Qcdiv. ring.
Qed.
(** three equally frequent values of a root: whatever the number of rows, the learned entries are
    equal multiples of 0.00001 and so cannot add up to 1 *)
Theorem C72_learned_three_values : forall t bn v m, wfnet bn -> mle_fit t bn -> In v (bn_V bn) -> nparents bn v = [] ->
  ncard bn v = 3 -> (forall x, In x (nvalues bn v) -> rows_with t [(v, x)] = m) -> root_unnormalised bn v.
Proof.
  intros t bn v m W [_ F] Hv P C3 Hm. set (p := py_round 5 (nQc m / (nQc (length (t_rows t)) + Q2Qc (1 # 10000000)))%Qc).
  assert (E : ncpt bn v = [p; p; p]).
  { rewrite <- (root_dist bn v (fun _ => 0) W Hv P). unfold dist. rewrite C3.
    assert (G : forall x, x < 3 -> getq (cond_prob bn v (upd (fun _ => 0) v x)) = p).
    { intros x Hx. rewrite F; [|assumption|rewrite P; intros y [<-|[]]; rewrite upd_same; lia]. rewrite P. cbn [config map]. rewrite upd_same.
      rewrite Hm by (apply nth_In; rewrite <- nvalues_card; lia). unfold getq, p. do 4 f_equal.
      unfold rows_with, config. cbn [map forallb]. clear. induction (t_rows t) as [|r rs IH]; [reflexivity|]. cbn [filter length]. now rewrite IH. }
    cbn [seq map]. rewrite !G by lia. reflexivity. }
  unfold root_unnormalised. rewrite E. destruct (py_round_grid 5 (nQc m / (nQc (length (t_rows t)) + Q2Qc (1 # 10000000)))%Qc) as (z & Ez). fold p in Ez. rewrite Ez.
  cbn [qsum fold_right].
  replace (zQc z / pow10 5 + (zQc z / pow10 5 + (zQc z / pow10 5 + 0)))%Qc with (zQc (3 * z) / pow10 5)%Qc.
  2:{ replace (3 * z)%Z with (z + (z + z))%Z by ring. rewrite !zQc_add. unfold Qcdiv. ring. }
  assert (T5 : forall y, (this (zQc y / pow10 5)%Qc == y # 100000)%Q).
  { intros y. unfold zQc, pow10. unfold Qcdiv, Qcmult, Qcinv, Q2Qc. cbn [this]. rewrite !Qred_correct. unfold Qeq. simpl. ring. }
  assert (tol : (this (Q2Qc (1 # 100000000)) == 1 # 100000000)%Q) by reflexivity. assert (one : this 1%Qc = 1%Q) by reflexivity.
  specialize (T5 (3 * z)%Z). revert T5. generalize (zQc (3 * z) / pow10 5)%Qc. intros y T5. destruct (Z_le_gt_dec (3 * z) 99999) as [L|L].
  - right. assert ((3 * z # 100000) <= 99999 # 100000)%Q by (unfold Qle; cbn [Qnum Qden]; lia). qclra.
  - left. assert (L2 : (100001 <= 3 * z)%Z) by lia. assert ((100001 # 100000) <= 3 * z # 100000)%Q by (unfold Qle; cbn [Qnum Qden]; lia). qclra.
Qed.
Print Assumptions C72_learned_three_values.
(** one column with the values 0, 1, 2: learned, then not samplable *)
Definition exT3 : table := mkT 1 [[NInt 0]; [NInt 1]; [NInt 2]].
Definition exT3bn : bayesnet := mkBN [NInt 0] [(NInt 0, [])] [(NInt 0, mkF [] [] [])].
Theorem C72_refuted : exists bn, mle_estimator id_oracle exT3bn exT3 None = Ok bn /\ wfnet bn /\ mle_fit exT3 bn /\
  forall o u n, 0 < n -> forward_sample o bn u n = Raise ValueError.
Proof.
  destruct (C41_mle_probabilities id_oracle exT3bn exT3 1) as (bn & E & W & V & _ & P & F).
  - apply good_id.
  - constructor; [apply nodupb_ok; reflexivity|intros v [<-|[]]; simpl; eauto|intros v [<-|[]]; apply nodupb_ok; reflexivity|intros v [<-|[]]; apply inclb_ok; reflexivity].
  - intros v [<-|[]]; simpl; eauto.
  - intros v [<-|[]]; reflexivity.
  - intros r [<-|[<-|[<-|[]]]]; reflexivity.
  - discriminate.
  - reflexivity.
  - simpl; lia.
  - exists bn. split; [exact E|]. split; [exact W|]. split; [exact F|]. intros o u n L.
    assert (EV : bn_V bn = NInt 0 :: []) by exact V. assert (Hv : In (NInt 0) (bn_V bn)) by (rewrite EV; now left).
    assert (P0 : nparents bn (NInt 0) = []) by (apply (P (NInt 0)); now left).
    assert (X : nvalues bn (NInt 0) = [NInt 0; NInt 1; NInt 2]).
    { assert (Q : mle_estimator id_oracle exT3bn exT3 None = Ok (unres (mle_estimator id_oracle exT3bn exT3 None) exT3bn)) by (vm_compute; reflexivity).
      rewrite Q in E. injection E as <-. vm_compute. reflexivity. }
    apply (C72_unnormalised_root_raises bn o (fun _ => 0) u n (fun _ _ => 0%Z) 0 (NInt 0) [] W EV P0); [|exact L].
    apply (C72_learned_three_values exT3 bn (NInt 0) 1 W F Hv P0); [rewrite nvalues_card, X; reflexivity|].
    intros x. rewrite X. intros [<-|[<-|[<-|[]]]]; reflexivity.
Qed.
Print Assumptions C72_refuted.

(** ** non-vacuity: the network A -> B, A -> C, B -> C of Examples.v *)
Lemma ex3_top : nodes_topological ex3.
Proof.
  intros p v q E. destruct p as [|x [|y [|z [|w p]]]]; cbn in E; injection E; intros; subst; try discriminate; apply inclb_ok; reflexivity.
Qed.
Lemma ex3_norm : normalised ex3. Proof. apply C15_nonvacuous. Qed.
Lemma ex3_nonneg : nonneg_net ex3. Proof. apply C15_nonvacuous. Qed.
Definition exU (i j : nat) : Qc := qq (Z.of_nat ((3 * i + 5 * j) mod 7)) 7.
Lemma exU_unit : unit_draws exU.
Proof.
  intros i j. unfold exU, qq. assert (B := Nat.mod_upper_bound (3 * i + 5 * j) 7 ltac:(lia)). generalize dependent ((3 * i + 5 * j) mod 7).
  intros k B. do 7 (destruct k as [|k]; [split; [discriminate|reflexivity]|]). lia.
Qed.
Example C44_nonvacuous : wfnet ex3 /\ nonneg_net ex3 /\ nearly_normalised ex3 /\ nodes_topological ex3 /\ unit_draws exU /\ normalised ex3 /\
  good_evidence ex3 [(exC, nm "1")] /\ valid (ncard ex3) (bn_V ex3) (fun v => if name_eqb v exC then 1 else 0) /\
  agrees ex3 [(exC, nm "1")] (fun v => if name_eqb v exC then 1 else 0) = true /\
  (exists D, forward_sample id_oracle ex3 exU 5 = Ok D /\ dget D exA = Some [(nm "0", qq 2 5); (nm "1", qq 3 5)]) /\
  (exists D, lw_sample id_oracle ex3 [(exC, nm "1")] exU 5 = Ok D /\ dget D exC = Some [(nm "0", Some (qq 0 10000)); (nm "1", Some (qq 10000 10000))]) /\
  (exists D, gibbs_sample id_oracle ex3 (fun _ => 0) exU 5 2 = Ok D /\ dget D exA = Some [(nm "0", qq 3333 10000); (nm "1", qq 3333 10000)]).
Proof.
  split; [apply ex3_wf|]. split; [apply ex3_nonneg|]. split; [apply normalised_nearly, ex3_norm|]. split; [apply ex3_top|]. split; [apply exU_unit|].
  split; [apply ex3_norm|]. split.
  { split; [apply nodupb_ok; reflexivity|]. intros rv x [E|[]]. injection E as <- <-. split; simpl; tauto. }
  split. { intros v [<-|[<-|[<-|[]]]]; vm_compute; lia. } split; [reflexivity|].
  split; [|split].
  - exists (unres (forward_sample id_oracle ex3 exU 5) []). split; vm_compute; reflexivity.
  - exists (unres (lw_sample id_oracle ex3 [(exC, nm "1")] exU 5) []). split; vm_compute; reflexivity.
  - exists (unres (gibbs_sample id_oracle ex3 (fun _ => 0) exU 5 2) []). split; vm_compute; reflexivity.
Qed.
Example C44_misordered_nonvacuous : wfnet exMis /\ nonneg_net exMis /\ nearly_normalised exMis /\ forward_sample id_oracle exMis exU 1 = Raise KeyError.
Proof.
  assert (W : wfnet exMis) by (apply wfnetb_ok; vm_compute; reflexivity).
  split; [exact W|]. split; [|split; [|vm_compute; reflexivity]].
  - intros v x [<-|[<-|[]]] Hx; vm_compute in Hx; repeat (destruct Hx as [<-|Hx]; [discriminate|]); contradiction.
  - apply normalised_nearly. intros v a Hv V. assert (VA := V exA ltac:(simpl; tauto)). replace (ncard exMis exA) with 2 in VA by reflexivity.
    destruct Hv as [<-|[<-|[]]]; unfold cond_prob.
    + replace (nparents exMis exB) with [exA] by reflexivity. replace (ncard exMis exB) with 2 by reflexivity. cbn [seq map radix].
      rewrite !upd_same, !upd_other by discriminate. destruct (a exA) as [|[|k]]; [apply Qc_eq_Q; vm_compute; reflexivity|apply Qc_eq_Q; vm_compute; reflexivity|lia].
    + replace (nparents exMis exA) with (@nil name) by reflexivity. replace (ncard exMis exA) with 2 by reflexivity. cbn [seq map radix]. rewrite !upd_same. apply Qc_eq_Q; vm_compute; reflexivity.
Qed.
