(** Properties_Trace.v -- traceback_map and refresh on a Factorization the user drives himself (C145). *)
From Verif Require Import Py Num BayesNet Factor Rounding Factorization SpecFactor SpecInference Radix SumOver FactorMul FactorOut FactorMore
  VE VEMap QueryErr HeapSet SpecHistory FzHistory FzTrace Examples Properties_Inference Properties_Query.
From Coq Require Import Lia.
Open Scope nat_scope.

(** ** C145: sums and observations in any order, then maxima over all that is left, then traceback_map:
    the most probable values of the maximised nodes, given the observations, with the other nodes summed out. *)
Lemma ops_ok_perm bn ps : forall S : name -> Prop, NoDup (map op_var ps) -> (forall p, In p ps -> S (op_var p)) ->
  (forall v x, In (Given v x) ps -> In x (nvalues bn v)) -> ops_ok bn S ps.
Proof.
  induction ps as [|p r IH]; intros S ND H V; [exact I|]. cbn [map] in ND. inversion ND as [|? ? N1 N2]; subst.
  split; [apply H; now left|]. split; [destruct p as [v|v|v x]; try exact I; apply V; now left|].
  apply IH; [assumption| |intros v x Hx; apply V; now right]. intros q Hq. split; [apply H; now right|].
  intros E. apply N1. rewrite <- E. now apply in_map.
Qed.
Lemma mentioned_all bn w : wfnet bn -> mentioned bn (bn_V bn) w <-> In w (bn_V bn).
Proof.
  intros W. split.
  - intros (v & Hv & [<-|Hp]); [assumption|]. now apply (wn_par _ W v Hv).
  - intros H. exists w. split; [assumption|now left].
Qed.
Lemma sum_over_base cd (V : list name) phi : (forall a b, (forall w, In w V -> a w = b w) -> phi a = phi b) ->
  forall vs a b, (forall w, In w V -> ~ In w vs -> a w = b w) -> sum_over cd vs phi a = sum_over cd vs phi b.
Proof.
  intros E. induction vs as [|v r IH]; intros a b H; cbn [sum_over]; [apply E; intros w Hw; apply H; [assumption|intros []]|].
  unfold sum_values. apply qsum_map_ext. intros x _. apply IH. intros w Hw Hn.
  destruct (name_eqb_spec w v) as [->|Ne]; [now rewrite !upd_same|]. rewrite !upd_other by assumption. apply H; [assumption|].
  intros [K|K]; [congruence|contradiction].
Qed.
Lemma joint_local bn a b : wfnet bn -> (forall w, In w (bn_V bn) -> a w = b w) -> joint bn a = joint bn b.
Proof.
  intros W H. unfold joint. f_equal. apply map_ext_in. intros v Hv. f_equal. apply cond_prob_ext.
  intros w [<-|Hw]; apply H; [assumption|]. now apply (wn_par _ W v Hv).
Qed.
Lemma pinned_prob bn pre order b : wfnet bn -> (forall p, In p pre -> ~ is_max p) ->
  Permutation (map op_var pre ++ order) (bn_V bn) -> (forall v x, In (Given v x) pre -> In x (nvalues bn v)) ->
  valid (ncard bn) order b ->
  prob_of bn (fun a => same_on order b a && agrees bn (givens pre) a) = ops_mean bn pre (nodes_prob bn (bn_V bn)) b.
Proof.
  intros W NM P V Vb. assert (NDV : NoDup (bn_V bn)) by apply W.
  assert (ND : NoDup (map op_var pre ++ order)) by (apply (Permutation_NoDup (Permutation_sym P)); assumption).
  destruct (NoDup_app_inv _ _ ND) as (ND1 & ND2 & Dj0). assert (Dj : forall w, In w order -> ~ In w (map op_var pre)) by (intros w H1 H2; now apply (Dj0 w)).
  assert (Io : incl order (bn_V bn)) by (intros w Hw; apply (Permutation_in _ P), in_or_app; now right).
  assert (GE : good_evidence bn (givens pre)).
  { split; [now apply givens_NoDup|]. intros v x H. apply In_givens in H. split; [|now apply V].
    apply (Permutation_in _ P), in_or_app. left. apply in_map_iff. exists (Given v x). auto. }
  assert (Ex : ext (joint bn)) by apply joint_ext.
  change (nodes_prob bn (bn_V bn)) with (joint bn). rewrite ops_mean_sums by assumption.
  unfold prob_of, same_on.
  transitivity (sum_over (ncard bn) (bn_V bn) (fun c => if forallb (fun v => c v =? b v) order then (if agrees bn (givens pre) c then joint bn c else 0%Qc) else 0%Qc) (fun _ => 0)).
  { apply sum_over_congr. intros c _ _. destruct (forallb (fun v => c v =? b v) order); reflexivity. }
  rewrite sum_pinned; [|intros c d E; rewrite (agrees_ext bn _ c d E), (Ex c d E); reflexivity|assumption|assumption|assumption|assumption].
  rewrite sum_agrees; [|assumption|assumption|now apply NoDup_minus| |assumption].
  2:{ intros w Hw. apply In_minus; [assumption|]. assert (K : In w (map op_var pre)) by (apply op_vars; auto).
      split; [apply (Permutation_in _ P), in_or_app; now left|]. intros H. now apply (Dj w). }
  assert (Q : Permutation (minus (minus (bn_V bn) order) (map fst (givens pre))) (sums pre)).
  { apply NoDup_Permutation; [now apply NoDup_minus, NoDup_minus|now apply sums_NoDup|]. intros w.
    rewrite !In_minus by (try apply NoDup_minus; assumption). split.
    - intros [[H1 H2] H3]. apply (Permutation_in _ (Permutation_sym P)) in H1. apply in_app_or in H1 as [H1|H1]; [|contradiction].
      apply op_vars in H1 as [H1|H1]; [assumption|contradiction|assumption].
    - intros H. assert (K : In w (map op_var pre)) by (apply op_vars; auto).
      split; [split; [apply (Permutation_in _ P), in_or_app; now left|intros H1; now apply (Dj w)]|].
      intros H1. apply in_map_iff in H1 as ([q x] & E & H1). cbn [fst] in E. subst q. apply In_givens in H1. apply In_sums in H.
      clear - H H1 ND1. induction pre as [|p r IH]; [destruct H|]. cbn [map] in ND1. inversion ND1 as [|? ? N1 N2]; subst.
      destruct H as [->|H]; [destruct H1 as [H1|H1]; [discriminate|]|destruct H1 as [->|H1]].
      + apply N1. cbn [op_var]. apply in_map_iff. exists (Given w x). auto.
      + apply N1. cbn [op_var]. apply in_map_iff. exists (SumOut w). auto.
      + now apply IH. }
  rewrite (sum_over_perm _ _ _ _ _ Ex (NoDup_minus _ _ (NoDup_minus _ _ NDV)) Q).
  (* the two base points agree on every node that is neither summed nor outside the network *)
  apply (sum_over_base _ (bn_V bn)); [intros; now apply joint_local|]. intros w Hw Hs. apply (Permutation_in _ (Permutation_sym P)) in Hw. apply in_app_or in Hw as [Hw|Hw].
  - apply op_vars in Hw as [Hw|Hw]; [contradiction| |assumption].
    apply in_map_iff in Hw as ([q x] & E & Hw). cbn [fst] in E. subst q. now rewrite !(setev_in bn _ _ w x (proj1 GE) Hw).
  - rewrite !setev_other by (intros K; apply (Dj w Hw), op_vars; auto). unfold override. now rewrite (proj2 (mem_In w order) Hw).
Qed.

Theorem C145_most_probable : forall bn pre order o o2, wfnet bn -> nonneg_net bn -> good o ->
  (forall p, In p pre -> ~ is_max p) -> Permutation (map op_var pre ++ order) (bn_V bn) ->
  (forall v x, In (Given v x) pre -> In x (nvalues bn v)) ->
  exists z0 z z' m, fz_init bn = Ok z0 /\ fz_history o z0 (pre ++ map MaxOut order) = Ok z /\
    fz_traceback o2 z = Ok (z', m) /\ (forall o3, fz_traceback o3 z' = Ok (z', m)) /\
    (forall v x, In (Given v x) pre -> dget m v = Some x) /\
    (forall v, In v order -> exists x, dget m v = Some x /\ In x (nvalues bn v)) /\
    (forall v x, dget m v = Some x -> In v order \/ In (Given v x) pre) /\
    forall b, valid (ncard bn) order b ->
      (prob_of bn (fun a => same_on order b a && agrees bn (givens pre) a) <=
       prob_of bn (fun a => same_on order (asg_of bn m) a && agrees bn (givens pre) a))%Qc.
Proof.
  intros bn pre order o o2 W NN Go NM P V. assert (NDV : NoDup (bn_V bn)) by apply W.
  assert (VO : map op_var (pre ++ map MaxOut order) = map op_var pre ++ order).
  { rewrite map_app, map_map. cbn [op_var]. now rewrite map_id. }
  destruct (trace_run bn (bn_V bn) pre order o o2 W NN (incl_refl _) Go NM) as (z0 & z & z' & m & E0 & E1 & E2 & E3 & G & T & K & Le).
  - apply ops_ok_perm.
    + rewrite VO. now apply (Permutation_NoDup (Permutation_sym P)).
    + intros p Hp. apply mentioned_all; [assumption|]. apply (Permutation_in _ P). rewrite <- VO. now apply in_map.
    + intros v x H. apply in_app_or in H as [H|H]; [now apply V|]. apply in_map_iff in H as (w & E & _). discriminate E.
  - intros w Hw. apply mentioned_all in Hw; [|assumption]. apply (Permutation_in _ (Permutation_sym P)) in Hw. now apply in_app_or.
  - exists z0, z, z', m. split; [exact E0|]. split; [exact E1|]. split; [exact E2|]. split; [exact E3|]. split; [exact G|].
    assert (T' : forall v, In v order -> exists x, dget m v = Some x /\ In x (nvalues bn v)).
    { intros v Hv. destruct (T v Hv) as (x & i & Hx & Hi). exists x. split; [assumption|]. apply index_of_Some in Hi. now apply nth_error_In in Hi. }
    split; [exact T'|]. split; [exact K|].
    assert (Vm : valid (ncard bn) order (asg_of bn m)).
    { intros w Hw. destruct (T w Hw) as (x & i & Hx & Hi). unfold asg_of. rewrite Hx, Hi.
      unfold val_index, nvalues in Hi. unfold ncard. destruct (dget (bn_F bn) w); [now apply index_of_lt in Hi|discriminate]. }
    intros b Vb. rewrite !pinned_prob by assumption. now apply Le.
Qed.
Print Assumptions C145_most_probable.

(** the same on a Factorization of chosen nodes, whose factors mean the product of their tables *)
Theorem C145_chosen_nodes : forall bn nodes pre order o o2, wfnet bn -> nonneg_net bn -> incl nodes (bn_V bn) -> good o ->
  (forall p, In p pre -> ~ is_max p) -> ops_ok bn (mentioned bn nodes) (pre ++ map MaxOut order) ->
  (forall w, mentioned bn nodes w -> In w (map op_var pre) \/ In w order) ->
  exists z0 z z' m, fz_init_nodes bn nodes = Ok z0 /\ fz_history o z0 (pre ++ map MaxOut order) = Ok z /\
    fz_traceback o2 z = Ok (z', m) /\ (forall o3, fz_traceback o3 z' = Ok (z', m)) /\
    (forall v, In v order -> exists x, dget m v = Some x /\ In x (nvalues bn v)) /\
    forall b, valid (ncard bn) order b ->
      (ops_mean bn pre (nodes_prob bn nodes) b <= ops_mean bn pre (nodes_prob bn nodes) (asg_of bn m))%Qc.
Proof.
  intros bn nodes pre order o o2 W NN I Go NM O All.
  destruct (trace_run bn nodes pre order o o2 W NN I Go NM O All) as (z0 & z & z' & m & E0 & E1 & E2 & E3 & G & T & K & Le).
  exists z0, z, z', m. split; [exact E0|]. split; [exact E1|]. split; [exact E2|]. split; [exact E3|]. split; [|exact Le].
  intros v Hv. destruct (T v Hv) as (x & i & Hx & Hi). exists x. split; [assumption|]. apply index_of_Some in Hi. now apply nth_error_In in Hi.
Qed.
Print Assumptions C145_chosen_nodes.

(** with one node maximised this is the most probable value of that node given the evidence: what the target
    argument of ve_map does not give (C125_target_value_refuted) *)
Theorem C145_best_value : forall bn t ev rest o o2, wfnet bn -> nonneg_net bn -> good o ->
  Permutation (map fst ev ++ rest ++ [t]) (bn_V bn) -> (forall v x, In (v, x) ev -> In x (nvalues bn v)) ->
  exists z0 z z' m x i, fz_init bn = Ok z0 /\
    fz_history o z0 (map (fun p => Given (fst p) (snd p)) ev ++ map SumOut rest ++ [MaxOut t]) = Ok z /\
    fz_traceback o2 z = Ok (z', m) /\ dget m t = Some x /\ val_index bn t x = Some i /\
    forall j, j < ncard bn t -> (marginal bn t ev j <= marginal bn t ev i)%Qc.
Proof.
  intros bn t ev rest o o2 W NN Go P V. set (pre := map (fun p => Given (fst p) (snd p)) ev ++ map SumOut rest).
  assert (GV : givens pre = ev).
  { unfold pre, givens. rewrite flat_map_app. transitivity (ev ++ []); [|apply app_nil_r]. f_equal.
    - clear. induction ev as [|[v x] r IH]; [reflexivity|]. cbn [map flat_map fst snd app]. now rewrite IH.
    - clear. induction rest as [|v r IH]; [reflexivity|]. exact IH. }
  assert (VO : map op_var pre = map fst ev ++ rest).
  { unfold pre. rewrite map_app, !map_map. cbn [op_var]. now rewrite map_id. }
  destruct (C145_most_probable bn pre [t] o o2 W NN Go) as (z0 & z & z' & m & E0 & E1 & E2 & _ & _ & T & _ & Le).
  - intros p Hp. apply in_app_or in Hp as [H|H]; apply in_map_iff in H as (q & <- & _); intros [].
  - rewrite VO, <- app_assoc. exact P.
  - intros v x H. apply In_givens in H. rewrite GV in H. now apply V.
  - destruct (T t (or_introl eq_refl)) as (x & Hx & Ix). destruct (index_of_In _ _ Ix) as (i & Hi).
    exists z0, z, z', m, x, i. split; [exact E0|]. split; [unfold pre in E1; rewrite <- app_assoc in E1; exact E1|]. split; [exact E2|].
    split; [exact Hx|]. split; [exact Hi|]. intros j Hj.
    specialize (Le (fun _ => j)). rewrite GV in Le.
    assert (Q : forall c k, c t = k -> prob_of bn (fun a => same_on [t] c a && agrees bn ev a) = marginal bn t ev k).
    { intros c k <-. unfold marginal, prob_of. apply sum_over_congr. intros a _ _. unfold same_on. cbn [forallb]. now rewrite andb_true_r. }
    rewrite (Q (fun _ => j) j eq_refl) in Le. rewrite (Q (asg_of bn m) i) in Le; [|unfold asg_of; now rewrite Hx; unfold val_index; rewrite Hi].
    apply Le. intros w [<-|[]]. assumption.
Qed.
Print Assumptions C145_best_value.

(** refresh, after any history of operators that succeeded (a traceback too): the whole network again, nothing
    remembered -- even when the object was made for chosen nodes only *)
Theorem C145_refresh : forall bn nodes ps o o2 z0 z, fz_init_nodes bn nodes = Ok z0 -> fz_history o z0 ps = Ok z ->
  fz_refresh z = fz_init bn /\
  (forall z' m, fz_traceback o2 z = Ok (z', m) -> fz_refresh z' = fz_init bn) /\
  (wfnet bn -> exists z1, fz_refresh z = Ok z1 /\ fz_map z1 = [] /\ fz_asg z1 = [] /\
     forall a, valid (ncard bn) (bn_V bn) a -> factors_at (fz_phi z1) a = joint bn a).
Proof.
  intros bn nodes ps o o2 z0 z E0 E. unfold fz_init_nodes in E0. apply bind_Ok in E0 as (fs & _ & E0). inversion E0; subst z0.
  pose proof (history_bn _ _ _ _ E) as B. cbn [fz_bn] in B. unfold fz_refresh. rewrite B. split; [reflexivity|]. split.
  - intros z' m T. unfold fz_traceback in T. apply bind_Ok in T as (p & _ & T). inversion T; subst z'. cbn [fz_bn]. rewrite ?B. reflexivity.
  - intros W. destruct (fz_init_ok bn W) as (fs1 & E1 & F1 & _ & S1 & P1). unfold fz_init in E1. apply bind_Ok in E1 as (fs2 & E2 & E3).
    inversion E3; subst fs2. rewrite E2. cbn [bind]. eexists. split; [reflexivity|]. split; [reflexivity|]. split; [reflexivity|].
    cbn [fz_phi]. intros a Va. now apply P1.
Qed.
Print Assumptions C145_refresh.

(** an observation that comes after a maximisation is recorded but not used by traceback_map: the values returned can
    contradict it, although they have probability 0 and others do not *)
Theorem C145_late_observation_refuted : exists bn v w x y, wfnet bn /\ nonneg_net bn /\ Permutation [v; w] (bn_V bn) /\ In x (nvalues bn w) /\
  (exists o o2 z0 z z' m, good o /\ good o2 /\ fz_init bn = Ok z0 /\ fz_history o z0 [MaxOut v; Given w x] = Ok z /\
     fz_traceback o2 z = Ok (z', m) /\ m = [(w, x); (v, y)] /\ joint bn (asg_of bn m) = 0%Qc) /\
  exists a, agrees bn [(w, x)] a = true /\ (0 < joint bn a)%Qc.
Proof.
  exists exMix, exM1, exM2, (nm "1"), (nm "0"). split; [exact exMix_wf|]. split; [exact exMix_nonneg|]. split; [reflexivity|].
  split; [right; now left|]. split.
  - exists id_oracle, id_oracle. eexists _, _, _, _. split; [exact good_id|]. split; [exact good_id|]. split; [vm_compute; reflexivity|]. split; [vm_compute; reflexivity|]. split; [vm_compute; reflexivity|].
    split; [reflexivity|]. apply Qc_is_canon. vm_compute. reflexivity.
  - exists (fun _ => 1). split; [reflexivity|]. vm_compute. reflexivity.
Qed.
Print Assumptions C145_late_observation_refuted.

(** ** Concrete cases *)
Example C145_nonvacuous : wfnet ex3 /\ nonneg_net ex3 /\
  (forall p, In p [Given exC (nm "1"); SumOut exA] -> ~ is_max p) /\
  Permutation (map op_var [Given exC (nm "1"); SumOut exA] ++ [exB]) (bn_V ex3) /\
  Permutation (map fst [(exC, nm "1")] ++ [exA] ++ [exB]) (bn_V ex3) /\ In (nm "1") (nvalues ex3 exC) /\
  (exists z0 z z', fz_init ex3 = Ok z0 /\ fz_history rev_oracle z0 ([Given exC (nm "1"); SumOut exA] ++ map MaxOut [exB]) = Ok z /\
     fz_traceback rev_oracle z = Ok (z', [(exC, nm "1"); (exB, nm "0")]) /\
     exists z1, fz_refresh z' = Ok z1 /\ length (fz_phi z1) = 3).
Proof.
  split; [exact ex3_wf|]. split; [apply C15_nonvacuous|].
  split; [intros p [<-|[<-|[]]] []|]. split; [|split; [|split; [vm_compute; auto|]]].
  - cbn. apply NoDup_Permutation; [| apply ex3_wf|].
    + repeat constructor; cbn; intuition discriminate.
    + intros w. cbn. tauto.
  - cbn. apply NoDup_Permutation; [| apply ex3_wf|].
    + repeat constructor; cbn; intuition discriminate.
    + intros w. cbn. tauto.
  - eexists _, _, _. split; [vm_compute; reflexivity|]. split; [vm_compute; reflexivity|]. split; [vm_compute; reflexivity|].
    eexists. split; [vm_compute; reflexivity|reflexivity].
Qed.
