(** Properties_Rename2.v -- renaming nodes and values does not change what the samplers draw (C144). *)
From Verif Require Import Py Num BayesNet Factor Rounding Factorization SpecFactor SpecInference
  Radix SumOver FactorOut VE VETotal VEShape VEMap QueryErr Examples Properties_Inference Properties_Query Properties_Coherence
  Properties_Rename Sampling SpecSample SampleFacts SampleMain SampleLaws Properties_Sample JsonFacts.
From Coq Require Import Lia.
Open Scope nat_scope.

(** the answer table with every node and value under its new name *)
Definition rename_table {A} (r : name -> name) (s : name -> name -> name) (D : dict (dict A)) : dict (dict A) :=
  map (fun vm => (r (fst vm), map (fun xp => (s (fst vm) (fst xp), snd xp)) (snd vm))) D.

Section RenamingSamples.
Variables (r : name -> name) (s : name -> name -> name) (bn bn' : bayesnet).
Hypotheses (W : wfnet bn) (R : renamed r s bn bn') (V : bn_V bn' = map r (bn_V bn)).

Lemma rs_cum a' a v k : corr r bn a' a -> In v (bn_V bn) -> cum bn' (r v) a' k = cum bn v a k.
Proof.
  intros C Hv. unfold cum. apply qsum_map_ext. intros x _. f_equal. apply (rn_cond r s bn bn' W R); [|assumption]. now apply (corr_upd r s bn bn' R).
Qed.
Lemma rs_samplable : samplable bn -> samplable bn'.
Proof.
  intros (_ & NN & N). split; [now apply (rn_wf r s bn bn')|]. split.
  - intros v' x Hv Hx. destruct (rn_out r s bn bn' R v' Hv) as (v & Hv0 & ->). rewrite (rn_cpt _ _ _ _ R v Hv0) in Hx. now apply (NN v x).
  - intros v' a' Hv Va. destruct (rn_out r s bn bn' R v' Hv) as (v & Hv0 & ->). set (a := fun w => a' (r w)).
    assert (C : corr r bn a' a) by (intros w Hw; reflexivity).
    rewrite (rn_card r s bn bn' R v Hv0), (rs_cum a' a v _ C Hv0). apply N; [assumption|].
    intros w Hw. unfold a. rewrite <- (rn_card r s bn bn' R w Hw). apply Va. now apply (rn_in r s bn bn' R).
Qed.
Lemma rs_top : nodes_topological bn -> nodes_topological bn'.
Proof.
  intros T p' w q' E. rewrite V in E. apply map_eq_app in E as (p & l & E & <- & E2). apply map_eq_cons in E2 as (v & q & -> & <- & <-).
  assert (Hv : In v (bn_V bn)) by (rewrite E; apply in_or_app; right; now left).
  rewrite (rn_par _ _ _ _ R v Hv). apply incl_map. exact (T p v q E).
Qed.
Lemma rs_drawn a' a v u : corr r bn a' a -> In v (bn_V bn) -> drawn_by bn' (r v) a' u <-> drawn_by bn v a u.
Proof. intros C Hv. unfold drawn_by. rewrite !(rs_cum a' a v) by assumption. rewrite (rn_card r s bn bn' R v Hv), (C v Hv). reflexivity. Qed.
Lemma rs_back a' : corr r bn a' (fun v => a' (r v)). Proof. intros v _. reflexivity. Qed.
Lemma rs_ancestral u a' : ancestral bn' u a' -> ancestral bn u (fun v => a' (r v)).
Proof.
  intros A j v Hj. assert (Hv := nth_error_In _ _ Hj). apply (rs_drawn a' _ v (u j) (rs_back a') Hv). apply A. rewrite V. now apply map_nth_error.
Qed.
Lemma rs_dget ev v : (forall w x, In (w, x) ev -> In w (bn_V bn)) -> In v (bn_V bn) -> dget (rename_ev r s ev) (r v) = option_map (s v) (dget ev v).
Proof.
  intros H Hv. induction ev as [|[w x] l IH]; [reflexivity|]. cbn [rename_ev map dget fst snd].
  destruct (name_eqb_spec v w) as [-> |N]; [now rewrite name_eqb_refl|].
  destruct (name_eqb_spec (r v) (r w)) as [E|_].
  - destruct N. apply (rn_inj _ _ _ _ R); [assumption|apply (H w x); now left|assumption].
  - apply IH. intros y z K. apply (H y z). now right.
Qed.
Lemma rs_good_evidence ev : good_evidence bn ev -> good_evidence bn' (rename_ev r s ev).
Proof.
  intros [GE1 GE2]. split.
  - rewrite rn_keys. apply NoDup_map_in; [assumption|]. intros x y Hx Hy. apply in_map_iff in Hx as ([a b] & <- & Hx). apply in_map_iff in Hy as ([c d] & <- & Hy). apply (rn_inj _ _ _ _ R); [apply (GE2 _ _ Hx)|apply (GE2 _ _ Hy)].
  - intros v' x' K. apply in_map_iff in K as ([v x] & Ev & K). injection Ev as <- <-. cbn [fst snd]. destruct (GE2 v x K) as [A1 A2].
    split; [now apply (rn_in r s bn bn' R)|]. rewrite (rn_val _ _ _ _ R v A1). now apply in_map.
Qed.
Lemma rs_weighted ev u a' : good_evidence bn ev -> weighted_sample bn' (rename_ev r s ev) u a' -> weighted_sample bn ev u (fun v => a' (r v)).
Proof.
  intros GE A j v Hj. assert (Hv := nth_error_In _ _ Hj). assert (Hj' : nth_error (bn_V bn') j = Some (r v)) by (rewrite V; now apply map_nth_error).
  specialize (A j (r v) Hj'). rewrite rs_dget in A; [|intros w x K; now apply GE in K|assumption].
  destruct (dget ev v) as [x|] eqn:Ed; cbn [option_map] in A.
  - destruct (good_evidence_get bn ev v x W GE Ed) as (Hx & _). rewrite (rn_val_index r s bn bn' R v x) in A; [assumption|assumption|].
    apply GE. now apply dget_In_pair.
  - now apply (rs_drawn a' _ v (u j) (rs_back a') Hv).
Qed.
Lemma rs_likelihood ev a' a : good_evidence bn ev -> corr r bn a' a -> likelihood bn' (rename_ev r s ev) a' = likelihood bn ev a.
Proof.
  intros GE C. unfold likelihood. rewrite V, rn_keys.
  assert (G : forall l, incl l (bn_V bn) -> qprod (map (fun v => getq (cond_prob bn' v a')) (filter (fun v => mem v (map r (map fst ev))) (map r l))) =
     qprod (map (fun v => getq (cond_prob bn v a)) (filter (fun v => mem v (map fst ev)) l))).
  { induction l as [|v l IH]; intros I; [reflexivity|]. cbn [map filter]. assert (Hv : In v (bn_V bn)) by (apply I; now left).
    assert (M : mem (r v) (map r (map fst ev)) = mem v (map fst ev)).
    { destruct (mem v (map fst ev)) eqn:Em.
      - apply mem_In. apply in_map. now apply mem_In.
      - apply mem_false. intros K. apply in_map_iff in K as (w & Ew & Hw). apply mem_false in Em. apply Em.
        rewrite <- (rn_inj _ _ _ _ R w v); [assumption| |assumption|assumption]. apply in_map_iff in Hw as ([w' x] & <- & Hw). now apply GE in Hw. }
    rewrite M. assert (I' : incl l (bn_V bn)) by (intros w Hw; apply I; now right).
    destruct (mem v (map fst ev)); cbn [map]; [|now apply IH]. unfold qprod in *. cbn [fold_right]. rewrite (rn_cond r s bn bn' W R a' a v C Hv). now rewrite IH. }
  apply G, incl_refl.
Qed.
Lemma rs_answer {A} (c' c : name -> nat -> A) : (forall v x, In v (bn_V bn) -> x < ncard bn v -> c' (r v) x = c v x) ->
  answer bn' c' = rename_table r s (answer bn c).
Proof.
  intros H. unfold answer, rename_table. rewrite V, !map_map. apply map_ext_in. intros v Hv. cbn [fst snd]. f_equal.
  rewrite map_map. rewrite (rn_card r s bn bn' R v Hv). apply map_ext_in. intros x Hx. apply in_seq in Hx. cbn [fst snd].
  rewrite H by (try assumption; lia). f_equal. rewrite (rn_val _ _ _ _ R v Hv).
  rewrite (nth_indep _ (NInt 0) (s v (NInt 0))) by (rewrite map_length, <- ncard_values; lia). apply map_nth.
Qed.
End RenamingSamples.

(** the rows drawn, and the three tables of estimates, are the ones of the original network under the new names *)
Theorem C144_samples : forall r s bn bn' o o' junk junk' u n, wfnet bn -> nonneg_net bn -> nearly_normalised bn -> nodes_topological bn ->
  renamed r s bn bn' -> bn_V bn' = map r (bn_V bn) -> unit_draws u ->
  random_sample o' bn' junk' u n = random_sample o bn junk u n /\
  (0 < n -> exists D, forward_sample o bn u n = Ok D /\ forward_sample o' bn' u n = Ok (rename_table r s D)) /\
  (forall d d' burn, burn < n -> exists D, gibbs_sample o bn d u n burn = Ok D /\ gibbs_sample o' bn' d' u n burn = Ok (rename_table r s D)).
Proof.
  intros r s bn bn' o o' junk junk' u n W NN N Top R V U. assert (Sm := samplable_of bn W NN N).
  assert (Sm' := rs_samplable r s bn bn' W R Sm). assert (Top' := rs_top r s bn bn' R V Top).
  assert (Q : forall ui a a', ancestral bn ui a -> ancestral bn' ui a' -> forall v, In v (bn_V bn) -> a' (r v) = a v).
  { intros ui a a' A A' v Hv. symmetry. apply (ancestral_unique bn ui a (fun w => a' (r w)) Sm Top A); [|assumption]. now apply (rs_ancestral r s bn bn' W R V). }
  split; [|split].
  - destruct (random_ok bn o junk u n Sm Top U) as (x & Hx & E). destruct (random_ok bn' o' junk' u n Sm' Top' U) as (x' & Hx' & E').
    rewrite E, E'. f_equal. apply map_ext_in. intros i Hi. apply in_seq in Hi. rewrite V, map_map. apply map_ext_in. intros v Hv.
    f_equal. apply (Q (u i)); [apply Hx; lia|apply Hx'; lia|assumption].
  - intros Hn. destruct (forward_ok bn o u n Sm Top U Hn) as (x & Hx & E). destruct (forward_ok bn' o' u n Sm' Top' U Hn) as (x' & Hx' & E').
    eexists. split; [exact E|]. rewrite E'. f_equal. apply rs_answer; try assumption. intros v k Hv _. do 2 f_equal. unfold hits. f_equal. apply filter_ext_in.
    intros i Hi. apply in_seq in Hi. now rewrite (Q (u i) (x i) (x' i)) by (try assumption; first [apply Hx|apply Hx']; lia).
  - intros d d' burn L. destruct (gibbs_ok bn o d u n burn Sm U L) as (x & Hx & E). destruct (gibbs_ok bn' o' d' u n burn Sm' U L) as (x' & Hx' & E').
    eexists. split; [exact E|]. rewrite E'. f_equal. apply rs_answer; try assumption. intros v k Hv _. do 3 f_equal. unfold hits. f_equal. apply filter_ext_in.
    intros i Hi. apply in_seq in Hi. rewrite (Q (u i) (x i) (x' i)); [reflexivity| | |assumption]; [apply Hx|apply Hx']; auto; lia.
Qed.
Print Assumptions C144_samples.

Theorem C144_weighted_samples : forall r s bn bn' ev o o' u n, wfnet bn -> nonneg_net bn -> nearly_normalised bn -> nodes_topological bn ->
  renamed r s bn bn' -> bn_V bn' = map r (bn_V bn) -> good_evidence bn ev -> unit_draws u -> 0 < n ->
  exists D, lw_sample o bn ev u n = Ok D /\
    lw_sample o' bn' (map (fun p => (r (fst p), s (fst p) (snd p))) ev) u n = Ok (rename_table r s D).
Proof.
  intros r s bn bn' ev o o' u n W NN N Top R V GE U Hn. fold (rename_ev r s ev). assert (Sm := samplable_of bn W NN N).
  assert (Sm' := rs_samplable r s bn bn' W R Sm). assert (Top' := rs_top r s bn bn' R V Top). assert (GE' := rs_good_evidence r s bn bn' R ev GE).
  destruct (lw_ok bn ev o u n Sm Top GE U Hn) as (x & Hx & E). destruct (lw_ok bn' _ o' u n Sm' Top' GE' U Hn) as (x' & Hx' & E').
  cbn zeta in E, E'. assert (Q : forall i v, i < n -> In v (bn_V bn) -> x' i (r v) = x i v).
  { intros i v Hi Hv. destruct (Hx i Hi) as [A Va]. destruct (Hx' i Hi) as [A' _]. symmetry.
    apply (weighted_unique bn ev (u i) (x i) (fun w => x' i (r w)) Sm Top A); [now apply (rs_weighted r s bn bn' W R V)|assumption|assumption]. }
  assert (Lk : forall i, i < n -> likelihood bn' (rename_ev r s ev) (x' i) = likelihood bn ev (x i)).
  { intros i Hi. apply (rs_likelihood r s bn bn' W R V); [assumption|]. intros v Hv. now apply Q. }
  assert (T : qsum (map (fun i => likelihood bn' (rename_ev r s ev) (x' i)) (seq 0 n)) = qsum (map (fun i => likelihood bn ev (x i)) (seq 0 n))).
  { apply qsum_map_ext. intros i Hi. apply in_seq in Hi. apply Lk. lia. }
  eexists. split; [exact E|]. rewrite E'. f_equal. apply rs_answer; try assumption. intros v k Hv _. rewrite T.
  destruct (Qc_eq_dec _ 0); [reflexivity|]. do 3 f_equal. unfold whits. apply qsum_map_ext. intros i Hi. apply in_seq in Hi.
  rewrite Q, Lk by (try assumption; lia). reflexivity.
Qed.
Print Assumptions C144_weighted_samples.

(** ex3 under other names, its nodes listed in the same order *)
Definition ex3o : bayesnet := mkBN [exC; nm "rain"; exA] (bn_E ex3r) (bn_F ex3r).
Lemma ex3o_renamed : renamed ren rens ex3 ex3o.
Proof.
  destruct C144_nonvacuous as (_ & _ & R & _). destruct R as [RV RI RP RX RS RC]. constructor; try assumption. exact (Permutation_refl _).
Qed.
Example C144_samples_nonvacuous : wfnet ex3 /\ nonneg_net ex3 /\ nearly_normalised ex3 /\ nodes_topological ex3 /\
  renamed ren rens ex3 ex3o /\ bn_V ex3o = map ren (bn_V ex3) /\ good_evidence ex3 [(exC, nm "1")] /\ unit_draws exU /\
  (exists l, random_sample id_oracle ex3 (fun _ _ => 0%Z) exU 4 = Ok l /\ random_sample rev_oracle ex3o (fun _ _ => 1%Z) exU 4 = Ok l /\ NoDup l) /\
  (exists D, lw_sample id_oracle ex3 [(exC, nm "1")] exU 4 = Ok D /\ lw_sample rev_oracle ex3o [(exA, nm "0")] exU 4 = Ok (rename_table ren rens D)).
Proof.
  assert (GE : good_evidence ex3 [(exC, nm "1")]).
  { split; [constructor; [intros []|constructor]|]. intros v x [E|[]]. injection E as <- <-. split; simpl; auto. }
  split; [exact ex3_wf|]. split; [exact ex3_nonneg|]. split; [apply normalised_nearly, ex3_norm|]. split; [exact ex3_top|].
  split; [exact ex3o_renamed|]. split; [reflexivity|]. split; [exact GE|]. split; [exact exU_unit|]. split.
  - assert (L := C144_samples ren rens ex3 ex3o id_oracle rev_oracle (fun _ _ => 0%Z) (fun _ _ => 1%Z) exU 4 ex3_wf ex3_nonneg (normalised_nearly _ ex3_norm) ex3_top ex3o_renamed eq_refl exU_unit).
    destruct L as [L _]. eexists. split; [vm_compute; reflexivity|]. split; [vm_compute; reflexivity|].
    repeat constructor; simpl; intros H; repeat (destruct H as [H|H]; [discriminate|]); exact H.
  - apply (C144_weighted_samples ren rens ex3 ex3o [(exC, nm "1")] id_oracle rev_oracle exU 4); auto using ex3_wf, ex3_nonneg, ex3_top, ex3o_renamed, exU_unit, normalised_nearly, ex3_norm with arith.
Qed.
