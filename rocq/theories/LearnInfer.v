(** LearnInfer.v -- networks learned from sampled data have the frame of the sampled network. *)
From Verif Require Import Py Num BayesNet Factor SpecFactor Radix SpecInference VE VETotal SpecSample Sampling SampleFacts SampleMain SampleLaws SumOver Graph Data SpecLearn ParamLearn ParamFacts ParamMain
  SpecLaw LawFacts GraphCheck Mst Rounding Examples Properties_Sample LawMain LawUse SpecLearnLaw Properties_Learn Properties_Law LearnLaw FactorOut Properties_LearnLaw SpecSens Sens Properties_Sens SpecLearnInfer.
From Coq Require Import Sorted.
Open Scope nat_scope.

Lemma name_lt_irr a : ~ name_lt a a. Proof. intros [_ H]. now apply H. Qed.
Lemma frac_nonneg a b : (0 <= a -> 0 < b -> 0 <= a / b)%Qc.
Proof.
  intros A B. assert (NZ : b <> 0%Qc) by (intros Z; rewrite Z in B; discriminate). assert (E : (a / b * b = a)%Qc) by (field; assumption).
  destruct (Qclt_le_dec (a / b) 0) as [L|L]; [exfalso|assumption]. assert (H : (a / b * b < 0 * b)%Qc) by now apply Qcmult_lt_compat_r. rewrite E in H. revert H A. generalize a b. intros. qclra.
Qed.
Lemma pos_shift a b : (0 <= a -> 0 < b -> 0 < a + b)%Qc. Proof. intros. qclra. Qed.
Lemma sorted_same l : forall l', StronglySorted name_lt l -> StronglySorted name_lt l' -> (forall x, In x l <-> In x l') -> l = l'.
Proof.
  induction l as [|x l IH]; intros [|y l'] S S' H; [reflexivity| | |].
  - destruct (proj2 (H y) (or_introl eq_refl)).
  - destruct (proj1 (H x) (or_introl eq_refl)).
  - inversion S as [|? ? S1 F1]; subst. inversion S' as [|? ? S2 F2]; subst. rewrite Forall_forall in F1, F2.
    assert (x = y) as ->.
    { destruct (proj1 (H x) (or_introl eq_refl)) as [|Ix]; [now symmetry|]. destruct (proj2 (H y) (or_introl eq_refl)) as [|Iy]; [assumption|].
      exfalso. exact (name_lt_irr _ (name_lt_trans _ _ _ (F1 y Iy) (F2 x Ix))). }
    f_equal. apply IH; auto. intros z. split; intros Hz.
    + destruct (proj1 (H z) (or_intror Hz)) as [->|]; [exfalso; exact (name_lt_irr _ (F1 z Hz))|assumption].
    + destruct (proj2 (H z) (or_intror Hz)) as [->|]; [exfalso; exact (name_lt_irr _ (F2 z Hz))|assumption].
Qed.
Lemma numbers_sorted c : forall s, StronglySorted name_lt (map NInt (seq s c)).
Proof.
  induction c as [|c IH]; intros s; [constructor|]. cbn [seq map]. constructor; [apply IH|]. apply Forall_forall. intros z Hz. apply in_map_iff in Hz as (k & <- & Hk). apply in_seq in Hk.
  split; [simpl; apply Nat.leb_le; lia|]. intros E. inversion E. lia.
Qed.
Lemma index_number c i : i < c -> index_of (NInt i) (map NInt (seq 0 c)) = Some i.
Proof.
  intros H. assert (I : In (NInt i) (map NInt (seq 0 c))) by (apply in_map, in_seq; lia). destruct (index_of_In _ _ I) as (j & Hj). rewrite Hj. f_equal.
  apply index_of_Some in Hj. rewrite nth_error_map in Hj. destruct (nth_error (seq 0 c) j) as [k|] eqn:E; [|discriminate]. cbn in Hj. inversion Hj; subst.
  assert (L : j < c) by (rewrite <- (seq_length c 0); apply nth_error_Some; congruence).
  apply nth_error_nth with (d := 0) in E. rewrite seq_nth in E by assumption. lia.
Qed.
(** finitely many assignments cover all *)
Fixpoint all_asg (cd : name -> nat) (vs : list name) : list asg :=
  match vs with [] => [fun _ => 0] | v :: r => flat_map (fun a => map (upd a v) (seq 0 (cd v))) (all_asg cd r) end.
Lemma all_asg_cover cd vs a : valid cd vs a -> exists a', In a' (all_asg cd vs) /\ forall w, In w vs -> a' w = a w.
Proof.
  induction vs as [|v r IH]; intros V; [exists (fun _ => 0); split; [now left|intros w []]|].
  destruct IH as (b & Hb & Eb); [intros w Hw; apply V; now right|]. exists (upd b v (a v)). split.
  - cbn [all_asg]. apply in_flat_map. exists b. split; [assumption|]. apply in_map. apply in_seq. specialize (V v (or_introl eq_refl)). lia.
  - intros w Hw. destruct (name_eq_dec w v) as [->|N]; [now rewrite upd_same|]. rewrite upd_other by assumption. apply Eb. destruct Hw; [congruence|assumption].
Qed.
Lemma all_asg_valid cd vs : forall a, In a (all_asg cd vs) -> valid cd vs a.
Proof.
  induction vs as [|v r IH]; intros a Ha; [intros w []|]. cbn [all_asg] in Ha. apply in_flat_map in Ha as (b & Hb & Ha). apply in_map_iff in Ha as (x & <- & Hx). apply in_seq in Hx.
  intros w Hw. destruct (name_eq_dec w v) as [->|N]; [rewrite upd_same; lia|]. rewrite upd_other by assumption. apply (IH b Hb). destruct Hw; [congruence|assumption].
Qed.

Lemma mle_nonneg t bn : wfnet bn -> mle_fit t bn -> nonneg_net bn.
Proof.
  intros W [_ F] v x Hv Hx. destruct (In_nth_error _ _ Hx) as (i & Hi).
  assert (L : i < size (ncard bn) (v :: nparents bn v)). { unfold size. rewrite <- (wn_cpt _ W v Hv). apply nth_error_Some. congruence. }
  destruct (digits_ok (ncard bn) (v :: nparents bn v) i (wn_scope _ W v Hv) L) as [V E].
  specialize (F v _ Hv V). unfold cond_prob in F. rewrite E, Hi in F. inversion F. apply py_round_nonneg. apply frac_nonneg; [apply nQc_nonneg|].
  pose proof (nQc_nonneg (rows_with t (config (nvalues bn) (nparents bn v) (digits (ncard bn) (v :: nparents bn v) i)))) as N.
  assert (E7 : (0 < Q2Qc (1 # 10000000))%Qc) by reflexivity. revert N E7. apply pos_shift.
Qed.

(** what a successful run gives *)
(** a network learned from sampled rows whose tables are close to those of the sampled network has its frame *)
Lemma good_frame src n m e (s : nat -> asg) bn' : wfnet src -> bn_V src = map NInt (seq 0 m) -> (forall i, i < n -> valid (ncard src) (bn_V src) (s i)) ->
  bn_V bn' = bn_V src -> (forall v, In v (bn_V src) -> nparents bn' v = nparents src v) ->
  (forall v, In v (bn_V src) -> levels (as_data m (map (fun i => map (fun v => Z.of_nat (s i v)) (bn_V src)) (seq 0 n))) v (nvalues bn' v)) ->
  (forall v x, In v (bn_V src) -> In x (ncpt src v) -> (e <= x)%Qc) ->
  (forall v a, In v (bn_V src) -> valid (ncard src) (v :: nparents src v) a -> off_by e (learned_prob bn' v (fun w => NInt (a w))) (getq (cond_prob src v a)) = false) ->
  same_frame src bn' /\ cells_within src bn' e /\ forall v, In v (bn_V src) -> nvalues bn' v = map NInt (seq 0 (ncard src v)).
Proof.
  intros W EV Vs V' Par Lv Big Near.
  set (T := as_data m (map (fun i => map (fun v => Z.of_nat (s i v)) (bn_V src)) (seq 0 n))) in *.
  assert (Tr : t_rows T = map (fun i => map (fun v => NInt (s i v)) (bn_V src)) (seq 0 n)) by (apply (as_data_rows src n s m EV)).
  assert (Pos : forall v a, In v (bn_V src) -> valid (ncard src) (v :: nparents src v) a -> (e <= getq (cond_prob src v a))%Qc).
  { intros v a Hv Va. unfold cond_prob. assert (L := radix_lt _ _ _ Va). unfold size in L. rewrite <- (wn_cpt _ W v Hv) in L.
    destruct (nth_error (ncpt src v) (radix (ncard src) (v :: nparents src v) a)) as [x|] eqn:Ex; [|apply nth_error_None in Ex; lia]. cbn [getq]. apply (Big v x Hv). now apply nth_error_In in Ex. }
  (* every label is learned *)
  assert (Lab : forall v a, In v (bn_V src) -> valid (ncard src) (v :: nparents src v) a -> forallb (fun w => mem (NInt (a w)) (nvalues bn' w)) (v :: nparents bn' v) = true).
  { intros v a Hv Va. specialize (Near v a Hv Va). apply off_false in Near. unfold learned_prob in Near. destruct (forallb _ _); [reflexivity|exfalso].
    specialize (Pos v a Hv Va). destruct Near as [_ Q]. generalize dependent (getq (cond_prob src v a)). intros; qclra. }
  assert (Vals : forall v, In v (bn_V src) -> nvalues bn' v = map NInt (seq 0 (ncard src v))).
  { intros v Hv. destruct (Lv v Hv) as [So L]. apply sorted_same; [assumption|apply numbers_sorted|]. intros x. split; intros Hx.
    - apply L in Hx as (r & Hr & He). rewrite Tr in Hr. apply in_map_iff in Hr as (i & <- & Hi). apply in_seq in Hi.
      assert (Hv' := Hv). rewrite EV in Hv'. apply in_map_iff in Hv' as (j & <- & Hj). unfold entry in He. rewrite nth_error_map in He.
      destruct (nth_error (bn_V src) j) as [w|] eqn:Ew; [|discriminate]. cbn in He. inversion He. apply in_map, in_seq.
      assert (w = NInt j) as ->. { rewrite EV, nth_error_map in Ew. destruct (nth_error (seq 0 m) j) as [k|] eqn:Ek; [|discriminate]. cbn in Ew. inversion Ew. apply in_seq in Hj. apply nth_error_nth with (d := 0) in Ek. rewrite seq_nth in Ek by lia. f_equal. lia. }
      assert (Vi := Vs i ltac:(lia) (NInt j) Hv). lia.
    - apply in_map_iff in Hx as (k & <- & Hk). apply in_seq in Hk.
      assert (Va : valid (ncard src) (v :: nparents src v) (upd (fun _ => 0) v k)).
      { intros w Hw. destruct (name_eq_dec w v) as [->|Nw]; [rewrite upd_same; lia|]. rewrite upd_other by assumption. apply (valid_zero src W). destruct Hw as [<-|Hw]; [assumption|exact (wn_par _ W v Hv w Hw)]. }
      specialize (Lab v _ Hv Va). cbn [forallb] in Lab. apply andb_true_iff in Lab as [M _]. rewrite upd_same in M. now apply mem_In in M. }
  assert (Crd : forall v, In v (bn_V src) -> ncard src v = ncard bn' v).
  { intros v Hv. rewrite (nvalues_card bn' v), (Vals v Hv), map_length, seq_length. reflexivity. }
  split; [split; [now symmetry|]; intros v Hv; split; [symmetry; now apply Par|now apply Crd]|].
  split; [|assumption].
  intros v a Hv Va. assert (Vf : valid (ncard src) (v :: nparents src v) a).
  { intros w Hw. apply Va. destruct Hw as [<-|Hw]; [assumption|exact (wn_par _ W v Hv w Hw)]. }
  specialize (Near v a Hv Vf). apply off_false in Near. unfold learned_prob in Near. rewrite (Lab v a Hv Vf) in Near.
  assert (EQ : cond_prob bn' v (fun w => match index_of (NInt (a w)) (nvalues bn' w) with Some i => i | None => 0 end) = cond_prob bn' v a).
  { apply cond_prob_ext. intros w Hw. rewrite Par in Hw by assumption. assert (Iw : In w (bn_V src)) by (destruct Hw as [<-|Hw]; [assumption|exact (wn_par _ W v Hv w Hw)]).
    rewrite (Vals w Iw), index_number by (now apply Va). reflexivity. }
  rewrite EQ in Near. unfold gap. apply qabs_le. destruct Near as [A B]. generalize dependent (getq (cond_prob bn' v a)). generalize dependent (getq (cond_prob src v a)). intros. split; qclra.
Qed.

Lemma good_run src sk o o' jk u n m e : wfnet src -> nonneg_net src -> normalised src -> nodes_topological src -> unit_draws u ->
  bn_V src = map NInt (seq 0 m) -> good o' -> skeleton sk -> has_edge_lists sk -> parents_in_node_order sk -> bn_V sk = bn_V src ->
  (forall v, In v (bn_V src) -> nparents sk v = nparents src v) -> 0 < n ->
  (forall v x, In v (bn_V src) -> In x (ncpt src v) -> (e <= x)%Qc) ->
  (forall v a, In v (bn_V src) -> valid (ncard src) (v :: nparents src v) a ->
     learned_off (do rows <- random_sample o src jk u n ;; mle_estimator o' sk (as_data m rows) None) v (fun w => NInt (a w)) e (getq (cond_prob src v a)) = false) ->
  exists rows bn', random_sample o src jk u n = Ok rows /\ mle_estimator o' sk (as_data m rows) None = Ok bn' /\
    wfnet bn' /\ same_frame src bn' /\ nonneg_net bn' /\ cells_within src bn' e /\ forall v, In v (bn_V src) -> nvalues bn' v = map NInt (seq 0 (ncard src v)).
Proof.
  intros W NN N Top U EV G Sk HE PO EVs EP Hn Big Near.
  destruct (random_ok src o jk u n (sm src W NN N) Top U) as (s & Hs & Er). rewrite Er in *. cbn [bind] in Near.
  assert (Lm : length (bn_V src) = m) by (rewrite EV, map_length, seq_length; reflexivity).
  set (T := as_data m (map (fun i => map (fun v => Z.of_nat (s i v)) (bn_V src)) (seq 0 n))) in *.
  assert (Tr : t_rows T = map (fun i => map (fun v => NInt (s i v)) (bn_V src)) (seq 0 n)) by (apply (as_data_rows src n s m EV)).
  destruct (C41_mle_probabilities o' sk T m G Sk HE PO) as (bn' & Em & W' & V' & E' & P' & Fit).
  { intros r Hr. rewrite Tr in Hr. apply in_map_iff in Hr as (i & <- & _). rewrite map_length. exact Lm. }
  { rewrite Tr. destruct n; [lia|discriminate]. }
  { now rewrite EVs. }
  { apply le_n. }
  rewrite EVs in V', P'. eexists. exists bn'. split; [reflexivity|]. split; [exact Em|]. split; [assumption|].
  rewrite Em in Near. cbn [learned_off] in Near.
  assert (Par : forall v, In v (bn_V src) -> nparents bn' v = nparents src v) by (intros v Hv; now rewrite P', EP by assumption).
  destruct (good_frame src n m e s bn') as (SF & CW & Vals); auto.
  { intros i Hi. now apply (ancestral_valid src (u i) (s i) (Hs i Hi)). }
  { intros v Hv. destruct Fit as [Lv _]. apply Lv. now rewrite V'. }
  split; [exact SF|]. split; [now apply (mle_nonneg T)|]. split; [exact CW|exact Vals].
Qed.

Lemma by_number_recoded src bn' ev : good_evidence src ev -> (forall v, In v (bn_V src) -> nvalues bn' v = map NInt (seq 0 (ncard src v))) -> recoded src bn' ev (by_number src ev).
Proof.
  intros [_ G] V. unfold recoded, by_number. induction ev as [|[E x] ev IH]; [constructor|]. cbn [map fst snd]. constructor.
  - cbn [fst snd]. split; [reflexivity|]. destruct (G E x (or_introl eq_refl)) as [HE Hx]. destruct (index_of_In _ _ Hx) as (i & Hi). unfold val_index. rewrite Hi.
    symmetry. rewrite (V E HE). apply index_number. rewrite nvalues_card. now apply index_of_lt in Hi.
  - apply IH. intros r y Hr. apply G. now right.
Qed.
