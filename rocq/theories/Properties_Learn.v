(** Properties_Learn.v -- theorems C40 to C43 and C68 to C71: parameter learning.
    Specification: SpecFactor.v (cond_prob, radix), SpecLearn.v, Rounding.v. *)
From Verif Require Import Py Num BayesNet SpecFactor Radix SpecInference Rounding Graph SpecGraph GraphNet Data SpecLearn ParamLearn
  ParamFacts ParamMain NaiveFacts Examples.
Open Scope nat_scope.

Lemma cond_prob_nth bn v a : wfnet bn -> In v (bn_V bn) -> valid (ncard bn) (v :: nparents bn v) a ->
  cond_prob bn v a = Some (nth (radix (ncard bn) (v :: nparents bn v) a) (ncpt bn v) 0%Qc).
Proof.
  intros W Hv V. unfold cond_prob. apply nth_error_nth'. rewrite (wn_cpt _ W v Hv). now apply radix_lt.
Qed.

(** ** C40 *)
Theorem C40_counts_are_frequencies : forall o bn t n, good o -> skeleton bn -> table_ok t -> t_rows t <> [] ->
  bn_V bn = map NInt (seq 0 n) -> n <= t_ncols t ->
  exists F bn' vals, mle_counts o bn t None = Ok (F, bn') /\ dkeys F = bn_V bn /\
    forall v, In v (bn_V bn) -> levels t v (vals v) /\
      exists c, dget F v = Some (vals v, c) /\
        length c = nprod (map (fun u => length (vals u)) (v :: nparents bn v)) /\
        (forall a, valid (fun u => length (vals u)) (v :: nparents bn v) a ->
           nth_error c (radix (fun u => length (vals u)) (v :: nparents bn v) a) =
           Some (nQc (rows_with t (config vals (v :: nparents bn v) a)))) /\
        qsum c = nQc (length (t_rows t)).
Proof.
  intros o bn t n G S T NR EV L. destruct (in_order_cols t bn n T EV L) as [Lc Hc].
  destruct (mle_counts_ok o bn t G S T NR Lc Hc) as (bn2 & E & LL & Z).
  destruct (in_order_own t bn bn2 n T EV L LL) as (O & _ & _).
  eexists _, bn2, (nvalues bn2). split; [exact E|]. split; [apply dkeys_map_pair|]. intros v Hv.
  assert (W : wfnet bn2) by apply LL. assert (V2 : bn_V bn2 = bn_V bn) by apply LL. assert (Hv2 : In v (bn_V bn2)) by now rewrite V2.
  assert (P : nparents bn2 v = nparents bn v) by (destruct LL as (_ & _ & _ & K); now apply K).
  split; [now apply O|]. eexists. split; [rewrite dget_map_pair; apply mem_In in Hv; rewrite Hv; reflexivity|].
  assert (Ec : forall vs, map (fun u => length (nvalues bn2 u)) vs = map (ncard bn2) vs) by (intros vs; apply map_ext; intros u; now rewrite nvalues_card).
  assert (Er : forall vs a, radix (fun u => length (nvalues bn2 u)) vs a = radix (ncard bn2) vs a).
  { induction vs as [|u vs IH]; intros a; simpl; [reflexivity|]. now rewrite IH, nvalues_card. }
  split; [|split].
  - rewrite counted_length, repeat_length, Ec, <- P. reflexivity.
  - intros a V. assert (V' : valid (ncard bn2) (v :: nparents bn2 v) a) by (rewrite P; intros u Hu; rewrite nvalues_card; now apply V).
    rewrite Er, <- P. rewrite (nth_error_nth' _ 0%Qc) by (rewrite counted_length, repeat_length; now apply radix_lt).
    f_equal. rewrite (counted_cell t) by assumption. ring.
  - rewrite qsum_counted, qsum_repeat; [ring|]. intros r Hr. rewrite repeat_length. unfold nsize. apply radix_lt. intros u Hu.
    apply used_index_lt; [assumption|]. destruct Hu as [<-|Hu]; [assumption|now apply (wn_par _ W v Hv2)].
Qed.
Print Assumptions C40_counts_are_frequencies.

(** ** C41 *)
(** the network's parent lists are what its edges say, in node order (as set_structure makes them) *)
Definition parents_in_node_order (bn : bayesnet) : Prop :=
  forall v, In v (bn_V bn) -> nparents bn v = filter (fun u => edge_in (bn_E bn) u v) (bn_V bn).
Definition has_edge_lists (bn : bayesnet) : Prop := forall v, In v (bn_V bn) -> exists c, dget (bn_E bn) v = Some c.

Lemma mle_result o bn t : good o -> skeleton bn -> table_ok t -> t_rows t <> [] ->
  length (bn_V bn) <= t_ncols t -> (forall v, In v (bn_V bn) -> in_cols t v) -> has_edge_lists bn -> parents_in_node_order bn ->
  exists bn', mle_estimator o bn t None = Ok bn' /\ learned t bn bn' /\ dkeys (bn_F bn') = bn_V bn /\
    forall v, In v (bn_V bn) ->
      let c := counted (row_cell bn' v) (t_rows t) (repeat 0%Qc (nsize bn' v)) in
      forall k, k < nsize bn' v -> nth k (ncpt bn' v) 0%Qc = py_round 5 (nth k c 0 / (group_total (ncard bn' v) c k + eps7))%Qc.
Proof.
  intros G S T NR Lc Hc HE PO.
  destruct (mle_estimator_ok o bn t G S T NR Lc Hc HE) as (bn2 & bn' & E & LL & V' & E' & K' & H).
  assert (W : wfnet bn2) by apply LL. assert (V2 : bn_V bn2 = bn_V bn) by apply LL.
  assert (Q : forall v, In v (bn_V bn) -> nparents bn' v = nparents bn2 v /\ nvalues bn' v = nvalues bn2 v /\ ncard bn' v = ncard bn2 v /\
     exists d, dget (bn_F bn') v = Some d).
  { intros v Hv. destruct (H v Hv) as (c' & D & _). destruct LL as (_ & _ & _ & K). destruct (K v Hv) as [K1 _].
    rewrite K1, (PO v Hv). unfold nparents, nvalues, ncard. rewrite D. simpl. split; [reflexivity|]. split; [reflexivity|].
    split; [|eauto]. now rewrite <- nvalues_card. }
  assert (S2 : shape bn2 bn').
  { split; [congruence|]. split; [destruct LL as (_ & _ & X & _); congruence|]. rewrite V2. exact Q. }
  assert (Ln : forall v, In v (bn_V bn) -> length (ncpt bn' v) = nsize bn2 v).
  { intros v Hv. destruct (H v Hv) as (c' & D & L & _). unfold ncpt. now rewrite D. }
  exists bn'. split; [exact E|].
  assert (LL' : learned t bn bn').
  { split; [|split; [exact V'|split; [exact E'|]]].
    - apply (shape_wf bn2); [assumption|assumption|]. rewrite V2. intros v Hv. rewrite Ln by assumption.
      rewrite (wn_cpt _ W v) by now rewrite V2. reflexivity.
    - intros v Hv. destruct (Q v Hv) as (-> & -> & _). destruct LL as (_ & _ & _ & K). now apply K. }
  split; [exact LL'|]. split; [exact K'|]. intros v Hv. cbn zeta.
  assert (NS : nsize bn' v = nsize bn2 v).
  { unfold nsize, size. destruct (Q v Hv) as (-> & _). f_equal. apply map_ext_in. intros u Hu. apply Q.
    destruct Hu as [<-|Hu]; [assumption|]. rewrite <- V2. apply (wn_par _ W v); [now rewrite V2|assumption]. }
  destruct (Q v Hv) as (_ & _ & -> & _). rewrite NS. intros k Hk.
  destruct (H v Hv) as (c' & D & _ & Hk'). unfold ncpt at 1. rewrite D. simpl f_cptl. rewrite (Hk' k Hk).
  assert (X : forall rs c, counted (row_cell bn' v) rs c = counted (row_cell bn2 v) rs c).
  { unfold counted. induction rs as [|r rs IH]; intros c; simpl; [reflexivity|]. rewrite IH.
    rewrite (shape_row_cell bn2 bn'); [reflexivity|assumption|assumption|now rewrite V2]. }
  now rewrite X.
Qed.

Theorem C41_mle_probabilities : forall o bn t n, good o -> skeleton bn -> has_edge_lists bn -> parents_in_node_order bn ->
  table_ok t -> t_rows t <> [] -> bn_V bn = map NInt (seq 0 n) -> n <= t_ncols t ->
  exists bn', mle_estimator o bn t None = Ok bn' /\ wfnet bn' /\ bn_V bn' = bn_V bn /\ bn_E bn' = bn_E bn /\
    (forall v, In v (bn_V bn) -> nparents bn' v = nparents bn v) /\ mle_fit t bn'.
Proof.
  intros o bn t n G S HE PO T NR EV L. destruct (in_order_cols t bn n T EV L) as [Lc Hc].
  destruct (mle_result o bn t G S T NR Lc Hc HE PO) as (bn' & E & LL & _ & H).
  destruct (in_order_own t bn bn' n T EV L LL) as (O & _ & _).
  exists bn'. split; [exact E|]. destruct LL as (W & V' & E' & K). split; [exact W|]. split; [exact V'|]. split; [exact E'|].
  split; [intros v Hv; now apply K|]. split; [intros v Hv; now apply O|]. intros v a Hv Va. rewrite cond_prob_nth by assumption.
  f_equal. rewrite H; [|now rewrite <- V'|now apply radix_lt]. f_equal.
  rewrite (counted_cell t), (counted_group t) by assumption. unfold eps7. f_equal; [ring|]. f_equal. ring.
Qed.
Print Assumptions C41_mle_probabilities.

(** consequences of [mle_fit]: unseen parent configurations, and closeness to the true frequency *)
Lemma rows_with_mono t q q' : incl q q' -> rows_with t q' <= rows_with t q.
Proof.
  intros I. unfold rows_with. induction (t_rows t) as [|r rs IH]; simpl; [lia|].
  destruct (forallb (entryb r) q') eqn:E'.
  - assert (E : forallb (entryb r) q = true) by (rewrite forallb_forall in *; auto). rewrite E. simpl. lia.
  - destruct (forallb (entryb r) q); simpl; lia.
Qed.
Theorem C41_unseen_parents_get_zero : forall t bn v a, mle_fit t bn -> In v (bn_V bn) -> valid (ncard bn) (v :: nparents bn v) a ->
  rows_with t (config (nvalues bn) (nparents bn v) a) = 0 ->
  forall x, x < ncard bn v -> ~ In v (nparents bn v) -> cond_prob bn v (upd a v x) = Some 0%Qc.
Proof.
  intros t bn v a [_ F] Hv V Z x Hx Nv. rewrite F; [|assumption|now apply valid_upd'].
  assert (C : config (nvalues bn) (nparents bn v) (upd a v x) = config (nvalues bn) (nparents bn v) a).
  { apply map_ext_in. intros u Hu. rewrite upd_other; [reflexivity|]. intros ->. contradiction. }
  rewrite C, Z. pose proof (rows_with_mono t (config (nvalues bn) (nparents bn v) (upd a v x)) (config (nvalues bn) (v :: nparents bn v) (upd a v x))) as M.
  assert (M' : rows_with t (config (nvalues bn) (v :: nparents bn v) (upd a v x)) <= 0).
  { rewrite <- Z, <- C. apply M. intros z Hz. now right. }
  replace (rows_with t (config (nvalues bn) (v :: nparents bn v) (upd a v x))) with 0 by lia.
  rewrite nQc_0. replace (0 / (0 + Q2Qc (1 # 10000000)))%Qc with 0%Qc by (apply Qc_eq_Q; reflexivity). f_equal. apply py_round_0.
Qed.
Print Assumptions C41_unseen_parents_get_zero.
Theorem C41_close_to_frequency : forall t bn v a, mle_fit t bn -> In v (bn_V bn) -> valid (ncard bn) (v :: nparents bn v) a ->
  0 < rows_with t (config (nvalues bn) (nparents bn v) a) ->
  let true_freq := (nQc (rows_with t (config (nvalues bn) (v :: nparents bn v) a)) / nQc (rows_with t (config (nvalues bn) (nparents bn v) a)))%Qc in
  exists p, cond_prob bn v a = Some p /\ (true_freq - Q2Qc (51 # 10000000) <= p /\ p <= true_freq + Q2Qc (51 # 10000000))%Qc.
Proof.
  intros t bn v a [_ F] Hv V Z. cbn zeta. rewrite F by assumption. eexists. split; [reflexivity|].
  assert (M : rows_with t (config (nvalues bn) (v :: nparents bn v) a) <= rows_with t (config (nvalues bn) (nparents bn v) a)).
  { apply rows_with_mono. intros z Hz. now right. }
  set (N := rows_with t (config (nvalues bn) (v :: nparents bn v) a)) in *. set (D := rows_with t (config (nvalues bn) (nparents bn v) a)) in *.
  pose proof (py_round_near 5 (nQc N / (nQc D + Q2Qc (1 # 10000000)))%Qc) as [A B].
  set (r := py_round 5 _) in *. set (y := (nQc N / (nQc D + _))%Qc) in *.
  assert (D1 : (1 <= nQc D)%Qc) by (rewrite <- nQc_1; apply nQc_le; lia).
  assert (N0 := nQc_nonneg N). assert (ND := nQc_le _ _ M).
  assert (one : this 1%Qc = 1%Q) by reflexivity.
  assert (Ee : (this (Q2Qc (1 # 10000000)) == 1 # 10000000)%Q) by reflexivity.
  assert (Ey : (y * (nQc D + Q2Qc (1 # 10000000)) = nQc N)%Qc).
  { unfold y. field. intros E. assert (0 < nQc D + Q2Qc (1 # 10000000))%Qc as P by qclra. rewrite E in P. discriminate. }
  assert (Ez : (nQc N / nQc D * nQc D = nQc N)%Qc).
  { field. intros E. rewrite E in D1. now apply D1. }
  set (z := (nQc N / nQc D)%Qc) in *.
  assert (Eh : (half / pow10 5 = Q2Qc (5 # 1000000))%Qc) by (apply Qc_eq_Q; vm_compute; reflexivity). rewrite Eh in A, B.
  clearbody r. clearbody y. clearbody z. revert Ey Ez N0 ND D1. generalize (nQc N) (nQc D). intros n d Ey Ez N0 ND D1.
  assert (Z0 : (0 <= z)%Qc). { destruct (Qclt_le_dec z 0) as [C|C]; [|assumption]. exfalso. assert (z * d < 0)%Qc by qcnra. rewrite Ez in *. qclra. }
  assert (Z1 : (z <= 1)%Qc). { destruct (Qclt_le_dec 1 z) as [C|C]; [|assumption]. exfalso. assert (d < z * d)%Qc by qcnra. rewrite Ez in *. qclra. }
  assert (Y0 : (0 <= y)%Qc).
  { destruct (Qclt_le_dec y 0) as [C|C]; [|assumption]. exfalso. assert (y * (d + Q2Qc (1 # 10000000)) < 0)%Qc by qcnra. rewrite Ey in *. qclra. }
  assert (YZ : (y <= z)%Qc).
  { destruct (Qclt_le_dec z y) as [C|C]; [|assumption]. exfalso.
    assert (X1 : (z * d < y * d)%Qc) by (clear - C D1 one; qcnra).
    assert (X2 : (y * d + y * Q2Qc (1 # 10000000) = z * d)%Qc) by (rewrite Ez, <- Ey; ring).
    assert (X3 : (0 <= y * Q2Qc (1 # 10000000))%Qc) by (apply Qcmult_nonneg; [assumption|discriminate]).
    rewrite <- X2 in X1. clear - X1 X3. qclra. }
  assert (ZY : (z - Q2Qc (1 # 10000000) <= y)%Qc).
  { destruct (Qclt_le_dec y (z - Q2Qc (1 # 10000000))) as [C|C]; [|assumption]. exfalso.
    assert (X2 : ((z - y) * d = y * Q2Qc (1 # 10000000))%Qc).
    { transitivity (z * d - y * (d + Q2Qc (1 # 10000000)) + y * Q2Qc (1 # 10000000))%Qc; [ring|]. rewrite Ez, Ey. ring. }
    assert (X3 : (Q2Qc (1 # 10000000) < z - y)%Qc) by (clear - C; qclra).
    assert (X4 : (Q2Qc (1 # 10000000) * d < (z - y) * d)%Qc) by (clear - X3 D1 one; qcnra).
    rewrite X2 in X4. assert (X5 : (y * Q2Qc (1 # 10000000) <= Q2Qc (1 # 10000000) * d)%Qc).
    { assert (y <= d)%Qc by (clear - YZ Z1 D1 one; qclra). clear - H Ee. qcnra. }
    clear - X4 X5. qclra. }
  split; clear - A B YZ ZY; qclra.
Qed.
Print Assumptions C41_close_to_frequency.

(** ** C42: values come from the column at the node's position in nodes() *)
Theorem C42_values_by_position : forall o bn t bn', good o -> skeleton bn -> has_edge_lists bn -> table_ok t -> t_rows t <> [] ->
  length (bn_V bn) <= t_ncols t -> (forall i, In (NInt i) (bn_V bn) -> i < t_ncols t) -> (forall s, ~ In (NStr s) (bn_V bn)) ->
  mle_estimator o bn t None = Ok bn' ->
  forall j v, nth_error (bn_nodes bn) j = Some v -> exists vs, bn_values bn' v = Ok vs /\ levels t (NInt j) vs.
Proof.
  intros o bn t bn' G S HE T NR L Hi Hs E j v Hj.
  assert (Hc : forall v, In v (bn_V bn) -> in_cols t v).
  { intros [i|s] Hv; [now apply Hi|]. now apply Hs in Hv. }
  destruct (mle_estimator_ok o bn t G S T NR L Hc HE) as (bn2 & bn'' & E' & LL & V' & _ & _ & H).
  rewrite E in E'. inversion E'; subst bn''. assert (Hv := nth_error_In _ _ Hj). destruct (H v Hv) as (c' & D & _).
  unfold bn_values. rewrite (getitem_Some _ _ _ D). cbn [bind f_values]. eexists. split; [reflexivity|].
  destruct LL as (_ & _ & _ & K). destruct (K v Hv) as [_ ->]. unfold pos_levels.
  rewrite (index_of_nth _ _ _ (sk_V _ S) Hj). apply colu_levels; [assumption|].
  assert (j < length (bn_V bn)) by (apply nth_error_Some; unfold bn_nodes in Hj; congruence). lia.
Qed.
Print Assumptions C42_values_by_position.
(** two columns: 0/1 labels and 5/6/7 labels *)
Definition exT : table := mkT 2 [[NInt 0; NInt 5]; [NInt 1; NInt 6]; [NInt 1; NInt 7]; [NInt 0; NInt 5]].
Theorem C42_refuted : exists bn', naive_bayes id_oracle exT 1 false = Ok bn' /\ table_ok exT /\
  bn_values bn' (NInt 0) = Ok [NInt 5; NInt 6; NInt 7] /\ bn_values bn' (NInt 1) = Ok [NInt 0; NInt 1].
Proof.
  destruct (naive_bayes id_oracle exT 1 false) as [bn'|] eqn:E; [|exfalso; revert E; vm_compute; discriminate].
  exists bn'. split; [reflexivity|]. split.
  - intros r [<-|[<-|[<-|[<-|[]]]]]; reflexivity.
  - revert E. vm_compute. intros E. inversion E; subst. split; reflexivity.
Qed.
Print Assumptions C42_refuted.
(** for a network whose nodes() is 0..n-1 the values are those of each node's own column *)
Theorem C42_in_order : forall o bn t n bn', good o -> skeleton bn -> has_edge_lists bn -> table_ok t -> t_rows t <> [] ->
  bn_V bn = map NInt (seq 0 n) -> n <= t_ncols t -> mle_estimator o bn t None = Ok bn' ->
  forall v, In v (bn_nodes bn) -> exists vs, bn_values bn' v = Ok vs /\ levels t v vs.
Proof.
  intros o bn t n bn' G S HE T NR EV L E v Hv. unfold bn_nodes in Hv. rewrite EV in Hv. apply in_map_iff in Hv as (j & <- & Hj). apply in_seq in Hj.
  apply (C42_values_by_position o bn t bn' G S HE T NR); try assumption.
  - rewrite EV, map_length, seq_length. assumption.
  - intros i Hi. rewrite EV in Hi. apply in_map_iff in Hi as (k & Q & Hk). apply in_seq in Hk. inversion Q; subst. lia.
  - intros s Hs. rewrite EV in Hs. apply in_map_iff in Hs as (k & Q & _). discriminate.
  - unfold bn_nodes. rewrite EV. rewrite nth_error_map, (nth_error_nth' _ 0) by (rewrite seq_length; lia). rewrite seq_nth by lia. reflexivity.
Qed.
Print Assumptions C42_in_order.

(** ** C43 *)
Lemma qsum_const_seq : forall m k (y : Qc), qsum (map (fun _ => y) (seq k m)) = (nQc m * y)%Qc.
Proof. induction m as [|m IH]; intros k y; simpl; [rewrite nQc_0; ring|]. rewrite IH, nQc_S. ring. Qed.
Lemma bayes_fits t e bn bn' : table_ok t -> learned t bn bn' -> own_values t bn' ->
  (forall v, In v (bn_V bn) -> 
      let c := counted (row_cell bn' v) (t_rows t) (repeat (e / nQc (nsize bn' v))%Qc (nsize bn' v)) in
      forall k, k < nsize bn' v -> nth k (ncpt bn' v) 0%Qc = py_round 5 (nth k c 0 / group_total (ncard bn' v) c k)%Qc) ->
  bayes_fit t e bn'.
Proof.
  intros T LL O H. destruct LL as (W & V' & E' & K). split; [intros v Hv; now apply O|]. intros v a Hv Va.
  rewrite cond_prob_nth by assumption. f_equal. rewrite H; [|now rewrite <- V'|now apply radix_lt]. f_equal.
  rewrite (counted_cell t), (counted_group t) by assumption. reflexivity.
Qed.
Theorem C43_bayes_estimator : forall o bn t n ess, good o -> skeleton bn -> table_ok t -> t_rows t <> [] ->
  bn_V bn = map NInt (seq 0 n) -> n <= t_ncols t ->
  let e := match ess with Some e => e | None => nQc (length (t_rows t)) end in (0 < e)%Qc ->
  exists bn', bayes_estimator o bn t ess None = Ok bn' /\ wfnet bn' /\ bn_V bn' = bn_V bn /\ bn_E bn' = bn_E bn /\
    (forall v, In v (bn_V bn) -> nparents bn' v = nparents bn v) /\ bayes_fit t e bn'.
Proof.
  intros o bn t n ess G S T NR EV L e He. destruct (in_order_cols t bn n T EV L) as [Lc Hc].
  destruct (bayes_estimator_ok o bn t ess G S T NR Lc Hc He) as (bn' & E & LL & H). cbn zeta in H. fold e in H.
  destruct (in_order_own t bn bn' n T EV L LL) as (O & _ & _). exists bn'. split; [exact E|].
  assert (F := bayes_fits t e bn bn' T LL O H). destruct LL as (W & V' & E' & K). split; [exact W|]. split; [exact V'|]. split; [exact E'|].
  split; [|exact F]. intros v Hv. now apply K.
Qed.
Print Assumptions C43_bayes_estimator.
(** the unrounded entries are strictly positive and every parent configuration's sum to 1 *)
Theorem C43_positive_normalised : forall t e bn v a, table_ok t -> wfnet bn -> (forall i, In (NInt i) (bn_V bn) -> i < t_ncols t) ->
  (0 < e)%Qc -> bayes_fit t e bn -> In v (bn_V bn) -> valid (ncard bn) (v :: nparents bn v) a ->
  (0 < smoothed t e bn v a)%Qc /\ qsum (map (fun x => smoothed t e bn v (upd a v x)) (seq 0 (ncard bn v))) = 1%Qc.
Proof.
  intros t e bn' v a T W Hi He [Lv _] Hv' Va.
  assert (O : own_values t bn').
  { intros u Hu. split; [|now apply Lv]. destruct u as [i|s]; [now apply Hi|]. exfalso.
    assert (C := card_pos bn' _ W Hu). rewrite nvalues_card in C. destruct (nvalues bn' (NStr s)) as [|x l] eqn:Q; [simpl in C; lia|].
    destruct (Lv _ Hu) as [_ Lx]. rewrite Q in Lx. destruct (proj1 (Lx x)) as (r & _ & []). now left. }
  assert (Pe : (0 < e / nQc (nsize bn' v))%Qc).
  { apply Qcdiv_pos; [assumption|]. apply nQc_pos. apply size_pos. intros u Hu. apply card_pos; [assumption|].
    destruct Hu as [<-|Hu]; [assumption|now apply (wn_par _ W v)]. }
  assert (Pc : (0 < nQc (ncard bn' v))%Qc) by (apply nQc_pos; now apply card_pos).
  assert (Pd : forall b, (0 < nQc (ncard bn' v) * (e / nQc (nsize bn' v)) + nQc (rows_with t (config (nvalues bn') (nparents bn' v) b)))%Qc).
  { intros b. pose proof (nQc_nonneg (rows_with t (config (nvalues bn') (nparents bn' v) b))). qcnra. }
  unfold smoothed. cbn zeta. fold (size (ncard bn') (v :: nparents bn' v)). fold (nsize bn' v). split.
  - apply Qcdiv_pos; [|apply Pd]. pose proof (nQc_nonneg (rows_with t (config (nvalues bn') (v :: nparents bn' v) a))). qclra.
  - assert (ND := wn_scope _ W v Hv'). inversion ND as [|? ? Nv NDp].
    assert (C : forall y, config (nvalues bn') (nparents bn' v) (upd a v y) = config (nvalues bn') (nparents bn' v) a).
    { intros y. apply map_ext_in. intros u Hu. rewrite upd_other; [reflexivity|]. intros ->. contradiction. }
    set (d := (nQc (ncard bn' v) * (e / nQc (nsize bn' v)) + nQc (rows_with t (config (nvalues bn') (nparents bn' v) a)))%Qc) in *.
    assert (NZ : d <> 0%Qc) by (specialize (Pd a); fold d in Pd; intros Z; rewrite Z in Pd; discriminate).
    rewrite (qsum_map_ext _ (fun x => (e / nQc (nsize bn' v) + nQc (rows_with t (config (nvalues bn') (v :: nparents bn' v) (upd a v x)))) * / d)%Qc).
    2:{ intros y _. rewrite C. reflexivity. }
    rewrite qsum_map_mult_r, qsum_map_plus.
    replace (qsum (map (fun _ => (e / nQc (nsize bn' v))%Qc) (seq 0 (ncard bn' v)))) with (nQc (ncard bn' v) * (e / nQc (nsize bn' v)))%Qc.
    2:{ symmetry. apply qsum_const_seq. }
    replace (qsum (map (fun x => nQc (rows_with t (config (nvalues bn') (v :: nparents bn' v) (upd a v x)))) (seq 0 (ncard bn' v))))
      with (nQc (rows_with t (config (nvalues bn') (nparents bn' v) a))).
    2:{ rewrite <- (rows_with_split t bn' v) by assumption. rewrite nQc_nsum, map_map. reflexivity. }
    fold d. field. assumption.
Qed.
Print Assumptions C43_positive_normalised.

(** ** non-vacuity: a three-column table and the network 0 -> 2 <- 1 *)
Definition exL : table := mkT 3 [[NInt 0; NInt 1; NInt 0]; [NInt 1; NInt 0; NInt 1]; [NInt 0; NInt 0; NInt 0]; [NInt 1; NInt 2; NInt 1]].
Definition exLbn (ps : list name) : bayesnet :=
  mkBN [NInt 0; NInt 1; NInt 2] [(NInt 0, [NInt 2]); (NInt 1, [NInt 2]); (NInt 2, [])]
       [(NInt 0, mkF [] [] []); (NInt 1, mkF [] [] []); (NInt 2, mkF ps [] [])].
Lemma exLbn_skeleton ps : ps = [NInt 0; NInt 1] \/ ps = [NInt 1; NInt 0] -> skeleton (exLbn ps).
Proof.
  intros H. assert (N : nodupb (bn_V (exLbn ps)) = true) by reflexivity. constructor.
  - now apply nodupb_ok.
  - intros v [<-|[<-|[<-|[]]]]; unfold exLbn; simpl; eauto.
  - intros v [<-|[<-|[<-|[]]]]; apply nodupb_ok; destruct H as [-> | ->]; reflexivity.
  - intros v [<-|[<-|[<-|[]]]]; apply inclb_ok; destruct H as [-> | ->]; reflexivity.
Qed.
Lemma exL_ok : table_ok exL.
Proof. intros r [<-|[<-|[<-|[<-|[]]]]]; reflexivity. Qed.
Example C40_nonvacuous : skeleton (exLbn [NInt 0; NInt 1]) /\ table_ok exL /\ t_rows exL <> [] /\
  bn_V (exLbn [NInt 0; NInt 1]) = map NInt (seq 0 3) /\ has_edge_lists (exLbn [NInt 0; NInt 1]) /\ parents_in_node_order (exLbn [NInt 0; NInt 1]) /\
  rows_with exL [(NInt 2, NInt 0); (NInt 0, NInt 0)] = 2.
Proof.
  split; [apply exLbn_skeleton; now left|]. split; [apply exL_ok|]. split; [discriminate|]. split; [reflexivity|].
  split; [intros v [<-|[<-|[<-|[]]]]; simpl; eauto|]. split; [|reflexivity]. intros v [<-|[<-|[<-|[]]]]; reflexivity.
Qed.

(** ** C68: learning should keep parents and CPT aligned.  False when a parent list is not in node order. *)
Theorem C68_refuted : exists o bn t n bn' v a, good o /\ skeleton bn /\ has_edge_lists bn /\ agree bn /\ table_ok t /\ t_rows t <> [] /\
  bn_V bn = map NInt (seq 0 n) /\ n <= t_ncols t /\ mle_estimator o bn t None = Ok bn' /\
  (* in every row with these parent values the node has this value, yet its learned probability is 0 *)
  valid (ncard bn') (v :: nparents bn' v) a /\
  rows_with t (config (nvalues bn') (v :: nparents bn' v) a) = rows_with t (config (nvalues bn') (nparents bn' v) a) /\
  0 < rows_with t (config (nvalues bn') (nparents bn' v) a) /\ cond_prob bn' v a = Some 0%Qc.
Proof.
  set (r := mle_estimator id_oracle (exLbn [NInt 1; NInt 0]) exL None).
  destruct r as [bn'|] eqn:E; [|exfalso; revert E; vm_compute; discriminate].
  exists id_oracle, (exLbn [NInt 1; NInt 0]), exL, 3, bn', (NInt 2), (fun u => match u with NInt 0 => 1 | NInt 2 => 1 | _ => 0 end).
  split; [apply good_id|]. split; [apply exLbn_skeleton; now right|]. split; [intros v [<-|[<-|[<-|[]]]]; simpl; eauto|].
  split.
  { intros u v [<-|[<-|[<-|[]]]] [<-|[<-|[<-|[]]]]; unfold nparents, edge; simpl; (split; [intros H; eexists; split; [reflexivity|]; simpl; intuition congruence|]);
      intros (c & Q & H); inversion Q; subst; simpl in H; intuition congruence. }
  split; [apply exL_ok|]. split; [discriminate|]. split; [reflexivity|]. split; [simpl; lia|]. split; [exact E|].
  revert E. vm_compute. intros E. inversion E; subst. split; [|split; [|split]].
  - intros u [<-|[<-|[<-|[]]]]; vm_compute; lia.
  - reflexivity.
  - vm_compute. lia.
  - vm_compute. f_equal. now apply Qc_eq_Q.
Qed.
Print Assumptions C68_refuted.

(** ** C69: asking only for counts should leave the network alone; it empties every CPT *)
Theorem C69_counts_wipe_the_network : forall o bn t, good o -> skeleton bn -> table_ok t -> t_rows t <> [] ->
  length (bn_V bn) <= t_ncols t -> (forall i, In (NInt i) (bn_V bn) -> i < t_ncols t) -> (forall s, ~ In (NStr s) (bn_V bn)) ->
  exists F bn', mle_counts o bn t None = Ok (F, bn') /\
    forall v, In v (bn_V bn) -> exists c, bn_cpt bn' v = Ok c /\ c <> [] /\ forall x, In x c -> x = 0%Qc.
Proof.
  intros o bn t G S T NR L Hi Hs.
  assert (Hc : forall v, In v (bn_V bn) -> in_cols t v).
  { intros [i|s] Hv; [now apply Hi|]. now apply Hs in Hv. }
  destruct (mle_counts_ok o bn t G S T NR L Hc) as (bn' & E & LL & Z). eexists _, bn'. split; [exact E|].
  intros v Hv. assert (W : wfnet bn') by apply LL. assert (V' : bn_V bn' = bn_V bn) by apply LL.
  exists (ncpt bn' v). split; [apply bn_cpt_ok; [assumption|now rewrite V']|]. rewrite (Z v Hv). split.
  - assert (P : 0 < nsize bn' v).
    { apply size_pos. intros u Hu. apply card_pos; [assumption|]. destruct Hu as [<-|Hu]; [now rewrite V'|]. apply (wn_par _ W v); [now rewrite V'|assumption]. }
    destruct (nsize bn' v); [lia|discriminate].
  - intros x Hx. now apply repeat_spec in Hx.
Qed.
Print Assumptions C69_counts_wipe_the_network.
Example C69_nonvacuous : skeleton (exLbn [NInt 1; NInt 0]) /\ table_ok exL /\ length (bn_V (exLbn [NInt 1; NInt 0])) <= t_ncols exL.
Proof. split; [apply exLbn_skeleton; now right|]. split; [apply exL_ok|simpl; lia]. Qed.

(** ** C70: learning some nodes' parameters should keep the others; it deletes them *)
Theorem C70_other_nodes_are_dropped : forall o bn t l bn' u, mle_estimator o bn t (Some l) = Ok bn' -> ~ In u l ->
  bn_parents bn' u = Raise KeyError /\ bn_values bn' u = Raise KeyError /\ bn_cpt bn' u = Raise KeyError /\ bn_nodes bn' = bn_nodes bn.
Proof.
  intros o bn t l bn' u E Nu. unfold mle_estimator in E.
  apply bind_Ok in E as ([[vals C] bn2] & E1 & E). apply bind_Ok in E as (F & EF & E). inversion E; subst bn'. clear E.
  assert (D : dget F u = None).
  { match type of EF with foldM ?st l [] = _ => set (step := st) in EF end.
    assert (G : forall l' F0 F1, incl l' l -> foldM step l' F0 = Ok F1 -> dget F1 u = dget F0 u).
    { induction l' as [|x r IH]; intros F0 F1 I H; cbn [foldM] in H; [now inversion H|].
      apply bind_Ok in H as (F' & H1 & H2). rewrite (IH F' F1) by (auto; intros y Hy; apply I; now right).
      unfold step in H1. repeat (apply bind_Ok in H1 as (? & _ & H1)). inversion H1. rewrite dget_dset.
      destruct (name_eqb_spec u x) as [-> |]; [exfalso; apply Nu, I; now left|reflexivity]. }
    apply (G l [] F (incl_refl _) EF). }
  unfold bn_parents, bn_values, bn_cpt, getitem. simpl. rewrite D. split; [reflexivity|]. split; [reflexivity|]. split; [reflexivity|].
  unfold bn_nodes. unfold mle_count in E1. apply bind_Ok in E1 as ([v1 b1] & L1 & E1). apply bind_Ok in E1 as ([c0 b2] & L2 & E1).
  apply bind_Ok in E1 as (? & _ & E1). inversion E1; subst. simpl. clear - L1 L2.
  assert (A : forall l st st', foldM (fun st ni => let '(vals, bn) := st in do c <- column t (fst ni) ;;
      do bn' <- bn_set_values bn (snd ni) (np_unique c) ;; Ok (dset vals (snd ni) (np_unique c), bn')) l st = Ok st' -> bn_V (snd st') = bn_V (snd st)).
  { induction l0 as [|x r IH]; intros st st' H; cbn [foldM] in H; [now inversion H|]. apply bind_Ok in H as (s1 & H1 & H2). rewrite (IH _ _ H2).
    destruct st as [vv bb]. apply bind_Ok in H1 as (c & _ & H1). apply bind_Ok in H1 as (b' & H1 & H3). inversion H3; subst. simpl.
    unfold bn_set_values in H1. apply bind_Ok in H1 as (d & _ & H1). inversion H1. reflexivity. }
  assert (B : forall l st st', foldM (fun st rv => let '(C, bn) := st in do k <- p_idx bn rv ;;
      do bn' <- bn_set_cpt bn rv (repeat 0%Qc k) ;; Ok (dset C rv (repeat 0%Qc k), bn')) l st = Ok st' -> bn_V (snd st') = bn_V (snd st)).
  { induction l0 as [|x r IH]; intros st st' H; cbn [foldM] in H; [now inversion H|]. apply bind_Ok in H as (s1 & H1 & H2). rewrite (IH _ _ H2).
    destruct st as [vv bb]. apply bind_Ok in H1 as (c & _ & H1). apply bind_Ok in H1 as (b' & H1 & H3). inversion H3; subst. simpl.
    unfold bn_set_cpt in H1. apply bind_Ok in H1 as (d & _ & H1). inversion H1. reflexivity. }
  apply A in L1. apply B in L2. simpl in *. congruence.
Qed.
Print Assumptions C70_other_nodes_are_dropped.
Example C70_nonvacuous : exists bn', mle_estimator id_oracle (exLbn [NInt 0; NInt 1]) exL (Some [NInt 0]) = Ok bn' /\ ~ In (NInt 2) [NInt 0].
Proof.
  destruct (mle_estimator id_oracle (exLbn [NInt 0; NInt 1]) exL (Some [NInt 0])) as [bn'|] eqn:E; [|exfalso; revert E; vm_compute; discriminate].
  exists bn'. split; [reflexivity|]. intros [H|[]]. discriminate.
Qed.

(** ** C71: naive_bayes *)
Theorem C71_structure : forall o t target bayes, good o -> table_ok t -> t_rows t <> [] -> target < t_ncols t ->
  exists bn', naive_bayes o t target bayes = Ok bn' /\ wfnet bn' /\
    Permutation (bn_nodes bn') (map NInt (seq 0 (t_ncols t))) /\
    bn_parents bn' (NInt target) = Ok [] /\
    (forall i, i < t_ncols t -> i <> target -> bn_parents bn' (NInt i) = Ok [NInt target]) /\
    (forall i j, i < t_ncols t -> (edge (bn_E bn') (NInt i) (NInt j) <-> i = target /\ j < t_ncols t /\ j <> target)) /\
    (* when the target is column 0 the parameters are the fitted ones *)
    (target = 0 -> if bayes then bayes_fit t (nQc (length (t_rows t))) bn' else mle_fit t bn').
Proof.
  intros o t target bayes G T NR L. destruct (nb_structure t target T L) as (bn & E & HV & HE & _).
  destruct (nb_skeleton t target bn T L E) as (S & HEL & PO & Hc & Ln & P).
  assert (Perm : Permutation (bn_V bn) (map NInt (seq 0 (t_ncols t)))).
  { apply NoDup_Permutation; [apply S|apply FinFun.Injective_map_NoDup; [intros x y H; now inversion H|apply seq_NoDup]|].
    intros v. rewrite HV. simpl. rewrite features_In, in_map_iff. setoid_rewrite in_seq. split.
    - intros [<-|(i & -> & Li & _)]; [exists target|exists i]; (split; [reflexivity|lia]).
    - intros (i & <- & Hi). destruct (Nat.eq_dec i target) as [-> |N]; [now left|]. right. exists i. split; [reflexivity|]. split; [lia|assumption]. }
  assert (Z : target = 0 -> bn_V bn = map NInt (seq 0 (t_ncols t))).
  { intros ->. rewrite HV. destruct (t_ncols t) as [|m]; [lia|]. unfold features. simpl. f_equal. f_equal.
    assert (Q : forall k l, 1 <= k -> filter (fun i => negb (i =? 0)) (seq k l) = seq k l).
    { intros k l. revert k. induction l as [|l IH]; intros k Hk; [reflexivity|]. simpl. destruct (Nat.eqb_spec k 0); [lia|]. simpl. now rewrite IH by lia. }
    apply Q. lia. }
  assert (R : exists bn', naive_bayes o t target bayes = Ok bn' /\ learned t bn bn' /\
     (target = 0 -> if bayes then bayes_fit t (nQc (length (t_rows t))) bn' else mle_fit t bn')).
  { unfold naive_bayes. rewrite E. cbn [bind]. destruct bayes.
    - assert (Hp : (0 < nQc (length (t_rows t)))%Qc) by (apply nQc_pos; destruct (t_rows t); [congruence|simpl; lia]).
      destruct (bayes_estimator_ok o bn t None G S T NR Ln Hc Hp) as (bn' & E' & LL & H). exists bn'. split; [exact E'|]. split; [exact LL|].
      intros T0. apply (bayes_fits t _ bn); try assumption. apply (in_order_own t bn bn' (t_ncols t) T (Z T0)); [lia|assumption].
    - destruct (mle_result o bn t G S T NR Ln Hc HEL PO) as (bn' & E' & LL & _). exists bn'. split; [exact E'|]. split; [exact LL|].
      intros T0. destruct (C41_mle_probabilities o bn t (t_ncols t) G S HEL PO T NR (Z T0) (le_n _)) as (bn'' & E2 & _ & _ & _ & _ & F).
      rewrite E' in E2. inversion E2. exact F. }
  destruct R as (bn' & E' & (W & V' & E'' & K) & F). exists bn'. split; [exact E'|]. split; [exact W|].
  split; [unfold bn_nodes; now rewrite V'|].
  assert (In_ : forall i, i < t_ncols t -> In (NInt i) (bn_V bn)).
  { intros i Hi. apply (Permutation_in _ (Permutation_sym Perm)). apply in_map, in_seq. lia. }
  assert (Pa : forall i, i < t_ncols t -> bn_parents bn' (NInt i) = Ok (if i =? target then [] else [NInt target])).
  { intros i Hi. rewrite (bn_parents_ok bn' _ W) by (rewrite V'; now apply In_). f_equal.
    destruct (K (NInt i) (In_ i Hi)) as [-> _]. rewrite (P _ (In_ i Hi)). reflexivity. }
  split; [rewrite Pa by assumption; now rewrite Nat.eqb_refl|]. split.
  { intros i Hi N. rewrite Pa by assumption. destruct (Nat.eqb_spec i target); [contradiction|reflexivity]. }
  split; [|exact F]. intros i j Hi. rewrite E'', HE, nb_edge, features_In. split.
  - intros [Q (k & Qk & Lk & Nk)]. inversion Q. inversion Qk. subst. now split.
  - intros (-> & Hj & N). split; [reflexivity|]. exists j. now split.
Qed.
Print Assumptions C71_structure.
Example C71_nonvacuous : table_ok exL /\ t_rows exL <> [] /\ 0 < t_ncols exL.
Proof. split; [apply exL_ok|]. split; [discriminate|simpl; lia]. Qed.
Example C43_nonvacuous : (0 < nQc (length (t_rows exL)))%Qc /\ skeleton (exLbn [NInt 1; NInt 0]) /\
  rows_with exL [(NInt 0, NInt 0); (NInt 1, NInt 2)] = 0.
Proof. split; [now apply nQc_pos; simpl; lia|]. split; [apply exLbn_skeleton; now right|reflexivity]. Qed.
