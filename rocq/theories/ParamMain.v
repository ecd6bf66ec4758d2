(** ParamMain.v -- what mle_estimator and bayes_estimator compute. *)
From Verif Require Import Py Num BayesNet SpecFactor Radix SpecInference Rounding Graph GraphNet Data SpecLearn ParamLearn ParamFacts.
From Coq Require Import Sorting.Sorted.
Open Scope nat_scope.

(** ** levels *)
Lemma colu_nonempty t i : t_rows t <> [] -> np_unique (colu t i) <> [].
Proof.
  intros H E. destruct (t_rows t) as [|r rs] eqn:R; [congruence|].
  assert (I : In (nth i r (NInt 0)) (np_unique (colu t i))) by (apply In_np_unique; unfold colu; rewrite R; now left).
  rewrite E in I. exact I.
Qed.
Lemma colu_levels t i : table_ok t -> i < t_ncols t -> levels t (NInt i) (np_unique (colu t i)).
Proof.
  intros T L. split; [apply np_unique_sorted|]. intros x. rewrite In_np_unique. unfold colu. rewrite in_map_iff. simpl.
  split.
  - intros (r & <- & Hr). exists r. split; [assumption|]. apply nth_error_nth'. rewrite (T r Hr). assumption.
  - intros (r & Hr & E). exists r. split; [|assumption]. now apply nth_error_nth.
Qed.
Lemma pos_levels_nonempty t nodes v : t_rows t <> [] -> In v nodes -> pos_levels t nodes v <> [] /\ NoDup (pos_levels t nodes v).
Proof.
  intros H Hv. unfold pos_levels. destruct (index_of_In _ _ Hv) as [j ->]. split; [now apply colu_nonempty|apply NoDup_np_unique].
Qed.
Lemma index_of_seq n i k : i < n -> index_of (NInt (k + i)) (map NInt (seq k n)) = Some i.
Proof.
  intros L. apply index_of_nth.
  - apply FinFun.Injective_map_NoDup; [intros x y; congruence|apply seq_NoDup].
  - rewrite nth_error_map, (nth_error_nth' _ 0) by (rewrite seq_length; lia). rewrite seq_nth by lia. reflexivity.
Qed.
Lemma pos_levels_in_order t n v : table_ok t -> n <= t_ncols t -> In v (map NInt (seq 0 n)) ->
  levels t v (pos_levels t (map NInt (seq 0 n)) v) /\ in_cols t v.
Proof.
  intros T L Hv. apply in_map_iff in Hv as (i & <- & Hi). apply in_seq in Hi. unfold pos_levels.
  pose proof (index_of_seq n i 0) as J. simpl in J. rewrite J by lia. split; [apply colu_levels; [assumption|lia]|simpl; lia].
Qed.

(** ** all rows counted *)
Definition learned (t : table) (bn bn2 : bayesnet) : Prop :=
  wfnet bn2 /\ bn_V bn2 = bn_V bn /\ bn_E bn2 = bn_E bn /\
  forall v, In v (bn_V bn) -> nparents bn2 v = nparents bn v /\ nvalues bn2 v = pos_levels t (bn_V bn) v.

Lemma nvalues_card bn v : ncard bn v = length (nvalues bn v).
Proof. unfold ncard, nvalues. destruct (dget (bn_F bn) v); reflexivity. Qed.

Lemma learned_skel t bn bn1 : skeleton bn -> bn_V bn1 = bn_V bn ->
  (forall v, In v (bn_V bn) -> exists c, dget (bn_F bn1) v = Some (mkF (nparents bn v) (pos_levels t (bn_V bn) v) c)) -> skeleton bn1.
Proof.
  intros S EV H.
  assert (HP : forall v, In v (bn_V bn) -> nparents bn1 v = nparents bn v).
  { intros v Hv. destruct (H v Hv) as [c D]. unfold nparents at 1. now rewrite D. }
  constructor; rewrite EV.
  - apply S.
  - intros v Hv. destruct (H v Hv) as [c D]. eauto.
  - intros v Hv. rewrite HP by assumption. now apply S.
  - intros v Hv. rewrite HP by assumption. now apply S.
Qed.

Lemma shape_learned t bn bn1 bn2 : t_rows t <> [] -> skeleton bn -> bn_V bn1 = bn_V bn -> bn_E bn1 = bn_E bn ->
  (forall v, In v (bn_V bn) -> exists c, dget (bn_F bn1) v = Some (mkF (nparents bn v) (pos_levels t (bn_V bn) v) c)) ->
  shape bn1 bn2 -> (forall v, In v (bn_V bn) -> length (ncpt bn2 v) = scope_size bn1 v) -> learned t bn bn2.
Proof.
  intros NR S EV EE H (EV2 & EE2 & H2) L.
  assert (S1 : skeleton bn1) by (eapply learned_skel; eassumption).
  assert (HP : forall v, In v (bn_V bn) -> nparents bn1 v = nparents bn v /\ nvalues bn1 v = pos_levels t (bn_V bn) v).
  { intros v Hv. destruct (H v Hv) as [c D]. unfold nparents at 1, nvalues. rewrite D. auto. }
  rewrite EV in *. split; [|split; [congruence|split; [congruence|]]].
  - constructor; rewrite EV2.
    + apply S.
    + intros v Hv. now apply H2.
    + intros v Hv. destruct (H2 v Hv) as (-> & _). apply S1. now rewrite EV.
    + intros v Hv. destruct (H2 v Hv) as (-> & _). rewrite <- EV. apply S1. now rewrite EV.
    + intros v Hv. destruct (H2 v Hv) as (_ & -> & _). destruct (HP v Hv) as [_ ->].
      destruct (pos_levels_nonempty t (bn_V bn) v NR Hv). auto.
    + intros v Hv. rewrite (L v Hv). destruct (H2 v Hv) as (P & _ & R & _). rewrite P. unfold scope_size, size. f_equal.
      apply map_ext_in. intros u Hu. symmetry. apply H2. destruct Hu as [<-|Hu]; [assumption|]. rewrite <- EV.
      apply (sk_par _ S1 v); [now rewrite EV|assumption].
  - intros v Hv. destruct (H2 v Hv) as (-> & -> & _). now apply HP.
Qed.

Definition nsize (bn : bayesnet) (v : name) : nat := size (ncard bn) (v :: nparents bn v).
Lemma shape_nsize bn1 bn2 v : skeleton bn1 -> shape bn1 bn2 -> In v (bn_V bn1) -> nsize bn2 v = nsize bn1 v.
Proof.
  intros S (EV & EE & H) Hv. unfold nsize, size. destruct (H v Hv) as (-> & _). f_equal. apply map_ext_in. intros u Hu.
  apply H. destruct Hu as [<-|Hu]; [assumption|now apply (sk_par _ S v)].
Qed.

Lemma mle_count_ok o bn t : good o -> skeleton bn -> table_ok t -> t_rows t <> [] -> length (bn_V bn) <= t_ncols t ->
  (forall v, In v (bn_V bn) -> in_cols t v) ->
  exists vals C bn2, mle_count o t (bn_V bn) bn = Ok (vals, C, bn2) /\ learned t bn bn2 /\
    forall v, In v (bn_V bn) -> dget vals v = Some (pos_levels t (bn_V bn) v) /\ ncpt bn2 v = repeat 0%Qc (nsize bn2 v) /\
      dget C v = Some (counted (row_cell bn2 v) (t_rows t) (repeat 0%Qc (nsize bn2 v))).
Proof.
  intros G S T NR L Hc. destruct (learn_values_ok t bn T S L) as (vals & bn1 & E1 & V1 & EE1 & H1).
  unfold mle_count. rewrite E1. cbn [bind].
  assert (S1 : skeleton bn1) by (eapply learned_skel; [exact S|exact V1|]; intros v Hv; apply (H1 v Hv)).
  destruct (mle_zero_gen bn1 S1 (bn_V bn) bn1 [] (shape_refl _ (sk_F _ S1))) as (C0 & bn2 & E2 & S2 & _ & H2).
  { apply S. } { rewrite V1. apply incl_refl. }
  assert (E2' : mle_zero (bn_V bn) bn1 = Ok (C0, bn2)) by exact E2. rewrite E2'. cbn [bind].
  assert (LL : learned t bn bn2).
  { apply (shape_learned t bn bn1 bn2 NR S V1 EE1); [intros v Hv; apply (H1 v Hv)|exact S2|].
    intros v Hv. destruct (H2 v Hv) as [_ ->]. apply repeat_length. }
  assert (W2 : wfnet bn2) by apply LL. assert (V2 : bn_V bn2 = bn_V bn) by apply LL.
  assert (SS : forall v, In v (bn_V bn) -> nsize bn2 v = scope_size bn1 v).
  { intros v Hv. rewrite (shape_nsize bn1) by (try rewrite V1; assumption). reflexivity. }
  destruct (mle_rows_ok o bn2 t G W2 T) with (rs := t_rows t) (k := 0) (C := C0) as (C & E3 & H3).
  - rewrite V2. assumption.
  - apply incl_refl.
  - intros v Hv. rewrite V2 in Hv. destruct (H2 v Hv) as [D ->]. eexists. split; [exact D|reflexivity].
  - rewrite V2 in E3. unfold enum. rewrite E3. cbn [bind]. exists vals, C, bn2. split; [reflexivity|]. split; [exact LL|].
    intros v Hv. split; [apply (H1 v Hv)|]. rewrite SS by assumption. destruct (H2 v Hv) as [D D']. split; [exact D'|].
    apply H3; [now rewrite V2|exact D].
Qed.

(** ** counting cells *)
Lemma used_index_In bn v x : NoDup (nvalues bn v) -> In x (nvalues bn v) -> forall j, j < ncard bn v ->
  (used_index bn v x = j <-> x = nth j (nvalues bn v) (NInt 0)).
Proof.
  intros ND I j L. unfold used_index, val_index. destruct (index_of_In _ _ I) as [i J]. rewrite J. rewrite nvalues_card in L. split.
  - intros <-. apply index_of_Some in J. symmetry. now apply nth_error_nth.
  - intros ->. assert (K := index_of_nth (nvalues bn v) j _ ND (nth_error_nth' _ (NInt 0) L)). congruence.
Qed.
Lemma entryb_rowv t r u x : table_ok t -> In r (t_rows t) -> in_cols t u -> entryb r (u, x) = name_eqb (rowv r u) x.
Proof.
  intros T Hr Hu. destruct u as [i|s]; [|destruct Hu]. unfold entryb. simpl in *. rewrite (nth_error_nth' r (NInt 0)) by (rewrite (T r Hr); assumption).
  reflexivity.
Qed.

(** every column's values are those of its own node *)
Definition own_values (t : table) (bn : bayesnet) : Prop := forall v, In v (bn_V bn) -> in_cols t v /\ levels t v (nvalues bn v).

Lemma rowv_In t bn r v : table_ok t -> own_values t bn -> In v (bn_V bn) -> In r (t_rows t) -> In (rowv r v) (nvalues bn v).
Proof.
  intros T O Hv Hr. destruct (O v Hv) as [Hc [_ Hl]]. apply Hl. exists r. split; [assumption|].
  destruct v as [i|s]; [|destruct Hc]. simpl in *. apply nth_error_nth'. rewrite (T r Hr). assumption.
Qed.

Lemma cell_matches t bn vs r a : table_ok t -> wfnet bn -> own_values t bn -> incl vs (bn_V bn) -> In r (t_rows t) ->
  valid (ncard bn) vs a ->
  forallb (entryb r) (config (nvalues bn) vs a) = (radix (ncard bn) vs (row_index bn r) =? radix (ncard bn) vs a).
Proof.
  intros T W O I Hr V.
  assert (Vr : valid (ncard bn) vs (row_index bn r)) by (intros u Hu; apply used_index_lt; auto).
  apply eq_true_iff_eq. rewrite forallb_forall, Nat.eqb_eq. split.
  - intros H. apply radix_ext. intros u Hu.
    assert (E : entryb r (u, nth (a u) (nvalues bn u) (NInt 0)) = true) by (apply H; unfold config; apply in_map_iff; eauto).
    destruct (O u (I u Hu)) as [Hc _]. rewrite (entryb_rowv t) in E by assumption. apply name_eqb_eq in E.
    apply used_index_In; [apply (wn_vals _ W u (I u Hu))|exact (rowv_In t bn r u T O (I u Hu) Hr)|now apply V|assumption].
  - intros E q Hq. unfold config in Hq. apply in_map_iff in Hq as (u & <- & Hu).
    destruct (O u (I u Hu)) as [Hc _]. rewrite (entryb_rowv t) by assumption. apply name_eqb_eq.
    apply (used_index_In bn u _ (proj1 (wn_vals _ W u (I u Hu)))); [exact (rowv_In t bn r u T O (I u Hu) Hr)|now apply V|].
    apply (radix_inj _ vs _ _ Vr V E u Hu).
Qed.

Lemma rows_with_cell t bn v a : table_ok t -> wfnet bn -> own_values t bn -> In v (bn_V bn) ->
  valid (ncard bn) (v :: nparents bn v) a ->
  rows_with t (config (nvalues bn) (v :: nparents bn v) a) =
  length (filter (fun r => row_cell bn v r =? radix (ncard bn) (v :: nparents bn v) a) (t_rows t)).
Proof.
  intros T W O Hv V. unfold rows_with. f_equal. apply filter_ext_in. intros r Hr. apply (cell_matches t); try assumption.
  intros u [<-|Hu]; [assumption|now apply (wn_par _ W v Hv)].
Qed.

(** splitting the rows by the value of one more variable *)
Lemma count_split {A} (idx : A -> nat) (q : A -> bool) (l : list A) n : (forall r, In r l -> idx r < n) ->
  nsum (map (fun j => length (filter (fun r => (idx r =? j) && q r) l)) (seq 0 n)) = length (filter q l).
Proof.
  induction l as [|r l IH]; intros H; simpl.
  - assert (G : forall k m, nsum (map (fun _ => 0) (seq k m)) = 0) by (intros k m; revert k; induction m; simpl; auto). apply G.
  - assert (G : forall k m, nsum (map (fun j => length (if (idx r =? j) && q r then r :: filter (fun r => (idx r =? j) && q r) l
                                                     else filter (fun r => (idx r =? j) && q r) l)) (seq k m)) =
        (if (k <=? idx r) && (idx r <? k + m) && q r then 1 else 0) + nsum (map (fun j => length (filter (fun r => (idx r =? j) && q r) l)) (seq k m))).
    { intros k m. revert k. induction m as [|m IHm]; intros k; cbn [seq map nsum fold_right].
      - destruct (Nat.leb_spec k (idx r)), (Nat.ltb_spec (idx r) (k + 0)); simpl; try reflexivity; lia.
      - unfold nsum in IHm. rewrite IHm.
        destruct (Nat.eqb_spec (idx r) k) as [E|E]; destruct (q r); cbn [andb];
          destruct (Nat.leb_spec k (idx r)), (Nat.ltb_spec (idx r) (k + S m)), (Nat.leb_spec (S k) (idx r)), (Nat.ltb_spec (idx r) (S k + m));
          cbn [andb length]; lia. }
    rewrite G. rewrite IH by (intros x Hx; apply H; now right).
    assert (Hr := H r (or_introl eq_refl)). destruct (Nat.ltb_spec (idx r) (0 + n)); [|lia]. simpl. destruct (q r); reflexivity.
Qed.

Lemma rows_with_split t bn v vs a : table_ok t -> wfnet bn -> own_values t bn -> In v (bn_V bn) -> ~ In v vs ->
  nsum (map (fun j => rows_with t (config (nvalues bn) (v :: vs) (upd a v j))) (seq 0 (ncard bn v))) = rows_with t (config (nvalues bn) vs a).
Proof.
  intros T W O Hv Nv. unfold rows_with.
  rewrite <- (count_split (fun r => row_index bn r v) (fun r => forallb (entryb r) (config (nvalues bn) vs a)) (t_rows t) (ncard bn v)).
  2:{ intros r Hr. now apply used_index_lt. }
  f_equal. apply map_ext_in. intros j Hj. apply in_seq in Hj. f_equal. apply filter_ext_in. intros r Hr.
  cbn [config map forallb]. fold (config (nvalues bn) vs (upd a v j)). f_equal.
  - rewrite upd_same. destruct (O v Hv) as [Hc _]. rewrite (entryb_rowv t) by assumption.
    apply eq_true_iff_eq. rewrite name_eqb_eq, Nat.eqb_eq. symmetry.
    apply used_index_In; [apply (wn_vals _ W v Hv)|now apply (rowv_In t)|lia].
  - f_equal. apply map_ext_in. intros u Hu. rewrite upd_other; [reflexivity|]. intros ->. contradiction.
Qed.

Lemma nth_map_seq {A} (f : nat -> A) k n j d : j < n -> nth j (map f (seq k n)) d = f (k + j).
Proof.
  intros L. rewrite (nth_indep _ d (f 0)) by (rewrite map_length, seq_length; assumption). rewrite map_nth, seq_nth by assumption. reflexivity.
Qed.
(** the group of cells of one parent configuration *)
Lemma group_cells card base (c : list Qc) : card * base + card <= length c ->
  firstn card (skipn (card * base) c) = map (fun j => nth (j + card * base) c 0%Qc) (seq 0 card).
Proof.
  intros L. apply (nth_ext _ _ 0%Qc 0%Qc).
  - rewrite firstn_length, skipn_length, map_length, seq_length. lia.
  - intros n Hn. rewrite firstn_length, skipn_length in Hn. rewrite nth_firstn_skipn by lia.
    rewrite nth_map_seq by lia. f_equal. lia.
Qed.
Lemma group_total_radix bn v a (c : list Qc) : valid (ncard bn) (v :: nparents bn v) a -> ~ In v (nparents bn v) ->
  length c = nsize bn v ->
  group_total (ncard bn v) c (radix (ncard bn) (v :: nparents bn v) a) =
  qsum (map (fun j => nth (radix (ncard bn) (v :: nparents bn v) (upd a v j)) c 0%Qc) (seq 0 (ncard bn v))).
Proof.
  intros V Nv L. assert (V' := V). apply valid_cons in V' as [V1 V2]. pose proof (radix_lt _ _ _ V2) as R.
  unfold group_total. simpl radix. set (b := radix (ncard bn) (nparents bn v) a) in *. set (k := ncard bn v) in *.
  replace ((a v + k * b) / k * k) with (k * b).
  2:{ replace ((a v + k * b) / k) with b; [lia|]. apply (Nat.div_unique _ k b (a v)); lia. }
  rewrite group_cells.
  - f_equal. apply map_ext_in. intros j Hj. rewrite upd_same. f_equal. f_equal. f_equal. apply radix_ext.
    intros u Hu. rewrite upd_other; [reflexivity|]. intros ->. contradiction.
  - rewrite L. unfold nsize, size. simpl. fold k. change (nprod (map (ncard bn) (nparents bn v))) with (size (ncard bn) (nparents bn v)). nia.
Qed.

Lemma nQc_nsum l : nQc (nsum l) = qsum (map nQc l).
Proof. induction l as [|x l IH]; simpl; [reflexivity|]. now rewrite nQc_plus, IH. Qed.
Lemma qsum_inc off c : off < length c -> qsum (inc off c) = (qsum c + 1)%Qc.
Proof.
  unfold inc. revert off. induction c as [|x c IH]; intros [|off] L; simpl in *; try lia; [ring|].
  rewrite IH by lia. ring.
Qed.
Lemma qsum_counted cell rs : forall c, (forall r, In r rs -> cell r < length c) -> qsum (counted cell rs c) = (qsum c + nQc (length rs))%Qc.
Proof.
  unfold counted. induction rs as [|r rs IH]; intros c H; simpl.
  - rewrite nQc_0. ring.
  - rewrite IH. 2:{ intros x Hx. rewrite inc_length. apply H. now right. } rewrite qsum_inc by (apply H; now left). rewrite nQc_S. ring.
Qed.
Lemma qsum_repeat x n : qsum (repeat x n) = (nQc n * x)%Qc.
Proof. induction n as [|n IH]; simpl; [rewrite nQc_0; ring|]. rewrite IH, nQc_S. ring. Qed.
Lemma nth_repeat' {A} (x d : A) n i : i < n -> nth i (repeat x n) d = x.
Proof. revert i; induction n as [|n IH]; intros [|i] L; simpl; try lia; auto. apply IH. lia. Qed.

(** the counted table, cell by cell, with prior weight [p] in every cell *)
Lemma counted_cell t bn v a p : table_ok t -> wfnet bn -> own_values t bn -> In v (bn_V bn) -> valid (ncard bn) (v :: nparents bn v) a ->
  nth (radix (ncard bn) (v :: nparents bn v) a) (counted (row_cell bn v) (t_rows t) (repeat p (nsize bn v))) 0%Qc =
  (p + nQc (rows_with t (config (nvalues bn) (v :: nparents bn v) a)))%Qc.
Proof.
  intros T W O Hv V. pose proof (radix_lt _ _ _ V) as R.
  rewrite counted_nth by (rewrite repeat_length; exact R). rewrite nth_repeat' by exact R. now rewrite (rows_with_cell t).
Qed.
Lemma counted_group t bn v a p : table_ok t -> wfnet bn -> own_values t bn -> In v (bn_V bn) -> valid (ncard bn) (v :: nparents bn v) a ->
  group_total (ncard bn v) (counted (row_cell bn v) (t_rows t) (repeat p (nsize bn v))) (radix (ncard bn) (v :: nparents bn v) a) =
  (nQc (ncard bn v) * p + nQc (rows_with t (config (nvalues bn) (nparents bn v) a)))%Qc.
Proof.
  intros T W O Hv V. assert (ND := wn_scope _ W v Hv). inversion ND as [|? ? Nv NDp].
  rewrite group_total_radix; [|assumption|assumption|now rewrite counted_length, repeat_length].
  rewrite (qsum_map_ext _ (fun j => p + nQc (rows_with t (config (nvalues bn) (v :: nparents bn v) (upd a v j))))%Qc).
  2:{ intros j Hj. apply in_seq in Hj. apply counted_cell; try assumption. apply valid_upd'; [lia|assumption]. }
  rewrite qsum_map_plus. f_equal.
  - clear. generalize (ncard bn v). intros n. generalize 0. induction n as [|n IH]; intros k; simpl; [rewrite nQc_0; ring|]. rewrite IH, nQc_S. ring.
  - rewrite <- (rows_with_split t bn v) by assumption. rewrite nQc_nsum, map_map. reflexivity.
Qed.

(** ** the whole of mle_estimator and bayes_estimator *)
Lemma in_order_own t bn bn2 n : table_ok t -> bn_V bn = map NInt (seq 0 n) -> n <= t_ncols t -> learned t bn bn2 ->
  own_values t bn2 /\ length (bn_V bn) <= t_ncols t /\ forall v, In v (bn_V bn) -> in_cols t v.
Proof.
  intros T EV L (W & V2 & _ & H). split; [|split].
  - intros v Hv. rewrite V2 in Hv. destruct (H v Hv) as [_ ->]. rewrite EV in *.
    destruct (pos_levels_in_order t n v T L Hv). auto.
  - rewrite EV, map_length, seq_length. assumption.
  - intros v Hv. rewrite EV in Hv. now apply (pos_levels_in_order t n v T L).
Qed.
Lemma in_order_cols t bn n : table_ok t -> bn_V bn = map NInt (seq 0 n) -> n <= t_ncols t ->
  length (bn_V bn) <= t_ncols t /\ forall v, In v (bn_V bn) -> in_cols t v.
Proof.
  intros T EV L. split.
  - rewrite EV, map_length, seq_length. assumption.
  - intros v Hv. rewrite EV in Hv. now apply (pos_levels_in_order t n v T L).
Qed.

Lemma mle_counts_ok o bn t : good o -> skeleton bn -> table_ok t -> t_rows t <> [] -> length (bn_V bn) <= t_ncols t ->
  (forall v, In v (bn_V bn) -> in_cols t v) ->
  exists bn2, mle_counts o bn t None = Ok (map (fun v => (v, (nvalues bn2 v, counted (row_cell bn2 v) (t_rows t) (repeat 0%Qc (nsize bn2 v))))) (bn_V bn), bn2) /\
    learned t bn bn2 /\ forall v, In v (bn_V bn) -> ncpt bn2 v = repeat 0%Qc (nsize bn2 v).
Proof.
  intros G S T NR L Hc. destruct (mle_count_ok o bn t G S T NR L Hc) as (vals & C & bn2 & E & LL & H).
  exists bn2. unfold mle_counts. rewrite E. cbn [bind]. split; [|split; [exact LL|intros v Hv; apply (H v Hv)]].
  rewrite (mapM_ok _ (fun v => (v, (nvalues bn2 v, counted (row_cell bn2 v) (t_rows t) (repeat 0%Qc (nsize bn2 v)))))); [reflexivity|].
  intros v Hv. destruct (H v Hv) as (D1 & _ & D2). rewrite (getitem_Some _ _ _ D1), (getitem_Some _ _ _ D2). cbn [bind].
  destruct LL as (_ & _ & _ & K). destruct (K v Hv) as [_ ->]. reflexivity.
Qed.

Lemma counted_len bn v rs p : wfnet bn -> In v (bn_V bn) ->
  length (counted (row_cell bn v) rs (repeat p (nsize bn v))) = size (ncard bn) (nparents bn v) * ncard bn v.
Proof. intros W Hv. rewrite counted_length, repeat_length. unfold nsize, size. simpl. lia. Qed.
Lemma card_pos bn v : wfnet bn -> In v (bn_V bn) -> 0 < ncard bn v.
Proof.
  intros W Hv. rewrite nvalues_card. destruct (wn_vals _ W v Hv) as [_ K]. destruct (nvalues bn v); [congruence|simpl; lia].
Qed.

Lemma Qcdiv_pos a b : (0 < a -> 0 < b -> 0 < a / b)%Qc.
Proof.
  intros A B. assert (M : (a / b * b = a)%Qc) by (field; intros E; rewrite E in B; discriminate).
  destruct (Qclt_le_dec 0 (a / b)) as [X|X]; [assumption|]. exfalso. revert M X. generalize (a / b)%Qc. intros u M X.
  assert (X2 : (u * b <= 0)%Qc) by (clear - X B; qcnra). rewrite M in X2. apply Qcle_not_lt in X2. contradiction.
Qed.
Lemma eps7_pos : (0 < eps7)%Qc.
Proof. reflexivity. Qed.
Lemma group_total_nonneg card c k : (forall x, In x c -> 0 <= x)%Qc -> (0 <= group_total card c k)%Qc.
Proof.
  intros H. unfold group_total. apply qsum_nonneg. intros x Hx. apply H.
  rewrite <- (firstn_skipn (k / card * card) c). apply in_or_app. right.
  rewrite <- (firstn_skipn card (skipn _ c)). apply in_or_app. now left.
Qed.
Lemma counted_nonneg cell rs c : (forall x, In x c -> 0 <= x)%Qc -> forall x, In x (counted cell rs c) -> (0 <= x)%Qc.
Proof.
  unfold counted. revert c. induction rs as [|r rs IH]; intros c H x Hx; [now apply H|]. simpl in Hx. apply IH in Hx; [assumption|].
  clear - H. intros y Hy. apply In_nth with (d := 0%Qc) in Hy as (i & Hi & <-). unfold inc in *. rewrite upd_nth_length in Hi.
  rewrite nth_upd_nth. assert (G : (0 <= nth i c 0)%Qc) by (apply H, nth_In; assumption).
  destruct (Nat.eqb_spec (cell r) i) as [<-|]; simpl; [|assumption]. destruct (cell r <? length c); [|assumption].
  assert (this 1%Qc = 1)%Q by reflexivity. qclra.
Qed.

Definition relist (bn : bayesnet) (v : name) : list name := filter (fun u => edge_in (bn_E bn) u v) (bn_V bn).

Lemma mle_estimator_ok o bn t : good o -> skeleton bn -> table_ok t -> t_rows t <> [] -> length (bn_V bn) <= t_ncols t ->
  (forall v, In v (bn_V bn) -> in_cols t v) -> (forall v, In v (bn_V bn) -> exists c, dget (bn_E bn) v = Some c) ->
  exists bn2 bn', mle_estimator o bn t None = Ok bn' /\ learned t bn bn2 /\
    bn_V bn' = bn_V bn /\ bn_E bn' = bn_E bn /\ dkeys (bn_F bn') = bn_V bn /\
    forall v, In v (bn_V bn) -> exists c', dget (bn_F bn') v = Some (mkF (relist bn v) (nvalues bn2 v) c') /\ length c' = nsize bn2 v /\
      let c := counted (row_cell bn2 v) (t_rows t) (repeat 0%Qc (nsize bn2 v)) in
      forall k, k < nsize bn2 v -> nth k c' 0%Qc = py_round 5 (nth k c 0 / (group_total (ncard bn2 v) c k + eps7))%Qc.
Proof.
  intros G S T NR L Hc HE. destruct (mle_count_ok o bn t G S T NR L Hc) as (vals & C & bn2 & E & LL & H).
  unfold mle_estimator. rewrite E. cbn [bind].
  assert (W2 : wfnet bn2) by apply LL. destruct LL as (LW & V2 & E2 & K). 
  set (step := fun F rv => _).
  assert (Q : forall nodes F, NoDup nodes -> incl nodes (bn_V bn) -> (forall v, In v nodes -> ~ In v (dkeys F)) ->
    exists F', foldM step nodes F = Ok F' /\ dkeys F' = dkeys F ++ nodes /\ (forall v, ~ In v nodes -> dget F' v = dget F v) /\
      forall v, In v nodes -> exists c', dget F' v = Some (mkF (relist bn v) (nvalues bn2 v) c') /\ length c' = nsize bn2 v /\
       let c := counted (row_cell bn2 v) (t_rows t) (repeat 0%Qc (nsize bn2 v)) in
       forall k, k < nsize bn2 v -> nth k c' 0%Qc = py_round 5 (nth k c 0 / (group_total (ncard bn2 v) c k + eps7))%Qc).
  { induction nodes as [|n nodes IH]; intros F ND I NF.
    - exists F. split; [reflexivity|]. split; [now rewrite app_nil_r|]. split; [reflexivity|intros v []].
    - inversion ND as [|? ? N1 N2]; subst. assert (Hn : In n (bn_V bn)) by (apply I; now left). cbn [foldM]. unfold step at 1.
      rewrite (mapM_ok _ (fun u => (u, edge_in (bn_E bn) u n))).
      2:{ intros u Hu. rewrite E2. destruct (HE u Hu) as [c D]. unfold edge_in. rewrite (getitem_Some _ _ _ D), D. reflexivity. }
      cbn [bind]. destruct (H n Hn) as (D1 & _ & D2). rewrite (getitem_Some _ _ _ D1), (getitem_Some _ _ _ D2). cbn [bind].
      rewrite bn_card_ok by (try rewrite V2; assumption). cbn [bind].
      set (c := counted _ _ _) in *.
      destruct (norm_cpt_ok eps7 (ncard bn2 n) (size (ncard bn2) (nparents bn2 n)) c) as (c' & -> & Lc & Hc').
      { apply card_pos; [assumption|now rewrite V2]. }
      { apply counted_len; [assumption|now rewrite V2]. }
      { intros k _ Z. pose proof eps7_pos. assert (0 <= group_total (ncard bn2 n) c k)%Qc.
        { apply group_total_nonneg. apply counted_nonneg. intros x Hx. apply repeat_spec in Hx. subst. apply Qcle_refl. }
        assert (0 < group_total (ncard bn2 n) c k + eps7)%Qc by qclra. rewrite Z in *. qclra. }
      cbn [bind]. set (e := mkF _ _ c').
      assert (Ee : e = mkF (relist bn n) (nvalues bn2 n) c').
      { unfold e. f_equal; [|symmetry; now apply K]. unfold relist. clear. induction (bn_V bn) as [|u l IH]; simpl; [reflexivity|].
        destruct (edge_in (bn_E bn) u n); simpl; now rewrite IH. }
      destruct (IH (dset F n e) N2) as (F' & EF & KF & OF & HF).
      + intros x Hx. apply I. now right.
      + intros v Hv. rewrite In_dkeys_dset. intros [-> |X]; [contradiction|]. apply (NF v); [now right|assumption].
      + exists F'. split; [exact EF|]. split.
        { rewrite KF, dkeys_dset_notin by (apply NF; now left). rewrite <- app_assoc. reflexivity. }
        split.
        * intros v Hv. rewrite OF by (intros X; apply Hv; now right). rewrite dget_dset.
          destruct (name_eqb_spec v n) as [-> |]; [exfalso; apply Hv; now left|reflexivity].
        * intros v [<-|Hv]; [|now apply HF]. exists c'. rewrite OF by assumption. rewrite dget_dset, name_eqb_refl, Ee.
          split; [reflexivity|]. assert (Lz : length c = nsize bn2 n) by (unfold c; now rewrite counted_length, repeat_length).
          split; [lia|]. intros k Hk. apply Hc'. lia. }
  destruct (Q (bn_V bn) [] (sk_V _ S) (incl_refl _)) as (F & EF & KF & _ & HF); [intros v _ []|].
  rewrite EF. cbn [bind]. exists bn2, (bn_with_F bn2 F). split; [reflexivity|]. split; [split; [|split; [|split]]; assumption|].
  split; [exact V2|]. split; [exact E2|]. split; [exact KF|exact HF].
Qed.

Lemma bayes_estimator_ok o bn t ess : good o -> skeleton bn -> table_ok t -> t_rows t <> [] -> length (bn_V bn) <= t_ncols t ->
  (forall v, In v (bn_V bn) -> in_cols t v) -> (0 < match ess with Some e => e | None => nQc (length (t_rows t)) end)%Qc ->
  exists bn', bayes_estimator o bn t ess None = Ok bn' /\ learned t bn bn' /\
    let e := match ess with Some e => e | None => nQc (length (t_rows t)) end in
    forall v, In v (bn_V bn) -> 
      let c := counted (row_cell bn' v) (t_rows t) (repeat (e / nQc (nsize bn' v))%Qc (nsize bn' v)) in
      forall k, k < nsize bn' v -> nth k (ncpt bn' v) 0%Qc = py_round 5 (nth k c 0 / group_total (ncard bn' v) c k)%Qc.
Proof.
  intros G S T NR L Hc Hess. set (e := match ess with Some _ => _ | None => _ end) in *.
  destruct (learn_values_ok t bn T S L) as (vals & bn1 & E1 & V1 & EE1 & H1).
  unfold bayes_estimator. fold e. rewrite E1. cbn [bind snd].
  assert (S1 : skeleton bn1) by (eapply learned_skel; [exact S|exact V1|]; intros v Hv; apply (H1 v Hv)).
  assert (C1 : forall v, In v (bn_V bn) -> 0 < ncard bn1 v).
  { intros v Hv. rewrite nvalues_card. destruct (H1 v Hv) as (_ & c & D). unfold nvalues. rewrite D. simpl.
    destruct (pos_levels_nonempty t (bn_V bn) v NR Hv) as [K _]. destruct (pos_levels t (bn_V bn) v); [congruence|simpl; lia]. }
  assert (P1 : forall v, In v (bn_V bn1) -> scope_size bn1 v <> 0).
  { intros v Hv. assert (0 < scope_size bn1 v); [|lia]. apply size_pos. intros u Hu. apply C1. rewrite <- V1.
    destruct Hu as [<-|Hu]; [assumption|now apply (sk_par _ S1 v)]. }
  destruct (bayes_prior_gen bn1 S1 e P1 (bn_V bn) bn1 (shape_refl _ (sk_F _ S1))) as (bn2 & E2 & S2 & _ & H2).
  { apply S. } { rewrite V1. apply incl_refl. }
  rewrite E2. cbn [bind].
  assert (LL : learned t bn bn2).
  { apply (shape_learned t bn bn1 bn2 NR S V1 EE1); [intros v Hv; apply (H1 v Hv)|exact S2|].
    intros v Hv. rewrite (H2 v Hv). apply repeat_length. }
  assert (W2 : wfnet bn2) by apply LL. assert (V2 : bn_V bn2 = bn_V bn) by apply LL.
  assert (SS : forall v, In v (bn_V bn) -> nsize bn2 v = scope_size bn1 v).
  { intros v Hv. rewrite (shape_nsize bn1) by (try rewrite V1; assumption). reflexivity. }
  destruct (bayes_rows_ok o t G T (t_rows t) bn2 0 W2) as (bn3 & E3 & S3 & H3).
  { rewrite V2. assumption. } { apply incl_refl. }
  rewrite V2 in E3, H3. unfold enum. rewrite E3. cbn [bind].
  assert (L3 : forall v, In v (bn_V bn) -> length (ncpt bn3 v) = length (ncpt bn2 v)).
  { intros v Hv. rewrite H3 by assumption. apply counted_length. }
  assert (W3 : wfnet bn3) by (apply (shape_wf bn2); [assumption|assumption|]; rewrite V2; assumption).
  set (step := fun (b : bayesnet) rv => _).
  assert (Q : forall nodes b, NoDup nodes -> incl nodes (bn_V bn) -> shape bn2 b -> (forall v, In v nodes -> ncpt b v = ncpt bn3 v) ->
    exists b', foldM step nodes b = Ok b' /\ shape bn2 b' /\ (forall v, ~ In v nodes -> ncpt b' v = ncpt b v) /\
      forall v, In v nodes -> length (ncpt b' v) = length (ncpt bn3 v) /\
       forall k, k < nsize bn2 v -> nth k (ncpt b' v) 0%Qc = py_round 5 (nth k (ncpt bn3 v) 0 / group_total (ncard bn2 v) (ncpt bn3 v) k)%Qc).
  { induction nodes as [|n nodes IH]; intros b ND I Sb Hb.
    - exists b. split; [reflexivity|]. split; [exact Sb|]. split; [reflexivity|intros v []].
    - inversion ND as [|? ? N1 N2]; subst. assert (Hn : In n (bn_V bn)) by (apply I; now left). cbn [foldM]. unfold step at 1.
      destruct Sb as (Vb & Eb & Kb). destruct (Kb n) as (Kb1 & Kb2 & Kb3 & d & D); [now rewrite V2|].
      unfold bn_cpt, bn_card. rewrite (getitem_Some _ _ _ D). cbn [bind].
      replace (f_cptl d) with (ncpt bn3 n) by (rewrite <- (Hb n (or_introl eq_refl)); unfold ncpt; now rewrite D).
      replace (length (f_values d)) with (ncard bn2 n) by (rewrite <- Kb3; unfold ncard; now rewrite D).
      assert (Hl : length (ncpt bn3 n) = size (ncard bn2) (nparents bn2 n) * ncard bn2 n).
      { rewrite L3 by assumption. rewrite (wn_cpt _ W2 n) by now rewrite V2. unfold size. simpl. lia. }
      assert (Pc : 0 < ncard bn2 n) by (apply card_pos; [assumption|now rewrite V2]).
      destruct (norm_cpt_ok 0%Qc (ncard bn2 n) (size (ncard bn2) (nparents bn2 n)) (ncpt bn3 n) Pc Hl) as (c' & -> & Lc & Hc').
      { intros k Hk Z. rewrite H3 in Z by assumption. rewrite (H2 n Hn) in Z.
        set (cc := counted _ _ _) in Z.
        assert (Pcell : forall x, In x cc -> (0 < x)%Qc).
        { assert (Pe : (0 < e / nQc (scope_size bn1 n))%Qc).
          { assert (N : (0 < nQc (scope_size bn1 n))%Qc) by (apply nQc_pos; rewrite <- V1 in Hn; specialize (P1 n Hn); lia).
            now apply Qcdiv_pos. }
          assert (GG : forall rs c, (forall x, In x c -> 0 < x)%Qc -> forall x, In x (counted (row_cell bn2 n) rs c) -> (0 < x)%Qc).
          { clear. unfold counted. induction rs as [|r rs IH]; intros c H x Hx; [now apply H|]. simpl in Hx. apply IH in Hx; [assumption|].
            clear - H. intros y Hy. apply In_nth with (d := 0%Qc) in Hy as (i & Hi & <-). unfold inc in *. rewrite upd_nth_length in Hi.
            rewrite nth_upd_nth. assert (G : (0 < nth i c 0)%Qc) by (apply H, nth_In; assumption).
            destruct (Nat.eqb_spec (row_cell bn2 n r) i) as [<-|]; simpl; [|assumption]. destruct (_ <? length c); [|assumption].
            assert (this 1%Qc = 1)%Q by reflexivity. qclra. }
          apply GG. intros x Hx. apply repeat_spec in Hx. now subst. }
        assert (PG : (0 < group_total (ncard bn2 n) cc k)%Qc).
        { assert (Lcc : length cc = length (ncpt bn3 n)) by (rewrite H3, (H2 n Hn) by assumption; reflexivity).
          unfold group_total. set (s := k / ncard bn2 n * ncard bn2 n).
          assert (Hs : s < length cc).
          { rewrite Lcc. unfold s. pose proof (Nat.mul_div_le k (ncard bn2 n)). lia. }
          destruct (skipn s cc) as [|x r] eqn:SK.
          { apply (f_equal (@length Qc)) in SK. rewrite skipn_length in SK. simpl in SK. lia. }
          destruct (ncard bn2 n) as [|m]; [lia|]. simpl.
          assert (Hx : In x cc) by (rewrite <- (firstn_skipn s cc), SK; apply in_or_app; right; now left).
          assert (0 <= qsum (firstn m r))%Qc.
          { apply qsum_nonneg. intros y Hy. apply Qclt_le_weak, Pcell. rewrite <- (firstn_skipn s cc), SK. apply in_or_app. right. right.
            rewrite <- (firstn_skipn m r). apply in_or_app. now left. }
          apply Pcell in Hx. qclra. }
        assert (Z' : group_total (ncard bn2 n) cc k = 0%Qc) by (rewrite <- Z; ring). rewrite Z' in PG. discriminate. }
      cbn [bind]. destruct (set_cpt_ok b n c') as (b1 & Eb1 & K1 & K2); [eauto|]. rewrite Eb1. cbn [bind].
      assert (Sb : shape bn2 b) by (split; [exact Vb|split; [exact Eb|exact Kb]]).
      assert (Sb1 : shape bn2 b1) by (eapply shape_trans; [exact Sb|]; eapply set_cpt_shape; [|exact Eb1]; now apply (shape_F bn2)).
      destruct (IH b1 N2) as (b' & E' & S' & O' & H').
      + intros x Hx. apply I. now right.
      + assumption.
      + intros v Hv. rewrite (ncpt_eq b b1 v); [apply Hb; now right|]. apply K2. intros ->. contradiction.
      + exists b'. split; [exact E'|]. split; [exact S'|]. split.
        * intros v Hv. rewrite O' by (intros X; apply Hv; now right). apply ncpt_eq. apply K2. intros ->. apply Hv. now left.
        * intros v [<-|Hv]; [|now apply H']. rewrite O', K1 by assumption. split; [exact Lc|]. intros k Hk.
          rewrite Hc'. 2:{ rewrite Hl. unfold nsize, size in Hk. simpl in Hk. unfold size. lia. } do 2 f_equal. ring. }
  destruct (Q (bn_V bn) bn3 (sk_V _ S) (incl_refl _) S3) as (bn' & E' & S' & _ & H'); [reflexivity|].
  rewrite E'. exists bn'. split; [reflexivity|].
  assert (LL' : learned t bn bn').
  { destruct LL as (_ & _ & EE2 & K). destruct S' as (V' & EE' & K'). split; [|split; [congruence|split; [congruence|]]].
    - apply (shape_wf bn2); [assumption|split; [exact V'|split; [exact EE'|exact K']]|]. rewrite V2. intros v Hv.
      destruct (H' v Hv) as [-> _]. now apply L3.
    - intros v Hv. destruct (K' v) as (-> & -> & _); [now rewrite V2|]. now apply K. }
  split; [exact LL'|]. intros v Hv. cbn zeta.
  assert (NS : nsize bn' v = nsize bn2 v).
  { unfold nsize, size. destruct S' as (V' & EE' & K'). destruct (K' v) as (-> & _); [now rewrite V2|]. f_equal. apply map_ext_in.
    intros u Hu. apply K'. destruct Hu as [<-|Hu]; [now rewrite V2|]. apply (wn_par _ W2 v); [now rewrite V2|assumption]. }
  assert (NC : ncard bn' v = ncard bn2 v) by (destruct S' as (V' & EE' & K'); apply K'; now rewrite V2).
  rewrite NS, NC. intros k Hk. destruct (H' v Hv) as [_ ->]; [|assumption]. rewrite H3, (H2 v Hv), <- SS by assumption.
  assert (X : forall rs c, counted (row_cell bn' v) rs c = counted (row_cell bn2 v) rs c).
  { unfold counted. induction rs as [|r rs IH]; intros c; simpl; [reflexivity|]. rewrite IH.
    rewrite (shape_row_cell bn2 bn'); [reflexivity|assumption|assumption|now rewrite V2]. }
  rewrite X. reflexivity.
Qed.
