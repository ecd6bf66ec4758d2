(** ParamFacts.v -- lemmas about mle_estimator and bayes_estimator. *)
From Verif Require Import Py Num BayesNet SpecFactor Radix SpecInference Rounding Graph GraphNet Data SpecLearn ParamLearn.
From Coq Require Import Sorting.Sorted.
Open Scope nat_scope.

(** ** the values step *)
Definition colu (t : table) (i : nat) : list name := map (fun r => nth i r (NInt 0)) (t_rows t).
Lemma column_ok t i : table_ok t -> i < t_ncols t -> column t i = Ok (colu t i).
Proof.
  intros T L. unfold column. destruct (Nat.ltb_spec i (t_ncols t)); [|lia]. apply mapM_ok. intros r Hr.
  unfold nget. apply T in Hr. rewrite (nth_error_nth' r (NInt 0)) by lia. reflexivity.
Qed.
Definition set_vals (d : fdata) (vs : list name) : fdata := mkF (f_parents d) vs (f_cptl d).
Definition set_cptl (d : fdata) (c : list Qc) : fdata := mkF (f_parents d) (f_values d) c.

Lemma learn_values_gen t nodes : table_ok t -> forall k bn vals0, k + length nodes <= t_ncols t -> NoDup nodes ->
  (forall v, In v nodes -> exists d, dget (bn_F bn) v = Some d) ->
  exists vals bn', foldM (fun st ni =>
    let '(vals, bn) := st in
    do c <- column t (fst ni) ;;
    do bn' <- bn_set_values bn (snd ni) (np_unique c) ;;
    Ok (dset vals (snd ni) (np_unique c), bn')) (combine (seq k (length nodes)) nodes) (vals0, bn) = Ok (vals, bn') /\
   bn_V bn' = bn_V bn /\ bn_E bn' = bn_E bn /\
   (forall v, ~ In v nodes -> dget (bn_F bn') v = dget (bn_F bn) v /\ dget vals v = dget vals0 v) /\
   (forall j v, nth_error nodes j = Some v -> dget vals v = Some (np_unique (colu t (k + j))) /\
      exists d, dget (bn_F bn) v = Some d /\ dget (bn_F bn') v = Some (set_vals d (np_unique (colu t (k + j))))).
Proof.
  intros T. induction nodes as [|n nodes IH]; intros k bn vals0 L ND Hd.
  - exists vals0, bn. split; [reflexivity|]. split; [reflexivity|]. split; [reflexivity|]. split; [auto|].
    intros j v H. destruct j; discriminate.
  - inversion ND as [|? ? N1 N2]. subst. simpl length in *. cbn [seq combine foldM fst snd].
    rewrite column_ok by (auto; lia). cbn [bind]. destruct (Hd n (or_introl eq_refl)) as [d D].
    unfold bn_set_values at 1. rewrite (getitem_Some _ _ _ D). cbn [bind].
    set (bn1 := bn_with_F bn _). destruct (IH (S k) bn1 (dset vals0 n (np_unique (colu t k)))) as (vals & bn' & E & EV & EE & O & I).
    + lia.
    + assumption.
    + intros v Hv. unfold bn1. simpl. rewrite dget_dset. destruct (name_eqb v n); eauto. apply Hd. now right.
    + exists vals, bn'. split; [exact E|]. split; [exact EV|]. split; [exact EE|]. split.
      * intros v Hv. destruct (O v) as [O1 O2]; [intros K; apply Hv; now right|]. rewrite O1, O2. unfold bn1. simpl.
        rewrite !dget_dset. destruct (name_eqb_spec v n) as [-> |]; [exfalso; apply Hv; now left|auto].
      * intros [|j] v H; simpl in H.
        -- inversion H; subst v. destruct (O n N1) as [O1 O2]. rewrite O1, O2. unfold bn1. simpl. rewrite !dget_dset, name_eqb_refl, Nat.add_0_r.
           split; [reflexivity|]. exists d. split; [assumption|reflexivity].
        -- destruct (I j v H) as (I1 & d' & I2 & I3). replace (k + S j) with (S k + j) by lia. split; [exact I1|].
           exists d'. split; [|exact I3]. unfold bn1 in I2. simpl in I2. rewrite dget_dset in I2.
           destruct (name_eqb_spec v n) as [-> |]; [|exact I2]. apply nth_error_In in H. contradiction.
Qed.

(** the levels the program records for the node at position j of [nodes] *)
Definition pos_levels (t : table) (nodes : list name) (v : name) : list name :=
  match index_of v nodes with Some j => np_unique (colu t j) | None => [] end.

Lemma learn_values_ok t bn : table_ok t -> skeleton bn -> length (bn_V bn) <= t_ncols t ->
  exists vals bn', learn_values t (bn_V bn) bn = Ok (vals, bn') /\ bn_V bn' = bn_V bn /\ bn_E bn' = bn_E bn /\
   forall v, In v (bn_V bn) -> dget vals v = Some (pos_levels t (bn_V bn) v) /\
      exists c, dget (bn_F bn') v = Some (mkF (nparents bn v) (pos_levels t (bn_V bn) v) c).
Proof.
  intros T S L. destruct (learn_values_gen t (bn_V bn) T 0 bn [] L (sk_V _ S) (sk_F _ S)) as (vals & bn' & E & EV & EE & _ & I).
  exists vals, bn'. split; [exact E|]. split; [exact EV|]. split; [exact EE|]. intros v Hv.
  destruct (index_of_In _ _ Hv) as [j J]. unfold pos_levels. rewrite J. apply index_of_Some in J.
  destruct (I j v J) as (I1 & d & I2 & I3). split; [exact I1|]. exists (f_cptl d). rewrite I3. unfold nparents. now rewrite I2.
Qed.

(** ** the tables *)
Definition shape (bn bn' : bayesnet) : Prop :=
  bn_V bn' = bn_V bn /\ bn_E bn' = bn_E bn /\
  forall v, In v (bn_V bn) -> nparents bn' v = nparents bn v /\ nvalues bn' v = nvalues bn v /\ ncard bn' v = ncard bn v /\
     exists d, dget (bn_F bn') v = Some d.
Lemma shape_refl bn : (forall v, In v (bn_V bn) -> exists d, dget (bn_F bn) v = Some d) -> shape bn bn.
Proof. intros H. split; [reflexivity|]. split; [reflexivity|]. intros v Hv. destruct (H v Hv). eauto. Qed.
Lemma shape_trans a b c : shape a b -> shape b c -> shape a c.
Proof.
  intros (V1 & E1 & H1) (V2 & E2 & H2). split; [congruence|]. split; [congruence|]. intros v Hv.
  destruct (H1 v Hv) as (P1 & Q1 & R1 & _). destruct (H2 v) as (P2 & Q2 & R2 & K); [congruence|].
  split; [congruence|]. split; [congruence|]. split; [congruence|exact K].
Qed.
Lemma set_cpt_shape bn v c bn' : (forall u, In u (bn_V bn) -> exists d, dget (bn_F bn) u = Some d) ->
  bn_set_cpt bn v c = Ok bn' -> shape bn bn'.
Proof.
  intros H E. unfold bn_set_cpt, getitem in E. destruct (dget (bn_F bn) v) as [d|] eqn:D; [|discriminate].
  cbn [bind] in E. inversion E; subst bn'. split; [reflexivity|]. split; [reflexivity|]. intros u Hu.
  unfold nparents, nvalues, ncard. simpl. rewrite dget_dset. destruct (name_eqb_spec u v) as [-> |N].
  - rewrite D. simpl. eauto.
  - destruct (H u Hu). eauto.
Qed.
Lemma shape_F a b : shape a b -> forall v, In v (bn_V b) -> exists d, dget (bn_F b) v = Some d.
Proof. intros (V1 & E1 & H) v Hv. rewrite V1 in Hv. now apply H. Qed.

Lemma set_cpt_ok bn v c : (exists d, dget (bn_F bn) v = Some d) -> exists bn', bn_set_cpt bn v c = Ok bn' /\ ncpt bn' v = c /\
  forall u, u <> v -> dget (bn_F bn') u = dget (bn_F bn) u.
Proof.
  intros [d D]. unfold bn_set_cpt. rewrite (getitem_Some _ _ _ D). cbn [bind]. eexists. split; [reflexivity|]. unfold ncpt. simpl. split.
  - now rewrite dget_dset, name_eqb_refl.
  - intros u N. rewrite dget_dset. apply name_eqb_neq in N. now rewrite N.
Qed.
Lemma ncpt_eq bn bn' u : dget (bn_F bn') u = dget (bn_F bn) u -> ncpt bn' u = ncpt bn u.
Proof. unfold ncpt. now intros ->. Qed.

Section Skel.
Variable bn0 : bayesnet.
Hypothesis SK : skeleton bn0.
Definition scope_size (v : name) : nat := size (ncard bn0) (v :: nparents bn0 v).

Lemma p_idx_ok bn v : shape bn0 bn -> In v (bn_V bn0) -> p_idx bn v = Ok (scope_size v).
Proof.
  intros (EV & EE & H) Hv. unfold p_idx, bn_parents, bn_card.
  assert (C : forall u, In u (bn_V bn0) -> (do d <- getitem (bn_F bn) u ;; Ok (length (f_values d))) = Ok (ncard bn0 u)).
  { intros u Hu. destruct (H u Hu) as (P & Q & R & d & D). rewrite (getitem_Some _ _ _ D). cbn [bind]. f_equal.
    rewrite <- R. unfold ncard. now rewrite D. }
  destruct (H v Hv) as (P & Q & R & d & D). rewrite (getitem_Some _ _ _ D). cbn [bind].
  assert (EP : f_parents d = nparents bn0 v) by (rewrite <- P; unfold nparents; now rewrite D). rewrite EP.
  rewrite (mapM_ok _ (ncard bn0)). 2:{ intros u Hu. apply C. now apply (sk_par _ SK v Hv). }
  cbn [bind]. assert (Lc : length (f_values d) = ncard bn0 v) by (rewrite <- R; unfold ncard; now rewrite D).
  rewrite Lc. unfold scope_size, size. simpl. f_equal. lia.
Qed.

Lemma mle_zero_gen : forall nodes bn C0, shape bn0 bn -> NoDup nodes -> incl nodes (bn_V bn0) ->
  exists C bn', foldM (fun st rv =>
    let '(C, bn) := st in
    do k <- p_idx bn rv ;;
    do bn' <- bn_set_cpt bn rv (repeat 0%Qc k) ;;
    Ok (dset C rv (repeat 0%Qc k), bn')) nodes (C0, bn) = Ok (C, bn') /\ shape bn0 bn' /\
   (forall v, ~ In v nodes -> ncpt bn' v = ncpt bn v /\ dget C v = dget C0 v) /\
   (forall v, In v nodes -> dget C v = Some (repeat 0%Qc (scope_size v)) /\ ncpt bn' v = repeat 0%Qc (scope_size v)).
Proof.
  induction nodes as [|n nodes IH]; intros bn C0 S ND I.
  - exists C0, bn. split; [reflexivity|]. split; [exact S|]. split; [auto|intros v []].
  - inversion ND as [|? ? N1 N2]; subst. assert (Hn : In n (bn_V bn0)) by (apply I; now left).
    cbn [foldM]. rewrite (p_idx_ok bn n S Hn). cbn [bind].
    destruct (set_cpt_ok bn n (repeat 0%Qc (scope_size n))) as (bn1 & E1 & K1 & K2).
    { destruct S as (_ & _ & HS). now apply HS. }
    rewrite E1. cbn [bind].
    assert (S1 : shape bn0 bn1) by (eapply shape_trans; [exact S|]; eapply set_cpt_shape; [|exact E1]; now apply (shape_F bn0)).
    destruct (IH bn1 (dset C0 n (repeat 0%Qc (scope_size n))) S1 N2) as (C & bn' & E & S' & O & In').
    { intros x Hx. apply I. now right. }
    exists C, bn'. split; [exact E|]. split; [exact S'|]. split.
    + intros v Hv. destruct (O v) as [O1 O2]; [intros K; apply Hv; now right|]. rewrite O1, O2.
      assert (v <> n) by (intros ->; apply Hv; now left). split; [apply ncpt_eq; auto|].
      rewrite dget_dset. apply name_eqb_neq in H. now rewrite H.
    + intros v [<-|Hv]; [|auto]. destruct (O n N1) as [O1 O2]. rewrite O1, O2, dget_dset, name_eqb_refl. auto.
Qed.

Lemma bayes_prior_gen ess : (forall v, In v (bn_V bn0) -> scope_size v <> 0) -> forall nodes bn, shape bn0 bn -> NoDup nodes -> incl nodes (bn_V bn0) ->
  exists bn', bayes_prior ess nodes bn = Ok bn' /\ shape bn0 bn' /\
   (forall v, ~ In v nodes -> ncpt bn' v = ncpt bn v) /\
   (forall v, In v nodes -> ncpt bn' v = repeat (ess / nQc (scope_size v))%Qc (scope_size v)).
Proof.
  intros Pos. unfold bayes_prior. induction nodes as [|n nodes IH]; intros bn S ND I.
  - exists bn. split; [reflexivity|]. split; [exact S|]. split; [auto|intros v []].
  - inversion ND as [|? ? N1 N2]; subst. assert (Hn : In n (bn_V bn0)) by (apply I; now left).
    cbn [foldM]. rewrite (p_idx_ok bn n S Hn). cbn [bind].
    destruct (Nat.eqb_spec (scope_size n) 0) as [Z|Z]; [now apply Pos in Z|].
    destruct (set_cpt_ok bn n (repeat (ess / nQc (scope_size n))%Qc (scope_size n))) as (bn1 & E1 & K1 & K2).
    { destruct S as (_ & _ & HS). now apply HS. }
    rewrite E1. cbn [bind].
    assert (S1 : shape bn0 bn1) by (eapply shape_trans; [exact S|]; eapply set_cpt_shape; [|exact E1]; now apply (shape_F bn0)).
    destruct (IH bn1 S1 N2) as (bn' & E & S' & O & In').
    { intros x Hx. apply I. now right. }
    exists bn'. split; [exact E|]. split; [exact S'|]. split.
    + intros v Hv. rewrite O by (intros K; apply Hv; now right).
      assert (v <> n) by (intros ->; apply Hv; now left). apply ncpt_eq; auto.
    + intros v [<-|Hv]; [|auto]. rewrite O by assumption. assumption.
Qed.
End Skel.

(** ** the position incremented for a row *)
Lemma used_index_lt bn v x : wfnet bn -> In v (bn_V bn) -> used_index bn v x < ncard bn v.
Proof.
  intros W Hv. destruct (wn_vals _ W v Hv) as [_ NE]. unfold used_index, val_index.
  assert (L : length (nvalues bn v) = ncard bn v).
  { unfold nvalues, ncard. destruct (wn_F _ W v Hv) as [d ->]. reflexivity. }
  destruct (index_of x (nvalues bn v)) as [j|] eqn:J.
  - apply index_of_lt in J. lia.
  - destruct (nvalues bn v); [congruence|]. simpl in L. lia.
Qed.

Lemma cpt_indices_single bn target vd g : wfnet bn -> In target (bn_V bn) ->
  (forall u, In u (map fst vd) <-> In u (target :: nparents bn target)) ->
  (forall u x, In (u, x) vd -> x = g u) ->
  cpt_indices bn target vd = Ok [radix (ncard bn) (target :: nparents bn target) (fun u => used_index bn u (g u))].
Proof.
  intros W Ht I K. set (sc := target :: nparents bn target) in *.
  assert (Isc : incl sc (bn_V bn)) by (intros x [<-|Hx]; [assumption|now apply (wn_par _ W target Ht)]).
  destruct (cpt_indices_ok bn target vd W Ht) as (idx & E & ND & H); [intros u Hu; now apply I|].
  fold sc in H. rewrite E. f_equal. set (a := fun u => used_index bn u (g u)) in *.
  assert (V : valid (ncard bn) sc a) by (intros v Hv; unfold a; apply used_index_lt; auto).
  assert (U : forall i, In i idx <-> i = radix (ncard bn) sc a).
  { intros i. rewrite H. split.
    - intros (b & Vb & Rb & Hb). rewrite <- Rb. apply radix_ext. intros v Hv. unfold a.
      apply I, in_map_iff in Hv as ([rv x] & Q & Hx). simpl in Q. subst rv. rewrite <- (K v x Hx). auto.
    - intros ->. exists a. split; [exact V|]. split; [reflexivity|]. intros rv x Hx. unfold a. now rewrite <- (K rv x Hx). }
  destruct idx as [|i [|j r]].
  - exfalso. apply (proj2 (U _) eq_refl).
  - f_equal. apply U. now left.
  - exfalso. inversion ND as [|? ? N1 N2]; subst. apply N1. rewrite (proj1 (U i)) by now left. left. apply U. right. now left.
Qed.

(** the value a row has for a node, once [row_get] is known to succeed *)
Definition rowv (r : list name) (v : name) : name := match v with NInt i => nth i r (NInt 0) | NStr _ => NInt 0 end.
Definition in_cols (t : table) (v : name) : Prop := match v with NInt i => i < t_ncols t | NStr _ => False end.
Lemma row_get_ok t r v : table_ok t -> In r (t_rows t) -> in_cols t v -> row_get r v = Ok (rowv r v).
Proof.
  intros T Hr Hv. destruct v as [i|s]; [|destruct Hv]. simpl in *. unfold nget. apply T in Hr.
  now rewrite (nth_error_nth' r (NInt 0)) by lia.
Qed.
(** the cell counted for row r *)
Definition row_index (bn : bayesnet) (r : list name) : asg := fun u => used_index bn u (rowv r u).
Definition row_cell (bn : bayesnet) (v : name) (r : list name) : nat :=
  radix (ncard bn) (v :: nparents bn v) (row_index bn r).

Lemma observe_row_ok t r nodes : table_ok t -> In r (t_rows t) -> (forall v, In v nodes -> in_cols t v) ->
  observe_row nodes r = Ok (map (fun v => (v, rowv r v)) nodes).
Proof.
  intros T Hr H. unfold observe_row. apply mapM_ok. intros v Hv. rewrite (row_get_ok t) by auto. reflexivity.
Qed.
Lemma cell_offset_ok o bn r v : good o -> wfnet bn -> In v (bn_V bn) ->
  cell_offset o bn (map (fun v => (v, rowv r v)) (bn_V bn)) v = Ok (row_cell bn v r).
Proof.
  intros G W Hv. unfold cell_offset. rewrite bn_scope_ok by assumption. cbn [bind].
  rewrite dkeys_map_pair. set (keys := ask o _).
  assert (P : Permutation keys (filter (fun n => mem n (v :: nparents bn v)) (bn_V bn))) by apply good_ask, G.
  assert (Ik : forall u, In u keys <-> In u (v :: nparents bn v)).
  { intros u. split.
    - intros H. apply (Permutation_in u P), filter_In in H as [_ H]. now apply mem_In.
    - intros H. apply (Permutation_in u (Permutation_sym P)), filter_In. split; [|now apply mem_In].
      destruct H as [<-|H]; [assumption|now apply (wn_par _ W v Hv)]. }
  rewrite (mapM_ok _ (fun n => (n, rowv r n))).
  2:{ intros n Hn. unfold getitem. rewrite dget_map_pair.
      apply (Permutation_in n P), filter_In in Hn as [Hn _]. apply mem_In in Hn. now rewrite Hn. }
  cbn [bind]. rewrite (cpt_indices_single bn v _ (rowv r) W Hv).
  - cbn [bind map]. rewrite (Permutation_length_1_inv (Permutation_sym (good_ask (sub o 0) _ (good_sub o 0 G)))). reflexivity.
  - intros u. rewrite map_map. simpl. rewrite map_id. apply Ik.
  - intros u x H. apply in_map_iff in H as (n & Q & _). now inversion Q; subst.
Qed.

(** ** counting *)
Definition inc (off : nat) (c : list Qc) : list Qc := upd_nth off (nth off c 0 + 1)%Qc c.
Definition counted (cell : list name -> nat) (rs : list (list name)) (c : list Qc) : list Qc :=
  fold_left (fun c r => inc (cell r) c) rs c.
Lemma incr_at_ok off c : off < length c -> incr_at off c = Ok (inc off c).
Proof. intros L. unfold incr_at, nget, inc. rewrite (nth_error_nth' c 0%Qc) by assumption. reflexivity. Qed.
Lemma inc_length off c : length (inc off c) = length c.
Proof. apply upd_nth_length. Qed.
Lemma nth_upd_nth {A} i j (x d : A) l : nth j (upd_nth i x l) d = if (i =? j) && (i <? length l) then x else nth j l d.
Proof.
  pose proof (nth_error_upd_nth i j x l) as H.
  destruct ((i =? j) && (i <? length l)) eqn:E.
  - apply nth_error_nth. exact H.
  - destruct (nth_error l j) as [y|] eqn:Y.
    + rewrite (nth_error_nth _ _ _ H), (nth_error_nth _ _ _ Y). reflexivity.
    + rewrite (nth_overflow (upd_nth i x l)), (nth_overflow l); [reflexivity| |]; [|rewrite upd_nth_length]; now apply nth_error_None.
Qed.
Lemma counted_length cell rs : forall c, length (counted cell rs c) = length c.
Proof. unfold counted. induction rs as [|r rs IH]; intros c; simpl; [reflexivity|]. rewrite IH. apply inc_length. Qed.
Lemma counted_nth cell rs : forall c i, i < length c ->
  nth i (counted cell rs c) 0%Qc = (nth i c 0 + nQc (length (filter (fun r => cell r =? i)%nat rs)))%Qc.
Proof.
  unfold counted. induction rs as [|r rs IH]; intros c i L; simpl.
  - rewrite nQc_0. ring.
  - rewrite IH by (rewrite inc_length; assumption). unfold inc at 1. rewrite nth_upd_nth.
    destruct (Nat.eqb_spec (cell r) i) as [E|E]; simpl; [|reflexivity].
    rewrite E. destruct (Nat.ltb_spec i (length c)); [|lia]. rewrite nQc_S. ring.
Qed.

Lemma row_cell_lt bn v r : wfnet bn -> In v (bn_V bn) -> row_cell bn v r < length (ncpt bn v).
Proof.
  intros W Hv. rewrite (wn_cpt _ W v Hv). apply radix_lt. intros u Hu. apply used_index_lt; [assumption|].
  destruct Hu as [<-|Hu]; [assumption|now apply (wn_par _ W v Hv)].
Qed.

Lemma mle_row_ok o bn t r k C : good o -> wfnet bn -> table_ok t -> In r (t_rows t) -> (forall v, In v (bn_V bn) -> in_cols t v) ->
  (forall v, In v (bn_V bn) -> exists c, dget C v = Some c /\ length c = length (ncpt bn v)) ->
  exists C', mle_row o bn (bn_V bn) C (k, r) = Ok C' /\
    forall v c, In v (bn_V bn) -> dget C v = Some c -> dget C' v = Some (inc (row_cell bn v r) c).
Proof.
  intros G W T Hr Hc HC. unfold mle_row. cbn [fst snd]. rewrite (observe_row_ok t) by assumption. cbn [bind].
  assert (Q : forall nodes C, NoDup nodes -> incl nodes (bn_V bn) ->
    (forall v, In v nodes -> exists c, dget C v = Some c /\ length c = length (ncpt bn v)) ->
    exists C', foldM (fun C0 rv => do off <- cell_offset (sub o k) bn (map (fun v => (v, rowv r v)) (bn_V bn)) rv;;
       do c <- getitem C0 rv;; do c' <- incr_at off c;; Ok (dset C0 rv c')) nodes C = Ok C' /\
      (forall v, ~ In v nodes -> dget C' v = dget C v) /\
      forall v c, In v nodes -> dget C v = Some c -> dget C' v = Some (inc (row_cell bn v r) c)).
  { induction nodes as [|n nodes IH]; intros C1 ND I H1.
    - exists C1. split; [reflexivity|]. split; [reflexivity|intros v c []].
    - inversion ND as [|? ? N1 N2]; subst. assert (Hn : In n (bn_V bn)) by (apply I; now left). cbn [foldM].
      rewrite cell_offset_ok by (auto using good_sub). cbn [bind].
      destruct (H1 n (or_introl eq_refl)) as (c & D & L). rewrite (getitem_Some _ _ _ D). cbn [bind].
      rewrite incr_at_ok by (rewrite L; now apply row_cell_lt). cbn [bind].
      destruct (IH (dset C1 n (inc (row_cell bn n r) c)) N2) as (C' & E & O & In').
      + intros x Hx. apply I. now right.
      + intros v Hv. rewrite dget_dset. destruct (name_eqb_spec v n) as [-> |]; [contradiction|]. apply H1. now right.
      + exists C'. split; [exact E|]. split.
        * intros v Hv. rewrite O by (intros K; apply Hv; now right). rewrite dget_dset.
          destruct (name_eqb_spec v n) as [-> |]; [exfalso; apply Hv; now left|reflexivity].
        * intros v c' [<-|Hv] D'.
          -- rewrite O by assumption. rewrite dget_dset, name_eqb_refl. congruence.
          -- apply In'; [assumption|]. rewrite dget_dset. destruct (name_eqb_spec v n) as [-> |]; [contradiction|assumption]. }
  destruct (Q (bn_V bn) C (wn_V _ W) (incl_refl _) HC) as (C' & E & _ & H). exists C'. split; [exact E|]. intros v c Hv. now apply H.
Qed.

Lemma mle_rows_ok o bn t : good o -> wfnet bn -> table_ok t -> (forall v, In v (bn_V bn) -> in_cols t v) ->
  forall rs k C, incl rs (t_rows t) ->
  (forall v, In v (bn_V bn) -> exists c, dget C v = Some c /\ length c = length (ncpt bn v)) ->
  exists C', foldM (mle_row o bn (bn_V bn)) (combine (seq k (length rs)) rs) C = Ok C' /\
    forall v c, In v (bn_V bn) -> dget C v = Some c -> dget C' v = Some (counted (row_cell bn v) rs c).
Proof.
  intros G W T Hc. induction rs as [|r rs IH]; intros k C I HC.
  - exists C. split; [reflexivity|]. intros v c _ D. exact D.
  - simpl length. cbn [seq combine foldM].
    destruct (mle_row_ok o bn t r k C G W T (I r (or_introl eq_refl)) Hc HC) as (C1 & -> & H1). cbn [bind].
    destruct (IH (S k) C1) as (C' & E & H').
    + intros x Hx. apply I. now right.
    + intros v Hv. destruct (HC v Hv) as (c & D & L). exists (inc (row_cell bn v r) c). split; [now apply H1|]. now rewrite inc_length.
    + exists C'. split; [exact E|]. intros v c Hv D. rewrite (H' v _ Hv (H1 v c Hv D)). reflexivity.
Qed.

Lemma shape_wf bn bn' : wfnet bn -> shape bn bn' -> (forall v, In v (bn_V bn) -> length (ncpt bn' v) = length (ncpt bn v)) -> wfnet bn'.
Proof.
  intros W (EV & EE & H) L. constructor; rewrite EV.
  - apply W.
  - intros v Hv. now apply H.
  - intros v Hv. destruct (H v Hv) as (-> & _). now apply W.
  - intros v Hv. destruct (H v Hv) as (-> & _). now apply W.
  - intros v Hv. destruct (H v Hv) as (_ & -> & _). now apply W.
  - intros v Hv. destruct (H v Hv) as (P & _ & R & _). rewrite L by assumption. rewrite (wn_cpt _ W v Hv), P. f_equal.
    apply map_ext_in. intros u Hu. symmetry. apply H. destruct Hu as [<-|Hu]; [assumption|now apply (wn_par _ W v Hv)].
Qed.
Lemma shape_row_cell bn bn' v r : wfnet bn -> shape bn bn' -> In v (bn_V bn) -> row_cell bn' v r = row_cell bn v r.
Proof.
  intros W (EV & EE & H) Hv. unfold row_cell. destruct (H v Hv) as (-> & _).
  assert (K : forall u, In u (v :: nparents bn v) -> ncard bn' u = ncard bn u /\ row_index bn' r u = row_index bn r u).
  { intros u Hu. assert (Hu' : In u (bn_V bn)) by (destruct Hu as [<-|Hu]; [assumption|now apply (wn_par _ W v Hv)]).
    destruct (H u Hu') as (_ & Q & R & _). split; [exact R|]. unfold row_index, used_index, val_index. now rewrite Q, R. }
  induction (v :: nparents bn v) as [|u l IH]; simpl; [reflexivity|].
  destruct (K u (or_introl eq_refl)) as [-> ->]. f_equal. f_equal. apply IH. intros w Hw. apply K. now right.
Qed.

Lemma bayes_row_ok o bn t r k : good o -> wfnet bn -> table_ok t -> In r (t_rows t) -> (forall v, In v (bn_V bn) -> in_cols t v) ->
  exists bn', bayes_row o (bn_V bn) bn (k, r) = Ok bn' /\ shape bn bn' /\
    forall v, In v (bn_V bn) -> ncpt bn' v = inc (row_cell bn v r) (ncpt bn v).
Proof.
  intros G W T Hr Hc. unfold bayes_row. cbn [fst snd]. rewrite (observe_row_ok t) by assumption. cbn [bind].
  assert (Q : forall nodes b, NoDup nodes -> incl nodes (bn_V bn) -> shape bn b ->
    (forall v, In v (bn_V bn) -> length (ncpt b v) = length (ncpt bn v)) ->
    exists bn', foldM (fun bn0 rv => do off <- cell_offset (sub o k) bn0 (map (fun v => (v, rowv r v)) (bn_V bn)) rv;;
       do c <- bn_cpt bn0 rv;; do c' <- incr_at off c;; bn_set_cpt bn0 rv c') nodes b = Ok bn' /\ shape bn bn' /\
      (forall v, ~ In v nodes -> ncpt bn' v = ncpt b v) /\
      forall v, In v nodes -> ncpt bn' v = inc (row_cell bn v r) (ncpt b v)).
  { induction nodes as [|n nodes IH]; intros b ND I Sb Lb.
    - exists b. split; [reflexivity|]. split; [exact Sb|]. split; [reflexivity|intros v []].
    - inversion ND as [|? ? N1 N2]; subst. assert (Hn : In n (bn_V bn)) by (apply I; now left). cbn [foldM].
      assert (Wb : wfnet b) by (apply (shape_wf bn); assumption). assert (EV : bn_V b = bn_V bn) by apply Sb.
      pose proof (cell_offset_ok (sub o k) b r n (good_sub o k G) Wb) as CO. rewrite EV in CO. rewrite (CO Hn). cbn [bind].
      rewrite (shape_row_cell bn b) by assumption.
      rewrite bn_cpt_ok by (try rewrite EV; assumption). cbn [bind].
      rewrite incr_at_ok by (rewrite Lb by assumption; now apply row_cell_lt). cbn [bind].
      destruct (set_cpt_ok b n (inc (row_cell bn n r) (ncpt b n))) as (b1 & E1 & K1 & K2).
      { apply Wb. rewrite EV. assumption. }
      rewrite E1. cbn [bind].
      assert (S1 : shape bn b1) by (eapply shape_trans; [exact Sb|]; eapply set_cpt_shape; [|exact E1]; now apply (shape_F bn)).
      assert (L1 : forall v, In v (bn_V bn) -> length (ncpt b1 v) = length (ncpt bn v)).
      { intros v Hv. destruct (name_eq_dec v n) as [-> |N].
        - rewrite K1, inc_length. now apply Lb.
        - rewrite (ncpt_eq b b1 v) by auto. now apply Lb. }
      destruct (IH b1 N2) as (bn' & E & S' & O & In').
      + intros x Hx. apply I. now right.
      + assumption.
      + assumption.
      + exists bn'. split; [exact E|]. split; [exact S'|]. split.
        * intros v Hv. rewrite O by (intros K; apply Hv; now right). apply ncpt_eq. apply K2. intros ->. apply Hv. now left.
        * intros v [<-|Hv].
          -- rewrite O by assumption. assumption.
          -- rewrite In' by assumption. f_equal. apply ncpt_eq. apply K2. intros ->. contradiction. }
  destruct (Q (bn_V bn) bn (wn_V _ W) (incl_refl _) (shape_refl bn (wn_F _ W))) as (bn' & E & S' & _ & H); [reflexivity|].
  exists bn'. split; [exact E|]. split; [exact S'|exact H].
Qed.

Lemma bayes_rows_ok o t : good o -> table_ok t -> forall rs bn k, wfnet bn -> (forall v, In v (bn_V bn) -> in_cols t v) ->
  incl rs (t_rows t) ->
  exists bn', foldM (bayes_row o (bn_V bn)) (combine (seq k (length rs)) rs) bn = Ok bn' /\ shape bn bn' /\
    forall v, In v (bn_V bn) -> ncpt bn' v = counted (row_cell bn v) rs (ncpt bn v).
Proof.
  intros G T. induction rs as [|r rs IH]; intros bn k W Hc I.
  - exists bn. split; [reflexivity|]. split; [apply shape_refl, W|]. reflexivity.
  - simpl length. cbn [seq combine foldM].
    destruct (bayes_row_ok o bn t r k G W T (I r (or_introl eq_refl)) Hc) as (b1 & -> & S1 & H1). cbn [bind].
    assert (EV : bn_V b1 = bn_V bn) by apply S1.
    assert (W1 : wfnet b1) by (apply (shape_wf bn); [assumption|assumption|]; intros v Hv; rewrite H1 by assumption; apply inc_length).
    destruct (IH b1 (S k) W1) as (bn' & E & S' & H').
    + rewrite EV. assumption.
    + intros x Hx. apply I. now right.
    + rewrite EV in E, H'. exists bn'. split; [exact E|]. split; [eapply shape_trans; eassumption|]. intros v Hv.
      rewrite H' by assumption. simpl. rewrite H1 by assumption.
      assert (X : forall rs c, counted (row_cell b1 v) rs c = counted (row_cell bn v) rs c).
      { clear - W S1 Hv. unfold counted. induction rs as [|r rs IH]; intros c; simpl; [reflexivity|]. rewrite IH.
        now rewrite (shape_row_cell bn b1). }
      rewrite X. reflexivity.
Qed.

(** ** normalisation *)
Definition group_total (card : nat) (c : list Qc) (k : nat) : Qc := qsum (firstn card (skipn (k / card * card) c)).
Lemma norm_group_ok eps card c i : i + card <= length c -> (qsum (firstn card (skipn i c)) + eps)%Qc <> 0%Qc ->
  exists c', norm_group eps card c i = Ok c' /\ length c' = length c /\
    forall k, nth k c' 0%Qc = if (i <=? k) && (k <? i + card) then py_round 5 (nth k c 0 / (qsum (firstn card (skipn i c)) + eps))%Qc
                              else nth k c 0%Qc.
Proof.
  intros L NZ. unfold norm_group. set (den := (qsum _ + eps)%Qc) in *.
  assert (G : forall n a cc, i + a + n <= length cc -> exists c', foldM (norm_cell den) (map (fun j => i + j) (seq a n)) cc = Ok c' /\ length c' = length cc /\
    forall k, nth k c' 0%Qc = if (i + a <=? k) && (k <? i + a + n) then py_round 5 (nth k cc 0 / den)%Qc else nth k cc 0%Qc).
  { induction n as [|n IH]; intros a cc La.
    - exists cc. split; [reflexivity|]. split; [reflexivity|]. intros k.
      destruct (Nat.leb_spec (i + a) k), (Nat.ltb_spec k (i + a + 0)); simpl; try reflexivity. lia.
    - cbn [seq map foldM]. unfold norm_cell at 1, nget. rewrite (nth_error_nth' cc 0%Qc) by lia. cbn [bind].
      destruct (Qc_eq_dec den 0) as [Z|_]; [contradiction|]. cbn [bind].
      destruct (IH (S a) (upd_nth (i + a) (py_round 5 (nth (i + a) cc 0 / den))%Qc cc)) as (c' & E & L' & H').
      { rewrite upd_nth_length. lia. }
      exists c'. split; [exact E|]. split; [rewrite L'; apply upd_nth_length|]. intros k. rewrite H', nth_upd_nth.
      destruct (Nat.ltb_spec (i + a) (length cc)); [|lia]. rewrite andb_true_r.
      destruct (Nat.eqb_spec (i + a) k) as [<-|N].
      + destruct (Nat.leb_spec (i + S a) (i + a)); [lia|]. simpl.
        destruct (Nat.leb_spec (i + a) (i + a)); [|lia]. destruct (Nat.ltb_spec (i + a) (i + a + S n)); [|lia]. reflexivity.
      + destruct (Nat.leb_spec (i + S a) k), (Nat.leb_spec (i + a) k), (Nat.ltb_spec k (i + S a + n)), (Nat.ltb_spec k (i + a + S n));
          simpl; try reflexivity; lia. }
  destruct (G card 0 c) as (c' & E & L' & H'); [lia|]. exists c'. split; [exact E|]. split; [exact L'|]. intros k. rewrite H'.
  replace (i + 0) with i by lia. reflexivity.
Qed.

Lemma nth_firstn_skipn {A} card i n (d : A) : n < card -> forall l, nth n (firstn card (skipn i l)) d = nth (i + n) l d.
Proof.
  intros Hn l. transitivity (nth n (skipn i l) d).
  - generalize (skipn i l). clear l. revert n Hn. induction card as [|card IH]; intros n Hn l; [lia|].
    destruct l as [|x l]; [reflexivity|]. destruct n as [|n]; simpl; [reflexivity|]. apply IH. lia.
  - revert i. induction l as [|x l IH]; intros [|i]; simpl; try reflexivity; [destruct n; reflexivity|apply IH].
Qed.
Lemma firstn_skipn_ext (card i : nat) (c c' : list Qc) : i + card <= length c -> length c' = length c ->
  (forall k, i <= k < i + card -> nth k c' 0%Qc = nth k c 0%Qc) -> firstn card (skipn i c') = firstn card (skipn i c).
Proof.
  intros L L' H. apply (nth_ext _ _ 0%Qc 0%Qc).
  - rewrite !firstn_length, !skipn_length. lia.
  - intros n Hn. rewrite firstn_length, skipn_length in Hn.
    rewrite !nth_firstn_skipn by lia. apply H. lia.
Qed.

Lemma norm_cpt_ok eps card m c : 0 < card -> length c = m * card -> (forall k, k < length c -> (group_total card c k + eps)%Qc <> 0%Qc) ->
  exists c', norm_cpt eps card c = Ok c' /\ length c' = length c /\
    forall k, k < length c -> nth k c' 0%Qc = py_round 5 (nth k c 0 / (group_total card c k + eps))%Qc.
Proof.
  intros Hc Hl NZ. unfold norm_cpt, group_starts. destruct (Nat.eqb_spec card 0) as [|_]; [lia|]. cbn [bind].
  replace ((length c + card - 1) / card) with m.
  2:{ rewrite Hl. apply (Nat.div_unique _ card m (card - 1)); nia. }
  assert (G : forall n a cc, a + n <= m -> length cc = length c -> (forall k, a * card <= k -> nth k cc 0%Qc = nth k c 0%Qc) ->
    exists c', foldM (norm_group eps card) (map (fun k => k * card) (seq a n)) cc = Ok c' /\ length c' = length c /\
      forall k, nth k c' 0%Qc = if (a * card <=? k) && (k <? (a + n) * card) then py_round 5 (nth k c 0 / (group_total card c k + eps))%Qc
                                else nth k cc 0%Qc).
  { induction n as [|n IH]; intros a cc La Lc H.
    - exists cc. split; [reflexivity|]. split; [assumption|]. intros k.
      destruct (Nat.leb_spec (a * card) k), (Nat.ltb_spec k ((a + 0) * card)); simpl; try reflexivity.
      rewrite Nat.add_0_r in *. lia.
    - cbn [seq map foldM].
      assert (B : a * card + card <= length c) by (rewrite Hl; nia).
      assert (FE : firstn card (skipn (a * card) cc) = firstn card (skipn (a * card) c)).
      { apply firstn_skipn_ext; [assumption|assumption|]. intros k Hk. apply H. lia. }
      assert (GT : forall k, a * card <= k < a * card + card -> group_total card c k = qsum (firstn card (skipn (a * card) c))).
      { intros k Hk. unfold group_total. replace (k / card) with a; [reflexivity|].
        apply (Nat.div_unique k card a (k - a * card)); nia. }
      destruct (norm_group_ok eps card cc (a * card)) as (c1 & E1 & L1 & H1).
      { lia. }
      { rewrite FE. rewrite <- (GT (a * card)) by lia. apply NZ. lia. }
      rewrite E1. cbn [bind]. destruct (IH (S a) c1) as (c' & E & L' & H').
      { lia. } { lia. }
      { intros k Hk. rewrite H1. destruct (Nat.ltb_spec k (a * card + card)); [nia|]. rewrite andb_false_r. apply H. nia. }
      exists c'. split; [exact E|]. split; [exact L'|]. intros k. rewrite H', H1, FE.
      destruct (Nat.leb_spec (S a * card) k), (Nat.ltb_spec k ((S a + n) * card)), (Nat.leb_spec (a * card) k),
        (Nat.ltb_spec k ((a + S n) * card)), (Nat.ltb_spec k (a * card + card)); cbn [andb]; try reflexivity; try nia;
        rewrite GT by lia; rewrite H by lia; reflexivity. }
  destruct (G m 0 c) as (c' & E & L' & H'); [lia|reflexivity|reflexivity|]. exists c'. split; [exact E|]. split; [exact L'|].
  intros k Hk. rewrite H'. destruct (Nat.ltb_spec k ((0 + m) * card)); [|lia]. reflexivity.
Qed.
