(** BayesZero.v -- bayes_estimator for any equivalent sample size: the normalisation fails exactly on an empty group. *)
From Verif Require Import Py Num BayesNet SpecFactor Radix SpecInference Rounding Graph GraphNet Data SpecLearn ParamLearn ParamFacts ParamMain.
From Coq Require Import Sorting.Sorted.
Open Scope nat_scope.

(** the normalising step of bayes_estimator, one node *)
Definition bayes_norm (bn : bayesnet) (rv : name) : res bayesnet :=
  do c <- bn_cpt bn rv ;; do k <- bn_card bn rv ;; do c' <- norm_cpt 0%Qc k c ;; bn_set_cpt bn rv c'.

Lemma norm_group_zero card c i : 0 < card -> i + card <= length c -> qsum (firstn card (skipn i c)) = 0%Qc -> norm_group 0%Qc card c i = Raise ZeroDivisionError.
Proof.
  intros P L Z. unfold norm_group. rewrite Z. destruct card as [|m]; [lia|]. cbn [seq map foldM]. unfold norm_cell at 1, nget. rewrite (nth_error_nth' c 0%Qc) by lia. cbn [bind].
  destruct (Qc_eq_dec (0 + 0) 0) as [_|N]; [reflexivity|]. exfalso. apply N. ring.
Qed.
Lemma norm_cpt_zero card m c k : 0 < card -> length c = m * card -> k < length c -> group_total card c k = 0%Qc -> norm_cpt 0%Qc card c = Raise ZeroDivisionError.
Proof.
  intros Hc Hl Hk Z. unfold norm_cpt, group_starts. destruct (Nat.eqb_spec card 0) as [|_]; [lia|]. cbn [bind].
  replace ((length c + card - 1) / card) with m. 2:{ rewrite Hl. apply (Nat.div_unique _ card m (card - 1)); nia. }
  set (g := k / card). assert (Hg : g < m). { unfold g. apply Nat.div_lt_upper_bound; nia. } unfold group_total in Z. fold g in Z.
  assert (G : forall n a cc, a + n = m -> a <= g -> length cc = length c -> (forall j, a * card <= j -> nth j cc 0%Qc = nth j c 0%Qc) ->
    foldM (norm_group 0%Qc card) (map (fun k => k * card) (seq a n)) cc = Raise ZeroDivisionError).
  2:{ apply (G m 0 c); [lia|lia|reflexivity|reflexivity]. }
  induction n as [|n IH]; intros a cc La Lg Lc H; [lia|]. cbn [seq map foldM].
  assert (B : a * card + card <= length c) by (rewrite Hl; nia).
  assert (FE : firstn card (skipn (a * card) cc) = firstn card (skipn (a * card) c)). { apply firstn_skipn_ext; [assumption|assumption|]. intros j Hj. apply H. lia. }
  destruct (Qc_eq_dec (qsum (firstn card (skipn (a * card) cc))) 0) as [E0|N0]; [now rewrite norm_group_zero by (assumption || lia)|].
  destruct (norm_group_ok 0%Qc card cc (a * card)) as (c1 & E1 & L1 & H1); [lia|now rewrite Qcplus_0_r|]. rewrite E1. cbn [bind]. apply IH; [lia| |lia|].
  - destruct (Nat.eq_dec a g) as [->|N]; [|lia]. exfalso. apply N0. now rewrite FE.
  - intros j Hj. rewrite H1. destruct (Nat.ltb_spec j (a * card + card)); [nia|]. rewrite andb_false_r. apply H. nia.
Qed.

(** up to the normalisation: the counts on top of the prior *)
Lemma bayes_counted o bn t ess : good o -> skeleton bn -> table_ok t -> t_rows t <> [] -> length (bn_V bn) <= t_ncols t ->
  (forall v, In v (bn_V bn) -> in_cols t v) ->
  let e := match ess with Some e => e | None => nQc (length (t_rows t)) end in
  exists b, bayes_estimator o bn t ess None = foldM bayes_norm (bn_V bn) b /\ learned t bn b /\
    forall v, In v (bn_V bn) -> ncpt b v = counted (row_cell b v) (t_rows t) (repeat (e / nQc (nsize b v))%Qc (nsize b v)).
Proof.
  intros G S T NR L Hc e.
  destruct (learn_values_ok t bn T S L) as (vals & bn1 & E1 & V1 & EE1 & H1).
  unfold bayes_estimator. fold e. rewrite E1. cbn [bind snd].
  assert (S1 : skeleton bn1) by (eapply learned_skel; [exact S|exact V1|]; intros v Hv; apply (H1 v Hv)).
  assert (C1 : forall v, In v (bn_V bn) -> 0 < ncard bn1 v).
  { intros v Hv. rewrite nvalues_card. destruct (H1 v Hv) as (_ & c & D). unfold nvalues. rewrite D. simpl.
    destruct (pos_levels_nonempty t (bn_V bn) v NR Hv) as [K _]. destruct (pos_levels t (bn_V bn) v); [congruence|simpl; lia]. }
  assert (P1 : forall v, In v (bn_V bn1) -> scope_size bn1 v <> 0).
  { intros v Hv. assert (0 < scope_size bn1 v); [|lia]. apply size_pos. intros u Hu. apply C1. rewrite <- V1.
    destruct Hu as [<-|Hu]; [assumption|now apply (sk_par _ S1 v)]. }
  destruct (bayes_prior_gen bn1 S1 e P1 (bn_V bn) bn1 (shape_refl _ (sk_F _ S1))) as (bn2 & E2 & S2 & _ & H2).
  { apply S. } { rewrite V1. apply incl_refl. }
  rewrite E2. cbn [bind].
  assert (LL : learned t bn bn2).
  { apply (shape_learned t bn bn1 bn2 NR S V1 EE1); [intros v Hv; apply (H1 v Hv)|exact S2|].
    intros v Hv. rewrite (H2 v Hv). apply repeat_length. }
  assert (W2 : wfnet bn2) by apply LL. assert (V2 : bn_V bn2 = bn_V bn) by apply LL.
  assert (SS : forall v, In v (bn_V bn) -> nsize bn2 v = scope_size bn1 v).
  { intros v Hv. rewrite (shape_nsize bn1) by (try rewrite V1; assumption). reflexivity. }
  destruct (bayes_rows_ok o t G T (t_rows t) bn2 0 W2) as (bn3 & E3 & S3 & H3).
  { rewrite V2. assumption. } { apply incl_refl. }
  rewrite V2 in E3, H3. unfold enum. rewrite E3. cbn [bind].
  assert (L3 : forall v, In v (bn_V bn) -> length (ncpt bn3 v) = length (ncpt bn2 v)).
  { intros v Hv. rewrite H3 by assumption. apply counted_length. }
  assert (W3 : wfnet bn3) by (apply (shape_wf bn2); [assumption|assumption|]; rewrite V2; assumption).
  exists bn3. split; [reflexivity|]. destruct S3 as (V3 & EE3 & K3). destruct LL as (_ & _ & EE2 & K). split.
  { split; [exact W3|]. split; [congruence|]. split; [congruence|]. intros v Hv. destruct (K3 v) as (-> & -> & _); [now rewrite V2|]. now apply K. }
  intros v Hv. rewrite H3, (H2 v Hv), <- SS by assumption.
  assert (NS : nsize bn3 v = nsize bn2 v).
  { unfold nsize, size. destruct (K3 v) as (-> & _); [now rewrite V2|]. f_equal. apply map_ext_in.
    intros u Hu. apply K3. destruct Hu as [<-|Hu]; [now rewrite V2|]. apply (wn_par _ W2 v); [now rewrite V2|assumption]. }
  rewrite NS. assert (X : forall rs c, counted (row_cell bn3 v) rs c = counted (row_cell bn2 v) rs c).
  { unfold counted. induction rs as [|r rs IH]; intros c; simpl; [reflexivity|]. rewrite IH.
    rewrite (shape_row_cell bn2 bn3); [reflexivity|assumption|split; [exact V3|split; [exact EE3|exact K3]]|now rewrite V2]. }
  now rewrite X.
Qed.

(** the normalisation of all nodes *)
Lemma bayes_norm_fail b n k : wfnet b -> In n (bn_V b) -> k < nsize b n -> group_total (ncard b n) (ncpt b n) k = 0%Qc -> bayes_norm b n = Raise ZeroDivisionError.
Proof.
  intros W Hn Hk Z. unfold bayes_norm, bn_cpt, bn_card. destruct (wn_F _ W n Hn) as [d D]. rewrite (getitem_Some _ _ _ D). cbn [bind].
  replace (f_cptl d) with (ncpt b n) by (unfold ncpt; now rewrite D). replace (length (f_values d)) with (ncard b n) by (unfold ncard; now rewrite D).
  rewrite (norm_cpt_zero (ncard b n) (size (ncard b) (nparents b n)) (ncpt b n) k); [reflexivity|now apply card_pos| | |assumption].
  - rewrite (wn_cpt _ W n Hn). unfold size. simpl. lia.
  - now rewrite (wn_cpt _ W n Hn).
Qed.
Lemma bayes_norm_step b n : wfnet b -> In n (bn_V b) -> (forall k, k < nsize b n -> group_total (ncard b n) (ncpt b n) k <> 0%Qc) ->
  exists b', bayes_norm b n = Ok b' /\ shape b b' /\ (forall u, u <> n -> ncpt b' u = ncpt b u) /\ length (ncpt b' n) = length (ncpt b n) /\
    forall k, k < nsize b n -> nth k (ncpt b' n) 0%Qc = py_round 5 (nth k (ncpt b n) 0 / group_total (ncard b n) (ncpt b n) k)%Qc.
Proof.
  intros W Hn NZ. unfold bayes_norm, bn_cpt, bn_card. destruct (wn_F _ W n Hn) as [d D]. rewrite (getitem_Some _ _ _ D). cbn [bind].
  replace (f_cptl d) with (ncpt b n) by (unfold ncpt; now rewrite D). replace (length (f_values d)) with (ncard b n) by (unfold ncard; now rewrite D).
  assert (Hl : length (ncpt b n) = nsize b n) by now rewrite (wn_cpt _ W n Hn).
  destruct (norm_cpt_ok 0%Qc (ncard b n) (size (ncard b) (nparents b n)) (ncpt b n)) as (c' & -> & Lc & Hc').
  { now apply card_pos. } { rewrite Hl. unfold nsize, size. simpl. lia. } { intros k Hk. rewrite Qcplus_0_r. apply NZ. now rewrite <- Hl. }
  cbn [bind]. destruct (set_cpt_ok b n c') as (b1 & Eb1 & K1 & K2); [eauto|]. exists b1. split; [exact Eb1|]. split; [eapply set_cpt_shape; [|exact Eb1]; apply W|].
  split; [intros u Nu; apply ncpt_eq; now apply K2|]. rewrite K1. split; [exact Lc|]. intros k Hk. rewrite Hc' by now rewrite Hl. now rewrite Qcplus_0_r.
Qed.
Lemma shape_sizes b b' v : wfnet b -> shape b b' -> In v (bn_V b) -> nsize b' v = nsize b v /\ ncard b' v = ncard b v.
Proof.
  intros W (V' & E' & K) Hv. destruct (K v Hv) as (Kp & _ & Kc & _). split; [|exact Kc]. unfold nsize, size. rewrite Kp. f_equal. apply map_ext_in. intros u Hu. apply K.
  destruct Hu as [<-|Hu]; [assumption|now apply (wn_par _ W v)].
Qed.
Lemma bayes_norms_ok : forall nodes b, wfnet b -> NoDup nodes -> incl nodes (bn_V b) -> (forall v k, In v nodes -> k < nsize b v -> group_total (ncard b v) (ncpt b v) k <> 0%Qc) ->
  exists b', foldM bayes_norm nodes b = Ok b' /\ wfnet b' /\ shape b b' /\ (forall u, ~ In u nodes -> ncpt b' u = ncpt b u) /\
    forall v, In v nodes -> forall k, k < nsize b v -> nth k (ncpt b' v) 0%Qc = py_round 5 (nth k (ncpt b v) 0 / group_total (ncard b v) (ncpt b v) k)%Qc.
Proof.
  induction nodes as [|n nodes IH]; intros b W ND I NZ.
  - exists b. split; [reflexivity|]. split; [exact W|]. split; [apply shape_refl, W|]. split; [reflexivity|intros v []].
  - inversion ND as [|? ? N1 N2]; subst. assert (Hn : In n (bn_V b)) by (apply I; now left). cbn [foldM].
    destruct (bayes_norm_step b n W Hn) as (b1 & -> & S1 & O1 & L1 & H1); [intros k Hk; apply NZ; [now left|assumption]|]. cbn [bind].
    assert (W1 : wfnet b1). { apply (shape_wf b); [assumption..|]. intros v Hv. destruct (name_eq_dec v n) as [->|N]; [exact L1|now rewrite O1]. }
    assert (V1 : bn_V b1 = bn_V b) by apply S1.
    destruct (IH b1 W1 N2) as (b' & E' & W' & S' & O' & H').
    + intros x Hx. rewrite V1. apply I. now right.
    + intros v k Hv. assert (In v (bn_V b)) as Hvb by (apply I; now right). destruct (shape_sizes b b1 v W S1 Hvb) as [-> ->]. rewrite O1 by (intros ->; contradiction). apply NZ. now right.
    + exists b'. split; [exact E'|]. split; [exact W'|]. split; [eapply shape_trans; eassumption|]. split.
      * intros u Hu. rewrite O' by (intros X; apply Hu; now right). apply O1. intros ->. apply Hu. now left.
      * intros v [<-|Hv] k Hk; [rewrite O' by assumption; now apply H1|]. assert (In v (bn_V b)) as Hvb by (apply I; now right). destruct (shape_sizes b b1 v W S1 Hvb) as [Q1 Q2].
        rewrite H' by (try rewrite Q1; assumption). rewrite Q2, O1 by (intros ->; contradiction). reflexivity.
Qed.
Lemma bayes_norms_fail : forall nodes b v k, wfnet b -> NoDup nodes -> incl nodes (bn_V b) -> In v nodes -> k < nsize b v -> group_total (ncard b v) (ncpt b v) k = 0%Qc ->
  foldM bayes_norm nodes b = Raise ZeroDivisionError.
Proof.
  induction nodes as [|n nodes IH]; intros b v k W ND I Hv Hk Z; [destruct Hv|]. inversion ND as [|? ? N1 N2]; subst. assert (Hn : In n (bn_V b)) by (apply I; now left). cbn [foldM].
  assert (Dec : (exists j, j < nsize b n /\ group_total (ncard b n) (ncpt b n) j = 0%Qc) \/ forall j, j < nsize b n -> group_total (ncard b n) (ncpt b n) j <> 0%Qc).
  { clear. induction (nsize b n) as [|s IHs]; [right; lia|]. destruct IHs as [(j & Hj & Ej)|H]; [left; exists j; split; [lia|assumption]|].
    destruct (Qc_eq_dec (group_total (ncard b n) (ncpt b n) s) 0) as [E|E]; [left; exists s; split; [lia|assumption]|]. right. intros j Hj. destruct (Nat.eq_dec j s) as [->|N]; [assumption|]. apply H. lia. }
  destruct Dec as [(j & Hj & Ej)|NZ]; [now rewrite (bayes_norm_fail b n j)|].
  destruct (bayes_norm_step b n W Hn NZ) as (b1 & -> & S1 & O1 & L1 & H1). cbn [bind].
  assert (W1 : wfnet b1). { apply (shape_wf b); [assumption..|]. intros u Hu. destruct (name_eq_dec u n) as [->|N]; [exact L1|now rewrite O1]. }
  destruct Hv as [<-|Hv]; [exfalso; exact (NZ k Hk Z)|]. assert (In v (bn_V b)) as Hvb by (apply I; now right). destruct (shape_sizes b b1 v W S1 Hvb) as [Q1 Q2].
  apply (IH b1 v k); [assumption..| |assumption| |].
  - intros x Hx. replace (bn_V b1) with (bn_V b) by (symmetry; apply S1). apply I. now right.
  - now rewrite Q1.
  - rewrite Q2, O1 by (intros ->; contradiction). exact Z.
Qed.
