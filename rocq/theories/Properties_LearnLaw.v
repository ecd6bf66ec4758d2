(** Properties_LearnLaw.v -- theorem C114: parameters learned from sampled data converge.
    Specification: SpecLaw.v (cells, draws, fraction), SpecLearnLaw.v (as_data, learned_prob, learned_off, match_on). *)
From Verif Require Import Py Num BayesNet Factor SpecFactor Radix SpecInference VE VETotal SpecSample Sampling SampleFacts SampleMain SampleLaws SumOver Graph Data SpecLearn ParamLearn ParamFacts ParamMain
  SpecLaw LawFacts GraphCheck Mst Rounding Examples Properties_Sample LawMain LawUse SpecLearnLaw Properties_Learn Properties_Law LearnLaw.
Open Scope nat_scope.

Lemma as_data_rows bn n (s : nat -> asg) m : bn_V bn = map NInt (seq 0 m) ->
  t_rows (as_data m (map (fun i => map (fun v => Z.of_nat (s i v)) (bn_V bn)) (seq 0 n))) = map (fun i => map (fun v => NInt (s i v)) (bn_V bn)) (seq 0 n).
Proof.
  intros _. unfold as_data. cbn [t_rows]. rewrite map_map. apply map_ext. intros i. rewrite map_map. apply map_ext. intros v. now rewrite Nat2Z.id.
Qed.
Lemma entry_data bn m (b : asg) w x : bn_V bn = map NInt (seq 0 m) -> In w (bn_V bn) -> entryb (map (fun v => NInt (b v)) (bn_V bn)) (w, NInt x) = (b w =? x).
Proof.
  intros EV Hw. rewrite EV in *. apply in_map_iff in Hw as (j & <- & Hj). apply in_seq in Hj. unfold entryb. cbn [fst snd].
  rewrite map_map, (map_nth_error (fun j => NInt (b (NInt j))) j (seq 0 m) (d := j)).
  - destruct (Nat.eqb_spec (b (NInt j)) x) as [->|Ne]; [destruct (name_eqb_spec (NInt x) (NInt x)); congruence|]. destruct (name_eqb_spec (NInt (b (NInt j))) (NInt x)); congruence.
  - rewrite nth_error_nth' with (d := 0) by (rewrite seq_length; lia). now rewrite seq_nth by lia.
Qed.
Lemma rows_with_data bn m n s vs a : bn_V bn = map NInt (seq 0 m) -> incl vs (bn_V bn) ->
  rows_with (as_data m (map (fun i => map (fun v => Z.of_nat (s i v)) (bn_V bn)) (seq 0 n))) (map (fun w => (w, NInt (a w))) vs) = count_rows s n (match_on vs a).
Proof.
  intros EV I. unfold rows_with, count_rows. rewrite (as_data_rows bn n s m EV). generalize (seq 0 n). intros is.
  assert (G : forall i, forallb (entryb (map (fun v => NInt (s i v)) (bn_V bn))) (map (fun w => (w, NInt (a w))) vs) = match_on vs a (s i)).
  { intros i. unfold match_on. clear -EV I. induction vs as [|w vs IH]; [reflexivity|]. cbn [map forallb]. rewrite (entry_data bn m (s i) w (a w) EV) by (apply I; now left). f_equal. apply IH. intros z Hz. apply I. now right. }
  induction is as [|i is IH]; [reflexivity|]. cbn [map filter]. rewrite G. destruct (match_on vs a (s i)); cbn [length]; now rewrite IH.
Qed.

(** learning from the rows [s 0 .. s (n-1)]: if the relative frequency is close, the learned entry is *)
Lemma mle_learned_near src sk o' n m v a t p (s : nat -> asg) : wfnet src -> bn_V src = map NInt (seq 0 m) -> good o' -> skeleton sk -> has_edge_lists sk -> parents_in_node_order sk -> bn_V sk = bn_V src ->
  0 < n -> In v (bn_V src) -> 0 < count_rows s n (match_on (nparents sk v) a) ->
  (nQc (count_rows s n (match_on (v :: nparents sk v) a)) / nQc (count_rows s n (match_on (nparents sk v) a)) - p < t)%Qc ->
  (p - nQc (count_rows s n (match_on (v :: nparents sk v) a)) / nQc (count_rows s n (match_on (nparents sk v) a)) < t)%Qc ->
  learned_off (mle_estimator o' sk (as_data m (map (fun i => map (fun v => Z.of_nat (s i v)) (bn_V src)) (seq 0 n))) None) v (fun w => NInt (a w)) (t + Q2Qc (51 # 10000000)) p = false.
Proof.
  intros W EV G Sk HE PO EVs Hn Hv Pos N1 N2.
  assert (Hvs : In v (bn_V sk)) by (now rewrite EVs).
  assert (Ip : incl (nparents sk v) (bn_V src)) by (rewrite <- EVs; now apply (sk_par _ Sk)).
  assert (Iv : incl (v :: nparents sk v) (bn_V src)) by (intros w [<-|Hw]; auto).
  assert (Lm : length (bn_V src) = m) by (rewrite EV, map_length, seq_length; reflexivity).
  apply not_true_is_false. intros Pc.
    set (T := as_data m (map (fun i => map (fun v => Z.of_nat (s i v)) (bn_V src)) (seq 0 n))) in *.
    assert (Tr : t_rows T = map (fun i => map (fun v => NInt (s i v)) (bn_V src)) (seq 0 n)) by (apply (as_data_rows src n s m EV)).
    destruct (C41_mle_probabilities o' sk T m G Sk HE PO) as (bn' & Em & W' & V' & E' & P' & Fit).
    + intros r Hr. rewrite Tr in Hr. apply in_map_iff in Hr as (i & <- & _). rewrite map_length. exact Lm.
    + rewrite Tr. destruct n; [lia|discriminate].
    + now rewrite EVs.
    + apply le_n.
    + rewrite Em in Pc. cbn [learned_off] in Pc.
      assert (Pv := P' v Hvs). assert (Hv' : In v (bn_V bn')) by (now rewrite V').
      assert (R0 : rows_with T (map (fun w => (w, NInt (a w))) (nparents sk v)) = count_rows s n (match_on (nparents sk v) a)) by (now apply rows_with_data).
      assert (R1 : rows_with T (map (fun w => (w, NInt (a w))) (v :: nparents sk v)) = count_rows s n (match_on (v :: nparents sk v) a)) by (now apply rows_with_data).
      assert (LV : forall w, In w (bn_V src) -> (In (NInt (a w)) (nvalues bn' w) <-> exists i, i < n /\ s i w = a w)).
      { intros w Hw. destruct Fit as [Lv _]. destruct (Lv w ltac:(now rewrite V', EVs)) as [_ L]. rewrite L.
        assert (Ent : forall i, entry (map (fun v => NInt (s i v)) (bn_V src)) w (NInt (a w)) <-> s i w = a w).
        { intros i. assert (X := entry_data src m (s i) w (a w) EV Hw). unfold entryb in X. unfold entry. assert (Hw' := Hw). rewrite EV in Hw'. apply in_map_iff in Hw' as (j & <- & _). cbn [fst snd] in X.
          destruct (nth_error (map (fun v => NInt (s i v)) (bn_V src)) j) as [y|].
          - destruct (name_eqb_spec y (NInt (a (NInt j)))) as [Ey|Ne]; symmetry in X; [apply Nat.eqb_eq in X; subst y; tauto|]. apply Nat.eqb_neq in X. split; [congruence|contradiction].
          - symmetry in X. apply Nat.eqb_neq in X. split; [discriminate|contradiction]. }
        rewrite Tr. split.
        - intros (r & Hr & He). apply in_map_iff in Hr as (i & <- & Hi). apply in_seq in Hi. exists i. split; [lia|]. now apply Ent.
        - intros (i & Hi & E). eexists. split; [apply in_map_iff; exists i; split; [reflexivity|apply in_seq; lia]|]. now apply Ent. }
      assert (Wit : forall vs, 0 < count_rows s n (match_on vs a) -> forall w, In w vs -> exists i, i < n /\ s i w = a w).
      { intros vs Pc0 w Hw. unfold count_rows in Pc0. destruct (filter (fun i => match_on vs a (s i)) (seq 0 n)) as [|i is] eqn:Fl; [cbn in Pc0; lia|].
        assert (Hi : In i (filter (fun i => match_on vs a (s i)) (seq 0 n))) by (rewrite Fl; now left). apply filter_In in Hi as [Hi Mi]. apply in_seq in Hi. exists i. split; [lia|]. now apply (proj1 (match_on_spec _ _ _) Mi). }
      set (a' := fun w => match index_of (NInt (a w)) (nvalues bn' w) with Some i => i | None => 0 end) in *.
      unfold learned_prob in Pc. rewrite Pv in Pc. fold a' in Pc. destruct (forallb _ _) eqn:All.
      * (* every label is known *)
        rewrite forallb_forall in All.
        assert (Ka : forall w, In w (v :: nparents sk v) -> a' w < ncard bn' w /\ nth (a' w) (nvalues bn' w) (NInt 0) = NInt (a w)).
        { intros w Hw. specialize (All w Hw). apply mem_In in All. unfold a'. destruct (index_of_In _ _ All) as [i Ei]. rewrite Ei. split; [rewrite nvalues_card; now apply (index_of_lt _ _ _ Ei)|].
          apply index_of_Some in Ei. now apply nth_error_nth. }
        assert (Cf : forall vs, incl vs (v :: nparents sk v) -> config (nvalues bn') vs a' = map (fun w => (w, NInt (a w))) vs).
        { intros vs Hs2. apply map_ext_in. intros w Hw. f_equal. now apply Ka, Hs2. }
        destruct (C41_close_to_frequency T bn' v a' Fit Hv') as (pl & Epl & B1 & B2).
        -- rewrite Pv. intros w Hw. now apply Ka.
        -- rewrite Pv, Cf by (intros w Hw; now right). now rewrite R0.
        -- rewrite Pv, !Cf, R0, R1 in B1, B2 by (first [apply incl_refl|intros w Hw; now right]).
           rewrite Epl in Pc. cbn [getq] in Pc. rewrite off_true in Pc; [discriminate| |]; revert B1 B2 N1 N2;
             generalize (nQc (count_rows s n (match_on (v :: nparents sk v) a)) / nQc (count_rows s n (match_on (nparents sk v) a)))%Qc (Q2Qc (51 # 10000000)); intros f e B1 B2 N1 N2; clear - B1 B2 N1 N2; qclra.
      * (* the label of v never occurs *)
        assert (Z1 : count_rows s n (match_on (v :: nparents sk v) a) = 0).
        { destruct (count_rows s n (match_on (v :: nparents sk v) a)) as [|k] eqn:Ck; [reflexivity|]. exfalso. apply not_true_iff_false in All. apply All. apply forallb_forall. intros w Hw. apply mem_In. apply LV; [now apply Iv|].
          apply (Wit (v :: nparents sk v)); [lia|assumption]. }
        rewrite Z1 in N1, N2. rewrite nQc_0 in N1, N2. assert (NZ := nQc_nz _ Pos).
        replace (0 / nQc (count_rows s n (match_on (nparents sk v) a)))%Qc with 0%Qc in N1, N2 by (unfold Qcdiv; ring).
        assert (Ep : (0 < Q2Qc (51 # 10000000))%Qc) by reflexivity.
        rewrite off_true in Pc; [discriminate| |]; revert N1 N2 Ep; generalize (Q2Qc (51 # 10000000)) p; intros; qclra.
Qed.

(** The structure [sk] may be any structure over the same columns: the learned table of [v]
    converges to the conditional probabilities of the sampled network [src]. *)
Theorem C114_mle_converges : forall src sk M d o o' junk n m v a t, wfnet src -> nonneg_net src -> normalised src -> nodes_topological src -> denominator src M -> positions d ->
  bn_V src = map NInt (seq 0 m) -> good o' -> skeleton sk -> has_edge_lists sk -> parents_in_node_order sk -> bn_V sk = bn_V src ->
  0 < n -> In v (bn_V src) -> (0 < t)%Qc -> (0 < prob_of src (match_on (nparents sk v) a))%Qc ->
  let A := prob_of src (match_on (nparents sk v) a) in
  let p := (prob_of src (match_on (v :: nparents sk v) a) / A)%Qc in
  (fraction (cells M n m)
     (fun c => learned_off (do rows <- random_sample o src (junk c) (draws M d c) n ;; mle_estimator o' sk (as_data m rows) None)
        v (fun w => NInt (a w)) (t + Q2Qc (51 # 10000000)) p)
   <= Q2Qc 4 * (1 + p * (1 - p) / (t * t)) / (nQc n * A))%Qc.
Proof.
  intros src sk M d o o' junk n m v a t W NN N Top Den D EV G Sk HE PO EVs Hn Hv Ht HA A p.
  assert (Hvs : In v (bn_V sk)) by (now rewrite EVs).
  assert (Ip : incl (nparents sk v) (bn_V src)) by (rewrite <- EVs; now apply (sk_par _ Sk)).
  assert (Iv : incl (v :: nparents sk v) (bn_V src)) by (intros w [<-|Hw]; auto).
  assert (Lm : length (bn_V src) = m) by (rewrite EV, map_length, seq_length; reflexivity). rewrite <- Lm at 1.
  apply (ratio_law src M d n (match_on (v :: nparents sk v) a) (match_on (nparents sk v) a) t); auto.
  - intros b b' H. apply match_on_ext. auto.
  - intros b b' H. apply match_on_ext. auto.
  - intros b Hb. unfold match_on in *. cbn [forallb] in Hb. apply andb_true_iff in Hb. tauto.
  - intros c Hc Pc s Hs Pos _ [N1 N2].
    destruct (random_ok src o (junk c) (draws M d c) n (sm src W NN N) Top (draws_unit src M Den d D n c Hc)) as (s' & Hs' & Er). rewrite Er in Pc. cbn [bind] in Pc.
    assert (Es : forall i w, i < n -> In w (bn_V src) -> s' i w = s i w) by (intros i w Hi Hw; apply (ancestral_unique src (draws M d c i) (s' i) (s i) (sm src W NN N) Top); auto).
    assert (Ed : map (fun i => map (fun v => Z.of_nat (s' i v)) (bn_V src)) (seq 0 n) = map (fun i => map (fun v => Z.of_nat (s i v)) (bn_V src)) (seq 0 n)).
    { apply map_ext_in. intros i Hi. apply in_seq in Hi. apply map_ext_in. intros w Hw. rewrite Es by (auto; lia). reflexivity. }
    rewrite Ed in Pc. pose proof (mle_learned_near src sk o' n m v a t p s W EV G Sk HE PO EVs Hn Hv Pos N1 N2). congruence.
Qed.
Print Assumptions C114_mle_converges.

(** With the network's own parents the limit is the network's own table. *)
Theorem C114_recovers_cpt : forall src sk M d o o' junk n m v a t, wfnet src -> nonneg_net src -> normalised src -> nodes_topological src -> denominator src M -> positions d ->
  bn_V src = map NInt (seq 0 m) -> good o' -> skeleton sk -> has_edge_lists sk -> parents_in_node_order sk -> bn_V sk = bn_V src -> nparents sk v = nparents src v ->
  0 < n -> In v (bn_V src) -> valid (ncard src) (v :: nparents src v) a -> (0 < t)%Qc -> (0 < prob_of src (match_on (nparents src v) a))%Qc ->
  let A := prob_of src (match_on (nparents src v) a) in
  let p := getq (cond_prob src v a) in
  (fraction (cells M n m)
     (fun c => learned_off (do rows <- random_sample o src (junk c) (draws M d c) n ;; mle_estimator o' sk (as_data m rows) None)
        v (fun w => NInt (a w)) (t + Q2Qc (51 # 10000000)) p)
   <= Q2Qc 4 * (1 + p * (1 - p) / (t * t)) / (nQc n * A))%Qc.
Proof.
  intros src sk M d o o' junk n m v a t W NN N Top Den D EV G Sk HE PO EVs EP Hn Hv Va Ht HA A p.
  assert (X := C114_mle_converges src sk M d o o' junk n m v a t W NN N Top Den D EV G Sk HE PO EVs Hn Hv Ht). cbn zeta in X. rewrite EP in X. specialize (X HA).
  rewrite (cpt_is_conditional src W N Top v a Hv Va) in X. fold A in X. fold p in X.
  assert (ANZ : A <> 0%Qc) by (intros Z; fold A in HA; rewrite Z in HA; discriminate).
  replace (p * A / A)%Qc with p in X by (field; assumption). exact X.
Qed.
Print Assumptions C114_recovers_cpt.

Lemma fraction_exists {A B} (l : list A) (P : B -> A -> bool) (qs : list B) : l <> [] -> (fraction l (fun c => existsb (fun q => P q c) qs) <= qsum (map (fun q => fraction l (P q)) qs))%Qc.
Proof.
  intros NE. induction qs as [|q qs IH].
  - cbn [existsb map qsum fold_right]. rewrite fraction_average, average_const by assumption. apply Qcle_refl.
  - cbn [map qsum fold_right]. eapply Qcle_trans; [apply (fraction_or l _ (P q) (fun c => existsb (fun q => P q c) qs) NE)|].
    + intros c _ H. cbn [existsb] in H. now apply orb_true_iff in H.
    + apply Qcplus_le_compat; [apply Qcle_refl|exact IH].
Qed.
Lemma archimedes (x : Qc) : exists k : nat, (x <= nQc k)%Qc.
Proof.
  exists (Z.to_nat (Z.abs (Qnum (this x)))). unfold Qcle, nQc. rewrite this_Q2Qc. unfold Qle, inject_Z. cbn [Qnum Qden]. rewrite Z2Nat.id by lia. nia.
Qed.
(** All entries at once: for every accuracy and every confidence there is a sample size from which
    on learning from a sample of the network gives back the network. *)
Theorem C114_recovers_network : forall src sk M d o o' junk m (qs : list (name * asg)) t delta, wfnet src -> nonneg_net src -> normalised src -> nodes_topological src -> denominator src M -> positions d ->
  bn_V src = map NInt (seq 0 m) -> good o' -> skeleton sk -> has_edge_lists sk -> parents_in_node_order sk -> bn_V sk = bn_V src ->
  (forall v, In v (bn_V src) -> nparents sk v = nparents src v) ->
  (forall v a, In (v, a) qs -> In v (bn_V src) /\ valid (ncard src) (v :: nparents src v) a /\ (0 < prob_of src (match_on (nparents src v) a))%Qc) ->
  (0 < t)%Qc -> (0 < delta)%Qc ->
  exists n0, forall n, n0 <= n ->
  (fraction (cells M n m)
     (fun c => existsb (fun q => learned_off (do rows <- random_sample o src (junk c) (draws M d c) n ;; mle_estimator o' sk (as_data m rows) None)
        (fst q) (fun w => NInt (snd q w)) (t + Q2Qc (51 # 10000000)) (getq (cond_prob src (fst q) (snd q)))) qs)
   <= delta)%Qc.
Proof.
  intros src sk M d o o' junk m qs t delta W NN N Top Den D EV G Sk HE PO EVs EP HQ Ht Hd.
  set (C := fun q : name * asg => let A := prob_of src (match_on (nparents src (fst q)) (snd q)) in let p := getq (cond_prob src (fst q) (snd q)) in (Q2Qc 4 * (1 + p * (1 - p) / (t * t)) / A)%Qc).
  destruct (archimedes (qsum (map C qs) / delta)%Qc) as (k & Hk). exists (S k). intros n Ln. assert (Hn : 0 < n) by lia.
  assert (Lm : length (bn_V src) = m) by (rewrite EV, map_length, seq_length; reflexivity).
  assert (NE : cells M n m <> []) by (rewrite <- Lm; now apply cells_ne).
  eapply Qcle_trans; [apply (fraction_exists (cells M n m) _ qs NE)|].
  assert (NZ := nQc_nz n Hn). assert (Np := nQc_pos n Hn).
  apply (Qcle_trans _ (qsum (map (fun q => / nQc n * C q) qs))%Qc).
  - apply qsum_le. intros [v a] Hq. destruct (HQ v a Hq) as (Hv & Va & HA).
    assert (X := C114_recovers_cpt src sk M d o o' junk n m v a t W NN N Top Den D EV G Sk HE PO EVs (EP v Hv) Hn Hv Va Ht HA). cbn zeta in X.
    eapply Qcle_trans; [exact X|]. unfold C. cbn [fst snd].
    assert (ANZ : prob_of src (match_on (nparents src v) a) <> 0%Qc) by (intros Z; rewrite Z in HA; discriminate).
    match goal with |- (?x <= ?y)%Qc => replace x with y; [apply Qcle_refl|] end. field. repeat split; auto. intros Z. rewrite Z in Ht. discriminate.
  - rewrite qsum_map_mult_l. assert (DNZ : delta <> 0%Qc) by (intros Z; rewrite Z in Hd; discriminate).
    assert (E : (qsum (map C qs) / delta * delta = qsum (map C qs))%Qc) by (field; assumption).
    assert (Ln' := nQc_le k n ltac:(lia)). rewrite <- E.
    assert (Lq : (qsum (map C qs) / delta <= nQc n)%Qc) by (eapply Qcle_trans; eassumption).
    assert (F : (qsum (map C qs) / delta / nQc n <= nQc n / nQc n)%Qc) by (now apply div_le).
    replace (nQc n / nQc n)%Qc with 1%Qc in F by (field; assumption). unfold Qcdiv in F. rewrite Qcmult_comm in F. fold (qsum (map C qs) / delta)%Qc in F. rewrite Qcmult_assoc.
    revert F Hd. generalize (/ nQc n * (qsum (map C qs) / delta))%Qc. intros; qcnra.
Qed.
Print Assumptions C114_recovers_network.

(** ** a concrete network: node 0 fair, node 1 copies it with probability 3/4 *)
Definition exCopy : bayesnet := mkBN [NInt 0; NInt 1] [(NInt 0, [NInt 1]); (NInt 1, [])]
  [(NInt 0, mkF [] [nm "n"; nm "y"] [qq 1 2; qq 1 2]); (NInt 1, mkF [NInt 0] [nm "n"; nm "y"] [qq 3 4; qq 1 4; qq 1 4; qq 3 4])].
Lemma exCopy_wf : wfnet exCopy. Proof. apply wfnetb_ok. vm_compute. reflexivity. Qed.
Example C114_nonvacuous : wfnet exCopy /\ nonneg_net exCopy /\ normalised exCopy /\ nodes_topological exCopy /\ denominator exCopy 4 /\ positions (fun _ _ => 0%Qc) /\
  bn_V exCopy = map NInt (seq 0 2) /\ good id_oracle /\ skeleton exCopy /\ has_edge_lists exCopy /\ parents_in_node_order exCopy /\
  In (NInt 1) (bn_V exCopy) /\ valid (ncard exCopy) (NInt 1 :: nparents exCopy (NInt 1)) (fun _ => 1) /\ (0 < prob_of exCopy (match_on (nparents exCopy (NInt 1)) (fun _ => 1%nat)))%Qc /\
  learned_off (do rows <- random_sample id_oracle exCopy (fun _ _ => 0%Z) (draws 4 (fun _ _ => 0%Qc) [[0;0];[2;1];[3;2];[1;3];[2;0]]) 5 ;; mle_estimator id_oracle exCopy (as_data 2 rows) None)
    (NInt 1) (fun _ => NInt 1) (qq 1 8) (qq 3 4) = false.
Proof.
  split; [apply exCopy_wf|]. split; [|split; [|split; [|split; [|split; [|split; [|split; [|split; [|split; [|split; [|split; [|split; [|split]]]]]]]]]]]].
  - intros v x [<-|[<-|[]]] Hx; cbn in Hx; repeat (destruct Hx as [<-|Hx]; [discriminate|]); destruct Hx.
  - intros v a [<-|[<-|[]]] V.
    + apply Qc_is_canon. vm_compute. reflexivity.
    + assert (L := V (NInt 0) (or_introl eq_refl)). cbn in L. unfold cond_prob. cbn [nparents exCopy bn_F dget]. 
      change (nparents exCopy (NInt 1)) with [NInt 0]. change (ncpt exCopy (NInt 1)) with [qq 3 4; qq 1 4; qq 1 4; qq 3 4]. change (ncard exCopy (NInt 1)) with 2. cbn [radix seq map]. rewrite !upd_same. rewrite !upd_other by discriminate.
      change (ncard exCopy (NInt 1)) with 2. destruct (a (NInt 0)) as [|[|x]]; [| |lia]; apply Qc_is_canon; vm_compute; reflexivity.
  - intros p v q E x Hx. destruct p as [|p0 p]; [injection E as <- _; destruct Hx|]. destruct p as [|p1 p]; [|destruct p; discriminate].
    injection E as <- <- _. destruct Hx as [<-|[]]. now left.
  - split; [lia|]. intros v p Hv Hp.
    assert (G : forallb (fun v => forallb (fun p => if in_dec Qc_eq_dec p (map (fun z => (nQc z / nQc 4)%Qc) (seq 0 5)) then true else false) (ncpt exCopy v)) (bn_V exCopy) = true) by (vm_compute; reflexivity).
    rewrite forallb_forall in G. specialize (G v Hv). rewrite forallb_forall in G. specialize (G p Hp).
    destruct (in_dec _ _ _) as [I|]; [|discriminate]. apply in_map_iff in I as (z & E & _). exists z. symmetry. exact E.
  - intros i j; split; [discriminate|reflexivity].
  - reflexivity.
  - apply good_id.
  - constructor; [apply (wn_V _ exCopy_wf)|apply (wn_F _ exCopy_wf)|apply (wn_scope _ exCopy_wf)|apply (wn_par _ exCopy_wf)].
  - intros v [<-|[<-|[]]]; eexists; reflexivity.
  - intros v [<-|[<-|[]]]; reflexivity.
  - right. now left.
  - intros w [<-|[<-|[]]]; vm_compute; lia.
  - vm_compute. reflexivity.
  - vm_compute. reflexivity.
Qed.
