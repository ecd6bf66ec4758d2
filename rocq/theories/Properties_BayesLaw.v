(** Properties_BayesLaw.v -- theorem C141: learning with bayes_estimator from a network's own samples.
    Specification: SpecLaw.v (cells, draws, fraction), SpecLearnLaw.v (as_data, learned_prob, learned_off, match_on), SpecLearnInfer.v (by_number, answer_off, map_off). *)
From Verif Require Import Py Num BayesNet Factor SpecFactor Radix SpecInference VE VETotal SpecSample Sampling SampleFacts SampleMain SampleLaws SumOver Graph Data SpecLearn ParamLearn ParamFacts ParamMain
  SpecLaw LawFacts GraphCheck Mst Rounding Factorization Examples Properties_Sample LawMain LawUse SpecLearnLaw Properties_Learn Properties_Law LearnLaw FactorOut Properties_Inference Properties_LearnLaw SpecSens Sens Properties_Sens SpecLearnInfer LearnInfer Properties_LearnInfer Properties_Bayes DiscFacts.
From Coq Require Import Relations.
Open Scope nat_scope.

(** the two estimators agree within [eps] (and rounding) on table entries with at least [D0] rows *)
Definition agree_from (e eps : Qc) (D0 : nat) : Prop := forall o o' bn t n b1 b2, good o -> good o' -> skeleton bn -> has_edge_lists bn -> parents_in_node_order bn ->
  table_ok t -> t_rows t <> [] -> bn_V bn = map NInt (seq 0 n) -> n <= t_ncols t ->
  mle_estimator o bn t None = Ok b1 -> bayes_estimator o' bn t (Some e) None = Ok b2 ->
  forall v a, In v (bn_V bn) -> valid (ncard b1) (v :: nparents b1 v) a -> D0 <= rows_with t (config (nvalues b1) (nparents b1 v) a) ->
  exists p1 p2, cond_prob b1 v a = Some p1 /\ cond_prob b2 v a = Some p2 /\ within (eps + Q2Qc (101 # 10000000)) p1 p2.

Lemma learned_prob_near sk T m e eps D0 o' b1 b2 v a : agree_from e eps D0 -> good o' -> skeleton sk -> has_edge_lists sk -> parents_in_node_order sk -> table_ok T -> t_rows T <> [] ->
  bn_V sk = map NInt (seq 0 m) -> m <= t_ncols T -> (0 < e)%Qc -> (0 < eps)%Qc -> mle_estimator o' sk T None = Ok b1 -> bayes_estimator o' sk T (Some e) None = Ok b2 -> In v (bn_V sk) ->
  D0 <= rows_with T (map (fun w => (w, NInt (a w))) (nparents sk v)) ->
  within (eps + Q2Qc (101 # 10000000)) (learned_prob b1 v (fun w => NInt (a w))) (learned_prob b2 v (fun w => NInt (a w))).
Proof.
  intros H G Sk HE PO TO NR EV Lc He Heps E1 E2 Hv HD.
  destruct (C131_difference o' o' sk T m (Some e) G G Sk HE PO TO NR EV Lc He) as (c1 & c2 & F1 & F2 & W1 & W2 & V1 & V2 & Same & _).
  assert (c1 = b1) by congruence. assert (c2 = b2) by congruence. subst c1 c2.
  destruct (Same v Hv) as (_ & P2 & P1 & _). unfold learned_prob. rewrite P2, P1.
  assert (Iv : forall w, In w (v :: nparents sk v) -> In w (bn_V sk)). { intros w [<-|Hw]; [exact Hv|]. now apply (sk_par _ Sk v Hv). }
  assert (EQ : forallb (fun w => mem (NInt (a w)) (nvalues b2 w)) (v :: nparents sk v) = forallb (fun w => mem (NInt (a w)) (nvalues b1 w)) (v :: nparents sk v)).
  { apply forallb_congr. intros w Hw. now rewrite (proj1 (Same w (Iv w Hw))). }
  rewrite EQ. assert (Pe : (0 <= eps + Q2Qc (101 # 10000000))%Qc). { assert (X : (0 < Q2Qc (101 # 10000000))%Qc) by reflexivity. revert X. generalize (Q2Qc (101 # 10000000)). intros; qclra. }
  destruct (forallb (fun w => mem (NInt (a w)) (nvalues b1 w)) (v :: nparents sk v)) eqn:All.
  2:{ unfold within. revert Pe. generalize (eps + Q2Qc (101 # 10000000))%Qc. intros; split; qclra. }
  rewrite forallb_forall in All.
  set (a1 := fun w => match index_of (NInt (a w)) (nvalues b1 w) with Some i => i | None => 0 end).
  replace (cond_prob b2 v (fun w => match index_of (NInt (a w)) (nvalues b2 w) with Some i => i | None => 0 end)) with (cond_prob b2 v a1).
  2:{ apply cond_prob_ext. intros w Hw. rewrite P2, P1 in Hw. unfold a1. now rewrite (proj1 (Same w (Iv w Hw))). }
  assert (Ka : forall w, In w (v :: nparents sk v) -> a1 w < ncard b1 w /\ nth (a1 w) (nvalues b1 w) (NInt 0) = NInt (a w)).
  { intros w Hw. specialize (All w Hw). apply mem_In in All. unfold a1. destruct (index_of_In _ _ All) as [i Ei]. rewrite Ei. split; [rewrite nvalues_card; now apply (index_of_lt _ _ _ Ei)|].
    apply index_of_Some in Ei. now apply nth_error_nth. }
  destruct (H o' o' sk T m b1 b2 G G Sk HE PO TO NR EV Lc E1 E2 v a1 Hv) as (p1 & p2 & C1 & C2 & B).
  - rewrite P1. intros w Hw. now apply Ka.
  - rewrite P1. replace (config (nvalues b1) (nparents sk v) a1) with (map (fun w => (w, NInt (a w))) (nparents sk v)); [exact HD|].
    apply map_ext_in. intros w Hw. f_equal. symmetry. apply Ka. now right.
  - rewrite C1, C2. exact B.
Qed.

Lemma bayes_learned_near src sk o' n m v a t p e eps D0 (s : nat -> asg) : agree_from e eps D0 -> wfnet src -> bn_V src = map NInt (seq 0 m) -> good o' -> skeleton sk -> has_edge_lists sk -> parents_in_node_order sk -> bn_V sk = bn_V src ->
  0 < n -> In v (bn_V src) -> (0 < e)%Qc -> (0 < eps)%Qc -> 0 < count_rows s n (match_on (nparents sk v) a) -> D0 <= count_rows s n (match_on (nparents sk v) a) ->
  (nQc (count_rows s n (match_on (v :: nparents sk v) a)) / nQc (count_rows s n (match_on (nparents sk v) a)) - p < t)%Qc ->
  (p - nQc (count_rows s n (match_on (v :: nparents sk v) a)) / nQc (count_rows s n (match_on (nparents sk v) a)) < t)%Qc ->
  learned_off (bayes_estimator o' sk (as_data m (map (fun i => map (fun v => Z.of_nat (s i v)) (bn_V src)) (seq 0 n))) (Some e) None) v (fun w => NInt (a w)) (t + eps + Q2Qc (152 # 10000000)) p = false.
Proof.
  intros H W EV G Sk HE PO EVs Hn Hv He Heps Pos HD N1 N2.
  assert (Near := mle_learned_near src sk o' n m v a t p s W EV G Sk HE PO EVs Hn Hv Pos N1 N2).
  assert (Lm : length (bn_V src) = m) by (rewrite EV, map_length, seq_length; reflexivity).
  assert (Ip : incl (nparents sk v) (bn_V src)) by (rewrite <- EVs; apply (sk_par _ Sk); now rewrite EVs).
  assert (R0 := rows_with_data src m n s (nparents sk v) a EV Ip).
  set (T := as_data m (map (fun i => map (fun v => Z.of_nat (s i v)) (bn_V src)) (seq 0 n))) in *.
  assert (Tr : t_rows T = map (fun i => map (fun v => NInt (s i v)) (bn_V src)) (seq 0 n)) by (apply (as_data_rows src n s m EV)).
  assert (TO : table_ok T). { intros r Hr. rewrite Tr in Hr. apply in_map_iff in Hr as (i & <- & _). rewrite map_length. exact Lm. }
  assert (NR : t_rows T <> []) by (rewrite Tr; destruct n; [lia|discriminate]).
  assert (EVk : bn_V sk = map NInt (seq 0 m)) by congruence.
  destruct (C131_difference o' o' sk T m (Some e) G G Sk HE PO TO NR EVk (le_n _) He) as (b1 & b2 & E1 & E2 & _).
  assert (B := learned_prob_near sk T m e eps D0 o' b1 b2 v a H G Sk HE PO TO NR EVk (le_n _) He Heps E1 E2 ltac:(now rewrite EVs) ltac:(now rewrite R0)).
  rewrite E1 in Near. rewrite E2. cbn [learned_off] in *. apply off_false in Near as [A1 A2]. destruct B as [B1 B2].
  assert (S : (Q2Qc (152 # 10000000) = Q2Qc (51 # 10000000) + Q2Qc (101 # 10000000))%Qc) by (apply Qc_is_canon; reflexivity). rewrite S.
  revert A1 A2 B1 B2. generalize (learned_prob b1 v (fun w => NInt (a w))) (learned_prob b2 v (fun w => NInt (a w))) (Q2Qc (51 # 10000000)) (Q2Qc (101 # 10000000)). intros x y c d A1 A2 B1 B2.
  apply off_true; qclra.
Qed.

(** One entry: with a fixed equivalent sample size the learned entry converges to the conditional probability in the sampled network, whatever the
    structure [sk]; the bound is the one of C114 for accuracy t/2. *)
Theorem C141_bayes_converges : forall src sk M d o o' junk m v a t e, wfnet src -> nonneg_net src -> normalised src -> nodes_topological src -> denominator src M -> positions d ->
  bn_V src = map NInt (seq 0 m) -> good o' -> skeleton sk -> has_edge_lists sk -> parents_in_node_order sk -> bn_V sk = bn_V src ->
  In v (bn_V src) -> (0 < t)%Qc -> (0 < e)%Qc -> (0 < prob_of src (match_on (nparents sk v) a))%Qc ->
  let A := prob_of src (match_on (nparents sk v) a) in
  let p := (prob_of src (match_on (v :: nparents sk v) a) / A)%Qc in
  exists n0, forall n, n0 <= n ->
  (fraction (cells M n m)
     (fun c => learned_off (do rows <- random_sample o src (junk c) (draws M d c) n ;; bayes_estimator o' sk (as_data m rows) (Some e) None)
        v (fun w => NInt (a w)) (t + Q2Qc (152 # 10000000)) p)
   <= Q2Qc 4 * (1 + Q2Qc 4 * (p * (1 - p)) / (t * t)) / (nQc n * A))%Qc.
Proof.
  intros src sk M d o o' junk m v a t e W NN N Top Den D EV G Sk HE PO EVs Hv Ht He HA A p.
  assert (ANZ : A <> 0%Qc) by (intros Z; fold A in HA; rewrite Z in HA; discriminate).
  assert (TNZ : t <> 0%Qc) by (intros Z; rewrite Z in Ht; discriminate).
  set (h := (t / Q2Qc 2)%Qc). assert (H2 : (h * Q2Qc 2 = t)%Qc) by (unfold h; field; discriminate).
  assert (T2 : (Q2Qc 2 = 1 + 1)%Qc) by (apply Qc_is_canon; reflexivity).
  assert (Hh : (0 < h)%Qc). { rewrite T2 in H2. rewrite <- H2 in Ht. revert Ht. replace (h * (1 + 1))%Qc with (h + h)%Qc by ring. generalize h. intros; qclra. }
  destruct (C131_fixed_converges e h He Hh) as (D0 & HD0). change (agree_from e h D0) in HD0.
  destruct (archimedes (nQc D0 * Q2Qc 2 / A)%Qc) as (k & Hk). exists (S k). intros n Ln. assert (Hn : 0 < n) by lia.
  assert (Hvs : In v (bn_V sk)) by (now rewrite EVs).
  assert (Ip : incl (nparents sk v) (bn_V src)) by (rewrite <- EVs; now apply (sk_par _ Sk)).
  assert (Iv : incl (v :: nparents sk v) (bn_V src)) by (intros w [<-|Hw]; auto).
  assert (Lm : length (bn_V src) = m) by (rewrite EV, map_length, seq_length; reflexivity). rewrite <- Lm at 1.
  replace (Q2Qc 4 * (1 + Q2Qc 4 * (p * (1 - p)) / (t * t)) / (nQc n * A))%Qc with (Q2Qc 4 * (1 + p * (1 - p) / (h * h)) / (nQc n * A))%Qc.
  2:{ unfold h. replace (Q2Qc 4) with (Q2Qc 2 * Q2Qc 2)%Qc by (apply Qc_is_canon; reflexivity). field. repeat split; auto; try discriminate. now apply nQc_nz. }
  apply (ratio_law src M d n (match_on (v :: nparents sk v) a) (match_on (nparents sk v) a) h); auto.
  - intros b b' X. apply match_on_ext. auto.
  - intros b b' X. apply match_on_ext. auto.
  - intros b Hb. unfold match_on in *. cbn [forallb] in Hb. apply andb_true_iff in Hb. tauto.
  - intros c Hc Pc s Hs Pos Many [N1 N2].
    destruct (random_ok src o (junk c) (draws M d c) n (sm src W NN N) Top (draws_unit src M Den d D n c Hc)) as (s' & Hs' & Er). rewrite Er in Pc. cbn [bind] in Pc.
    assert (Es : forall i w, i < n -> In w (bn_V src) -> s' i w = s i w) by (intros i w Hi Hw; apply (ancestral_unique src (draws M d c i) (s' i) (s i) (sm src W NN N) Top); auto).
    assert (Ed : map (fun i => map (fun v => Z.of_nat (s' i v)) (bn_V src)) (seq 0 n) = map (fun i => map (fun v => Z.of_nat (s i v)) (bn_V src)) (seq 0 n)).
    { apply map_ext_in. intros i Hi. apply in_seq in Hi. apply map_ext_in. intros w Hw. rewrite Es by (auto; lia). reflexivity. }
    rewrite Ed in Pc.
    assert (HD : D0 <= count_rows s n (match_on (nparents sk v) a)).
    { fold A in Many. destruct (le_lt_dec D0 (count_rows s n (match_on (nparents sk v) a))) as [L|L]; [exact L|exfalso].
      assert (L1 := nQc_lt _ _ L). assert (L2 : (nQc k <= nQc n)%Qc) by (apply nQc_le; lia). fold A in HA.
      assert (E : (nQc D0 * Q2Qc 2 / A * A = nQc D0 * Q2Qc 2)%Qc) by (field; assumption).
      assert (X : (nQc D0 * Q2Qc 2 / A * A <= nQc n * A)%Qc) by (apply Qcmult_le_compat_r; [eapply Qcle_trans; eassumption|now apply Qclt_le_weak]). rewrite E in X.
      rewrite T2 in X, Many. revert Many X L1. generalize (nQc n * A)%Qc (nQc D0) (nQc (count_rows s n (match_on (nparents sk v) a))). intros x y z Many X L1.
      replace (z * (1 + 1))%Qc with (z + z)%Qc in Many by ring. replace (y * (1 + 1))%Qc with (y + y)%Qc in X by ring. qclra. }
    pose proof (bayes_learned_near src sk o' n m v a h p e h D0 s HD0 W EV G Sk HE PO EVs Hn Hv He Hh Pos HD N1 N2) as X.
    replace (h + h)%Qc with t in X by (rewrite <- H2, T2; ring). congruence.
Qed.
Print Assumptions C141_bayes_converges.

Lemma common_start {B} (P : B -> nat -> Prop) (qs : list B) : (forall q, In q qs -> exists n0, forall n, n0 <= n -> P q n) -> exists n0, forall n, n0 <= n -> forall q, In q qs -> P q n.
Proof.
  induction qs as [|q qs IH]; intros H; [exists 0; intros n _ q []|].
  destruct (H q (or_introl eq_refl)) as (a & Ha). destruct IH as (b & Hb); [intros r Hr; apply H; now right|].
  exists (Nat.max a b). intros n Hn r [<-|Hr]; [apply Ha; lia|]. apply Hb; [lia|exact Hr].
Qed.
(** With the network's own parents, all entries at once. *)
Theorem C141_recovers_network : forall src sk M d o o' junk m (qs : list (name * asg)) t e delta, wfnet src -> nonneg_net src -> normalised src -> nodes_topological src -> denominator src M -> positions d ->
  bn_V src = map NInt (seq 0 m) -> good o' -> skeleton sk -> has_edge_lists sk -> parents_in_node_order sk -> bn_V sk = bn_V src ->
  (forall v, In v (bn_V src) -> nparents sk v = nparents src v) ->
  (forall v a, In (v, a) qs -> In v (bn_V src) /\ valid (ncard src) (v :: nparents src v) a /\ (0 < prob_of src (match_on (nparents src v) a))%Qc) ->
  (0 < t)%Qc -> (0 < e)%Qc -> (0 < delta)%Qc ->
  exists n0, forall n, n0 <= n ->
  (fraction (cells M n m)
     (fun c => existsb (fun q => learned_off (do rows <- random_sample o src (junk c) (draws M d c) n ;; bayes_estimator o' sk (as_data m rows) (Some e) None)
        (fst q) (fun w => NInt (snd q w)) (t + Q2Qc (152 # 10000000)) (getq (cond_prob src (fst q) (snd q)))) qs)
   <= delta)%Qc.
Proof.
  intros src sk M d o o' junk m qs t e delta W NN N Top Den D EV G Sk HE PO EVs EP HQ Ht He Hd.
  set (C := fun q : name * asg => let A := prob_of src (match_on (nparents src (fst q)) (snd q)) in let p := getq (cond_prob src (fst q) (snd q)) in (Q2Qc 4 * (1 + Q2Qc 4 * (p * (1 - p)) / (t * t)) / A)%Qc).
  destruct (common_start (fun q n => (fraction (cells M n m) (fun c => learned_off (do rows <- random_sample o src (junk c) (draws M d c) n ;; bayes_estimator o' sk (as_data m rows) (Some e) None)
        (fst q) (fun w => NInt (snd q w)) (t + Q2Qc (152 # 10000000)) (getq (cond_prob src (fst q) (snd q)))) <=
      Q2Qc 4 * (1 + Q2Qc 4 * (getq (cond_prob src (fst q) (snd q)) * (1 - getq (cond_prob src (fst q) (snd q)))) / (t * t)) / (nQc n * prob_of src (match_on (nparents src (fst q)) (snd q))))%Qc) qs) as (n1 & H1).
  { intros [v a] Hq. cbn [fst snd]. destruct (HQ v a Hq) as (Hv & Va & HA).
    assert (X := C141_bayes_converges src sk M d o o' junk m v a t e W NN N Top Den D EV G Sk HE PO EVs Hv Ht He). cbn zeta in X. rewrite (EP v Hv) in X. specialize (X HA).
    rewrite (cpt_is_conditional src W N Top v a Hv Va) in X.
    assert (ANZ : prob_of src (match_on (nparents src v) a) <> 0%Qc) by (intros Z; rewrite Z in HA; discriminate).
    replace (getq (cond_prob src v a) * prob_of src (match_on (nparents src v) a) / prob_of src (match_on (nparents src v) a))%Qc with (getq (cond_prob src v a)) in X by (field; assumption). exact X. }
  destruct (archimedes (qsum (map C qs) / delta)%Qc) as (k & Hk). exists (Nat.max n1 (S k)). intros n Ln. assert (Hn : 0 < n) by lia. specialize (H1 n ltac:(lia)).
  assert (Lm : length (bn_V src) = m) by (rewrite EV, map_length, seq_length; reflexivity).
  assert (NE : cells M n m <> []) by (rewrite <- Lm; now apply cells_ne).
  eapply Qcle_trans; [apply (fraction_exists (cells M n m) _ qs NE)|].
  assert (NZ := nQc_nz n Hn). assert (Np := nQc_pos n Hn).
  apply (Qcle_trans _ (qsum (map (fun q => / nQc n * C q) qs))%Qc).
  - apply qsum_le. intros [v a] Hq. destruct (HQ v a Hq) as (Hv & Va & HA). specialize (H1 (v, a) Hq). eapply Qcle_trans; [exact H1|]. unfold C. cbn [fst snd].
    assert (ANZ : prob_of src (match_on (nparents src v) a) <> 0%Qc) by (intros Z; rewrite Z in HA; discriminate).
    match goal with |- (?x <= ?y)%Qc => replace x with y; [apply Qcle_refl|] end. field. repeat split; auto. intros Z. rewrite Z in Ht. discriminate.
  - rewrite qsum_map_mult_l. assert (DNZ : delta <> 0%Qc) by (intros Z; rewrite Z in Hd; discriminate).
    assert (E : (qsum (map C qs) / delta * delta = qsum (map C qs))%Qc) by (field; assumption).
    assert (Ln' := nQc_le k n ltac:(lia)). rewrite <- E.
    assert (Lq : (qsum (map C qs) / delta <= nQc n)%Qc) by (eapply Qcle_trans; eassumption).
    assert (F : (qsum (map C qs) / delta / nQc n <= nQc n / nQc n)%Qc) by (now apply div_le).
    replace (nQc n / nQc n)%Qc with 1%Qc in F by (field; assumption). unfold Qcdiv in F. rewrite Qcmult_comm in F. fold (qsum (map C qs) / delta)%Qc in F. rewrite Qcmult_assoc.
    revert F Hd. generalize (/ nQc n * (qsum (map C qs) / delta))%Qc. intros; qcnra.
Qed.
Print Assumptions C141_recovers_network.

Lemma bayes_nonneg T e bn : table_ok T -> wfnet bn -> (forall i, In (NInt i) (bn_V bn) -> i < t_ncols T) -> (0 < e)%Qc -> bayes_fit T e bn -> nonneg_net bn.
Proof.
  intros TO W Hi He F v x Hv Hx. destruct (In_nth_error _ _ Hx) as (i & Ei).
  assert (L : i < size (ncard bn) (v :: nparents bn v)). { unfold size. rewrite <- (wn_cpt _ W v Hv). apply nth_error_Some. congruence. }
  destruct (digits_ok (ncard bn) (v :: nparents bn v) i (wn_scope _ W v Hv) L) as [V E].
  destruct (C43_positive_normalised T e bn v _ TO W Hi He F Hv V) as [P _]. destruct F as [_ F]. specialize (F v _ Hv V). unfold cond_prob in F. rewrite E, Ei in F. injection F as ->.
  apply py_round_nonneg. now apply Qclt_le_weak.
Qed.
(** from some sample size on, all but a fraction [delta] of the runs give a network close to the sampled one *)
Lemma good_bayes_network src sk M d o o' junk m t e delta : wfnet src -> nonneg_net src -> normalised src -> nodes_topological src -> denominator src M -> positions d ->
  bn_V src = map NInt (seq 0 m) -> good o' -> skeleton sk -> has_edge_lists sk -> parents_in_node_order sk -> bn_V sk = bn_V src ->
  (forall v, In v (bn_V src) -> nparents sk v = nparents src v) ->
  (0 < t)%Qc -> (0 < e)%Qc -> (0 < delta)%Qc -> entries_at_least src (t + Q2Qc (152 # 10000000)) ->
  exists n0, forall n, n0 <= n -> exists bad, (fraction (cells M n m) bad <= delta)%Qc /\ forall c, In c (cells M n m) -> bad c = false ->
    exists rows bn', random_sample o src (junk c) (draws M d c) n = Ok rows /\ bayes_estimator o' sk (as_data m rows) (Some e) None = Ok bn' /\
    wfnet bn' /\ same_frame src bn' /\ nonneg_net bn' /\ cells_within src bn' (t + Q2Qc (152 # 10000000)) /\ forall v, In v (bn_V src) -> nvalues bn' v = map NInt (seq 0 (ncard src v)).
Proof.
  intros W NN N Top Den D EV G Sk HE PO EVs EP Ht He Hd Big.
  set (ac := (t + Q2Qc (152 # 10000000))%Qc) in *.
  assert (Ha : (0 < ac)%Qc). { unfold ac. apply pos_shift; [now apply Qclt_le_weak|reflexivity]. }
  set (qs := flat_map (fun v => map (pair v) (all_asg (ncard src) (v :: nparents src v))) (bn_V src)).
  destruct (C141_recovers_network src sk M d o o' junk m qs t e delta W NN N Top Den D EV G Sk HE PO EVs EP) as (n0 & H); auto.
  { intros v a Hq. unfold qs in Hq. apply in_flat_map in Hq as (w & Hw & Hq). apply in_map_iff in Hq as (a' & E & Ia). inversion E; subst. split; [assumption|].
    assert (Va := all_asg_valid _ _ _ Ia). split; [assumption|]. now apply (all_reachable src ac). }
  exists (S n0). intros n Ln. eexists. split; [apply H; lia|]. intros c Hc Bc. cbn beta in Bc.
  assert (U := draws_unit src M Den d D n c). assert (Lm : length (bn_V src) = m) by (rewrite EV, map_length, seq_length; reflexivity). rewrite Lm in U. specialize (U Hc).
  destruct (random_ok src o (junk c) (draws M d c) n (sm src W NN N) Top U) as (s & Hs & Er). rewrite Er in *. cbn [bind] in Bc.
  set (T := as_data m (map (fun i => map (fun v => Z.of_nat (s i v)) (bn_V src)) (seq 0 n))) in *.
  assert (Tr : t_rows T = map (fun i => map (fun v => NInt (s i v)) (bn_V src)) (seq 0 n)) by (apply (as_data_rows src n s m EV)).
  assert (TO : table_ok T). { intros r Hr. rewrite Tr in Hr. apply in_map_iff in Hr as (i & <- & _). rewrite map_length. exact Lm. }
  assert (NR : t_rows T <> []) by (rewrite Tr; destruct n; [lia|discriminate]).
  destruct (C43_bayes_estimator o' sk T m (Some e) G Sk TO NR ltac:(congruence) (le_n _) He) as (bn' & Em & W' & V' & _ & P' & Fit). rewrite EVs in V', P'.
  assert (Par : forall v, In v (bn_V src) -> nparents bn' v = nparents src v) by (intros v Hv; now rewrite P', EP by assumption).
  destruct (good_frame src n m ac s bn') as (SF & CW & Vals); auto.
  - intros i Hi. now apply (ancestral_valid src (draws M d c i) (s i) (Hs i Hi)).
  - intros v Hv. apply (proj1 Fit). now rewrite V'.
  - intros v a Hv Va. destruct (all_asg_cover (ncard src) (v :: nparents src v) a Va) as (a' & Ia & Ea).
    assert (F : learned_off (bayes_estimator o' sk T (Some e) None) v (fun w => NInt (a' w)) ac (getq (cond_prob src v a')) = false).
    { apply not_true_is_false. intros X0. assert (X : existsb (fun q => learned_off (bayes_estimator o' sk T (Some e) None)
          (fst q) (fun w => NInt (snd q w)) ac (getq (cond_prob src (fst q) (snd q)))) qs = true).
      { apply existsb_exists. exists (v, a'). split; [|exact X0]. unfold qs. apply in_flat_map. exists v. split; [assumption|]. now apply in_map. }
      unfold ac in X. congruence. }
    replace (cond_prob src v a) with (cond_prob src v a') by (apply cond_prob_ext; assumption).
    assert (X := learned_off_ext (bayes_estimator o' sk T (Some e) None) v a a' ac (getq (cond_prob src v a'))). rewrite F in X. rewrite Em in X. cbn [learned_off] in X. apply X.
    intros bn E w Hw. injection E as <-. symmetry. apply Ea. now rewrite <- Par.
  - exists (map (fun i => map (fun v => Z.of_nat (s i v)) (bn_V src)) (seq 0 n)), bn'. split; [reflexivity|]. split; [exact Em|]. split; [exact W'|]. split; [exact SF|]. split; [|split; assumption].
    apply (bayes_nonneg T e bn' TO W'); auto. intros i Hi. rewrite V', EV in Hi. apply in_map_iff in Hi as (j & E & Hj). injection E as <-. apply in_seq in Hj. cbn. lia.
Qed.
(** sampling, Bayesian learning, then marginal_ve_e *)
Theorem C141_learn_then_infer : forall src sk M d o o' o'' junk m t e delta target ev,
  wfnet src -> nonneg_net src -> normalised src -> nodes_topological src -> denominator src M -> positions d ->
  bn_V src = map NInt (seq 0 m) -> good o' -> good o'' -> skeleton sk -> has_edge_lists sk -> parents_in_node_order sk -> bn_V sk = bn_V src ->
  (forall v, In v (bn_V src) -> nparents sk v = nparents src v) ->
  (0 < t)%Qc -> (0 < e)%Qc -> (0 < delta)%Qc -> entries_at_least src (t + Q2Qc (152 # 10000000)) ->
  In target (bn_V src) -> good_evidence src ev -> ~ In target (map fst ev) -> connected src (target :: map fst ev) ->
  exists n0, forall n, n0 <= n ->
  (fraction (cells M n m)
     (fun c => answer_off (do rows <- random_sample o src (junk c) (draws M d c) n ;;
                           do bn' <- bayes_estimator o' sk (as_data m rows) (Some e) None ;;
                           marginal_ve_e o'' bn' target (by_number src ev))
        (map (marginal src target ev) (seq 0 (ncard src target)))
        (qprod (map (fun v => 1 + nQc (ncard src v) * (t + Q2Qc (152 # 10000000))) (bn_V src)) - 1 + Q2Qc (1 # 20000)))
   <= delta)%Qc.
Proof.
  intros src sk M d o o' o'' junk m t e delta target ev W NN N Top Den D EV G G' Sk HE PO EVs EP Ht He Hd Big It GE Nt Con.
  destruct (good_bayes_network src sk M d o o' junk m t e delta) as (n0 & H); auto. exists n0. intros n Ln. destruct (H n Ln) as (bad & Hb & Good).
  assert (Lm : length (bn_V src) = m) by (rewrite EV, map_length, seq_length; reflexivity).
  assert (NE : cells M n m <> []) by (rewrite <- Lm; now apply cells_ne).
  eapply Qcle_trans; [|exact Hb]. rewrite !fraction_average. apply average_le; [assumption|]. intros c Hc. destruct (bad c) eqn:B.
  { destruct (answer_off _ _ _); discriminate. }
  destruct (Good c Hc B) as (rows & bn' & E1 & E2 & W' & SF & NN' & CW & Vals). rewrite E1. cbn [bind]. rewrite E2. cbn [bind].
  rewrite (good_answer src bn' (t + Q2Qc (152 # 10000000))%Qc o'' target ev) by assumption. apply Qcle_refl.
Qed.
Print Assumptions C141_learn_then_infer.
(** sampling, Bayesian learning, then ve_map *)
Theorem C141_learn_then_map : forall src sk M d o o' o'' junk m t e delta ev,
  wfnet src -> nonneg_net src -> normalised src -> nodes_topological src -> denominator src M -> positions d ->
  bn_V src = map NInt (seq 0 m) -> good o' -> good o'' -> skeleton sk -> has_edge_lists sk -> parents_in_node_order sk -> bn_V sk = bn_V src ->
  (forall v, In v (bn_V src) -> nparents sk v = nparents src v) ->
  (0 < t)%Qc -> (0 < e)%Qc -> (0 < delta)%Qc -> entries_at_least src (t + Q2Qc (152 # 10000000)) -> good_evidence src ev ->
  exists n0, forall n, n0 <= n -> forall bs, (forall b, In b bs -> valid (ncard src) (bn_V src) b /\ agrees src ev b = true) ->
  (fraction (cells M n m)
     (fun c => map_off src (do rows <- random_sample o src (junk c) (draws M d c) n ;;
                            do bn' <- bayes_estimator o' sk (as_data m rows) (Some e) None ;;
                            ve_map o'' bn' (by_number src ev)) bs
        ((1 + 1) * (qprod (map (fun v => 1 + nQc (ncard src v) * (t + Q2Qc (152 # 10000000))) (bn_V src)) - 1)))
   <= delta)%Qc.
Proof.
  intros src sk M d o o' o'' junk m t e delta ev W NN N Top Den D EV G G' Sk HE PO EVs EP Ht He Hd Big GE.
  destruct (good_bayes_network src sk M d o o' junk m t e delta) as (n0 & H); auto. exists n0. intros n Ln bs Hbs. destruct (H n Ln) as (bad & Hb & Good).
  assert (Lm : length (bn_V src) = m) by (rewrite EV, map_length, seq_length; reflexivity).
  assert (NE : cells M n m <> []) by (rewrite <- Lm; now apply cells_ne).
  eapply Qcle_trans; [|exact Hb]. rewrite !fraction_average. apply average_le; [assumption|]. intros c Hc. destruct (bad c) eqn:B.
  { destruct (map_off _ _ _ _); discriminate. }
  destruct (Good c Hc B) as (rows & bn' & E1 & E2 & W' & SF & NN' & CW & Vals). rewrite E1. cbn [bind]. rewrite E2. cbn [bind].
  rewrite (good_map src bn' (t + Q2Qc (152 # 10000000))%Qc o'' ev bs) by assumption. apply Qcle_refl.
Qed.
Print Assumptions C141_learn_then_map.

(** the hypotheses about [src] are those of C114 and C118 (C114_nonvacuous, C118_nonvacuous); one good and one bad run *)
Definition exFork_bayes (c : list (list nat)) : res (list Qc) :=
  do rows <- random_sample id_oracle exFork (fun _ _ => 0%Z) (draws 4 (fun _ _ => 0%Qc) c) (length c) ;;
  do bn' <- bayes_estimator id_oracle exFork (as_data 3 rows) (Some (nQc 1)) None ;; marginal_ve_e id_oracle bn' (NInt 1) (by_number exFork [(NInt 2, nm "y")]).
Example C141_nonvacuous : entries_at_least exFork (qq 1 10 + Q2Qc (152 # 10000000)) /\ (0 < nQc 1)%Qc /\
  answer_off (exFork_bayes [[0;0;0];[2;1;2];[3;2;3];[1;3;0];[2;0;2];[0;2;3]]) (map (marginal exFork (NInt 1) [(NInt 2, nm "y")]) (seq 0 2)) (qq 1 4) = false /\
  answer_off (exFork_bayes [[0;0;0]]) (map (marginal exFork (NInt 1) [(NInt 2, nm "y")]) (seq 0 2)) (qq 1 4) = true.
Proof.
  split; [|split; [reflexivity|split; vm_compute; reflexivity]].
  intros v x [<-|[<-|[<-|[]]]] Hx; cbn in Hx; repeat (destruct Hx as [<-|Hx]; [discriminate|]); destruct Hx.
Qed.
(** The default equivalent sample size (the number of rows) is not consistent: the table learned for a root [v] converges to the midpoint
    between the true probabilities and the uniform distribution. *)
Theorem C141_default_refuted : forall src sk M d o o' junk m t delta v a, wfnet src -> nonneg_net src -> normalised src -> nodes_topological src -> denominator src M -> positions d ->
  bn_V src = map NInt (seq 0 m) -> good o' -> skeleton sk -> has_edge_lists sk -> parents_in_node_order sk -> bn_V sk = bn_V src ->
  (forall v, In v (bn_V src) -> nparents sk v = nparents src v) ->
  (0 < t)%Qc -> (0 < delta)%Qc -> entries_at_least src (t + Q2Qc (51 # 10000000)) -> In v (bn_V src) -> nparents src v = [] -> a v < ncard src v ->
  exists n0, forall n, n0 <= n ->
  (fraction (cells M n m)
     (fun c => learned_off (do rows <- random_sample o src (junk c) (draws M d c) n ;; bayes_estimator o' sk (as_data m rows) None None)
        v (fun w => NInt (a w)) (t + Q2Qc (204 # 10000000)) ((getq (cond_prob src v a) + 1 / nQc (ncard src v)) / nQc 2))
   <= delta)%Qc.
Proof.
  intros src sk M d o o' junk m t delta v a0 W NN N Top Den D EV G Sk HE PO EVs EP Ht Hd Big Hv Root Va.
  destruct (good_network src sk M d o o' junk m t delta) as (n0 & H); auto. exists (S n0). intros n Ln. destruct (H n ltac:(lia)) as (bad & Hb & Good).
  assert (Lm : length (bn_V src) = m) by (rewrite EV, map_length, seq_length; reflexivity).
  assert (NE : cells M n m <> []) by (rewrite <- Lm; now apply cells_ne).
  eapply Qcle_trans; [|exact Hb]. rewrite !fraction_average. apply average_le; [assumption|]. intros c Hc. destruct (bad c) eqn:B.
  { destruct (learned_off _ _ _ _ _); discriminate. }
  destruct (Good c Hc B) as (rows & b1 & E1 & E2 & W1 & SF & NN1 & CW & Vals). rewrite E1. cbn [bind].
  match goal with |- ((if ?x then _ else _) <= _)%Qc => assert (F : x = false); [|rewrite F; apply Qcle_refl] end.
  set (T := as_data m rows) in *.
  assert (TT : table_ok T /\ t_rows T <> []).
  { assert (U := draws_unit src M Den d D n c). rewrite Lm in U. specialize (U Hc).
    destruct (random_ok src o (junk c) (draws M d c) n (sm src W NN N) Top U) as (s & Hs & Er). rewrite Er in E1. injection E1 as <-.
    assert (Tr : t_rows T = map (fun i => map (fun v => NInt (s i v)) (bn_V src)) (seq 0 n)) by (apply (as_data_rows src n s m EV)).
    split; [|rewrite Tr; destruct n; [lia|discriminate]]. intros r Hr. rewrite Tr in Hr. apply in_map_iff in Hr as (i & <- & _). rewrite map_length. exact Lm. }
  destruct TT as [TO NR]. assert (EVk : bn_V sk = map NInt (seq 0 m)) by congruence. assert (Hvk : In v (bn_V sk)) by now rewrite EVs.
  assert (Np : (0 < nQc (length (t_rows T)))%Qc) by (apply nQc_pos; destruct (t_rows T); [congruence|cbn [length]; lia]).
  destruct (C131_difference o' o' sk T m None G G Sk HE PO TO NR EVk (le_n _) Np) as (c1 & b2 & F1 & F2 & _ & _ & V1 & _ & Same & Diff).
  assert (c1 = b1) by congruence. subst c1. rewrite F2. cbn [learned_off].
  destruct (C41_mle_probabilities o' sk T m G Sk HE PO TO NR EVk (le_n _)) as (c1 & F1' & _ & _ & _ & _ & Fit). assert (c1 = b1) by congruence. subst c1.
  destruct (Same v Hvk) as (SV & P2 & P1 & _). rewrite EP, Root in P1 by assumption. rewrite P1 in P2.
  assert (Hv1 : In v (bn_V b1)) by (now rewrite V1).
  assert (Crd : ncard b1 v = ncard src v) by (rewrite nvalues_card, Vals, map_length, seq_length by assumption; reflexivity).
  set (a := fun w => if name_eqb w v then a0 v else 0).
  assert (Eav : a v = a0 v) by (unfold a; destruct (name_eqb_spec v v); congruence).
  assert (Val : valid (ncard b1) (v :: nparents b1 v) a). { rewrite P1. intros w [<-|[]]. rewrite Eav, Crd. exact Va. }
  assert (Vs : valid (ncard src) (bn_V src) a). { intros w Hw. unfold a. destruct (name_eqb_spec w v) as [->|]; [exact Va|]. now apply (valid_zero src W). }
  assert (Rows : rows_with T (config (nvalues b1) (nparents b1 v) a) = length (t_rows T)) by (rewrite P1; apply rows_nil).
  assert (Pos : 0 < rows_with T (config (nvalues b1) (nparents b1 v) a)) by (rewrite Rows; destruct (t_rows T); [congruence|cbn [length]; lia]).
  destruct (Diff v a Hvk Val Pos) as (p1 & p2 & C1 & C2 & [B1 B2]).
  destruct (C41_close_to_frequency T b1 v a Fit Hv1 Val Pos) as (p1' & C1' & A1 & A2). assert (p1' = p1) by congruence. subst p1'. fold (rel_freq T b1 v a) in A1, A2.
  assert (Wt := proj2 (C131_default_weight T b1 v a W1 Hv1 NR) P1). rewrite Wt in B1, B2.
  assert (Cw := CW v a Hv Vs). unfold gap in Cw. rewrite C1 in Cw. cbn [getq] in Cw. apply qabs_le in Cw as [G1 G2].
  assert (EL : learned_prob b2 v (fun w => NInt (a0 w)) = p2).
  { unfold learned_prob. rewrite P2. cbn [forallb]. rewrite SV, Vals by assumption.
    replace (mem (NInt (a0 v)) (map NInt (seq 0 (ncard src v)))) with true by (symmetry; apply mem_In, in_map, in_seq; lia). cbn [andb].
    replace (cond_prob b2 v _) with (cond_prob b2 v a); [now rewrite C2|]. apply cond_prob_ext. intros w Hw. rewrite P2 in Hw. destruct Hw as [<-|[]]. rewrite Eav, SV, Vals by assumption. now rewrite index_number by lia. }
  rewrite EL. replace (cond_prob src v a0) with (cond_prob src v a). 2:{ apply cond_prob_ext. intros w Hw. rewrite Root in Hw. destruct Hw as [<-|[]]. exact Eav. }
  rewrite Crd in B1, B2. assert (Q2 : (nQc 2 = 1 + 1)%Qc) by (apply Qc_is_canon; reflexivity).
  set (z := ((getq (cond_prob src v a) + 1 / nQc (ncard src v)) / nQc 2)%Qc). assert (Ez : (z + z = getq (cond_prob src v a) + 1 / nQc (ncard src v))%Qc).
  { replace (z + z)%Qc with (z * nQc 2)%Qc by (rewrite Q2; ring). unfold z. field. split; apply nQc_nz; lia. }
  set (y := (1 / nQc 2 * (1 / nQc (ncard src v) - rel_freq T b1 v a))%Qc) in *. assert (Ey : (y + y = 1 / nQc (ncard src v) - rel_freq T b1 v a)%Qc).
  { replace (y + y)%Qc with (y * nQc 2)%Qc by (rewrite Q2; ring). unfold y. generalize (rel_freq T b1 v a). intros f. field. split; apply nQc_nz; lia. }
  assert (K : (Q2Qc (204 # 10000000) = Q2Qc (101 # 10000000) + Q2Qc (51 # 10000000) + Q2Qc (51 # 10000000) + Q2Qc (1 # 10000000))%Qc) by (apply Qc_is_canon; reflexivity). rewrite K.
  assert (K1 : (0 < Q2Qc (1 # 10000000))%Qc) by reflexivity. assert (K5 : (0 < Q2Qc (51 # 10000000))%Qc) by reflexivity.
  clearbody y z. revert A1 A2 B1 B2 G1 G2 Ez Ey K1 K5. clear -Ht. generalize (Q2Qc (101 # 10000000)) (Q2Qc (51 # 10000000)) (Q2Qc (1 # 10000000)) (1 / nQc (ncard src v))%Qc (rel_freq T b1 v a) (getq (cond_prob src v a)).
  intros k1 k5 k0 u f p A1 A2 B1 B2 G1 G2 Ez Ey K1 K5. assert (Ez1 : (z + z <= p + u)%Qc) by (rewrite Ez; apply Qcle_refl). assert (Ez2 : (p + u <= z + z)%Qc) by (rewrite Ez; apply Qcle_refl).
  assert (Ey1 : (y + y <= u - f)%Qc) by (rewrite Ey; apply Qcle_refl). assert (Ey2 : (u - f <= y + y)%Qc) by (rewrite Ey; apply Qcle_refl). clear Ez Ey. apply off_true; qclra.
Qed.
Print Assumptions C141_default_refuted.
Example C141_nonvacuous_default : entries_at_least exCopy (qq 1 10 + Q2Qc (51 # 10000000)) /\ nparents exCopy (NInt 0) = [] /\
  learned_off (do rows <- random_sample id_oracle exCopy (fun _ _ => 0%Z) (draws 4 (fun _ _ => 0%Qc) [[0;0];[2;1];[3;2];[1;3];[2;0]]) 5 ;; bayes_estimator id_oracle exCopy (as_data 2 rows) None None)
    (NInt 0) (fun _ => NInt 1) (qq 1 8) (qq 1 2) = false.
Proof.
  split; [intros v x [<-|[<-|[]]] Hx; cbn in Hx; repeat (destruct Hx as [<-|Hx]; [discriminate|]); destruct Hx|]. split; [reflexivity|vm_compute; reflexivity].
Qed.
