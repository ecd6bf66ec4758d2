(** Properties_BayesLimit.v -- the limit of bayes_estimator with its default equivalent sample size (C141, any number of parents).
    Specification: SpecLaw.v (cells, draws, fraction), SpecLearnLaw.v (as_data, learned_prob, learned_off, match_on). *)
From Verif Require Import Py Num BayesNet Factor SpecFactor Radix SpecInference VE VETotal SpecSample Sampling SampleFacts SampleMain SampleLaws SumOver Graph Data SpecLearn ParamLearn ParamFacts ParamMain
  SpecLaw LawFacts GraphCheck Mst Rounding Factorization Examples Properties_Sample LawMain LawUse SpecLearnLaw Properties_Learn Properties_Law LearnLaw FactorOut Properties_Inference Properties_LearnLaw SpecSens Sens Properties_Sens SpecLearnInfer LearnInfer Properties_LearnInfer Properties_Bayes DiscFacts Properties_BayesLaw.
From Coq Require Import Relations.
Open Scope nat_scope.

(** the relative frequency of an event in the samples is close to its probability *)
Lemma event_law src M d o junk n (e : asg -> bool) t (P : list (list nat) -> bool) : wfnet src -> nonneg_net src -> normalised src -> nodes_topological src -> denominator src M -> positions d ->
  bext src e -> 0 < n -> (0 < t)%Qc ->
  (forall c, In c (cells M n (length (bn_V src))) -> P c = true -> forall s, (forall i, i < n -> ancestral src (draws M d c i) (s i)) ->
     random_sample o src (junk c) (draws M d c) n = Ok (map (fun i => map (fun v => Z.of_nat (s i v)) (bn_V src)) (seq 0 n)) ->
     ~ (nQc (count_rows s n e) / nQc n - prob_of src e < t /\ prob_of src e - nQc (count_rows s n e) / nQc n < t)%Qc) ->
  let p := prob_of src e in
  (fraction (cells M n (length (bn_V src))) P <= Q2Qc 4 * (1 + p * (1 - p) / (t * t)) / nQc n)%Qc.
Proof.
  intros W NN N Top Den D Be Hn Ht HP p.
  assert (One : prob_of src (fun _ => true) = 1%Qc) by (unfold prob_of; now apply (total_one src M W NN N Top Den d)).
  assert (NZ := nQc_nz n Hn).
  assert (X := ratio_law src M d n e (fun _ => true) t P W NN N Top Den D Be ltac:(intros ? ? ?; reflexivity) ltac:(reflexivity) Hn Ht). rewrite One in X. specialize (X ltac:(reflexivity)). cbn zeta in X.
  replace (prob_of src e / 1)%Qc with p in X by (unfold p; field; discriminate). replace (nQc n * 1)%Qc with (nQc n) in X by ring. apply X.
  intros c Hc Pc s Hs _ _ [N1 N2]. assert (Cn : count_rows s n (fun _ => true) = n).
  { unfold count_rows. replace (filter (fun _ : nat => true) (seq 0 n)) with (seq 0 n); [now rewrite seq_length|]. generalize (seq 0 n). intros l. induction l as [|x l IH]; [reflexivity|]. cbn [filter]. now f_equal. }
  rewrite Cn in N1, N2.
  destruct (random_ok src o (junk c) (draws M d c) n (sm src W NN N) Top (draws_unit src M Den d D n c Hc)) as (s' & Hs' & Er).
  assert (Es : forall i w, i < n -> In w (bn_V src) -> s' i w = s i w) by (intros i w Hi Hw; apply (ancestral_unique src (draws M d c i) (s' i) (s i) (sm src W NN N) Top); auto).
  apply (HP c Hc Pc s Hs); [|now split]. rewrite Er. f_equal. apply map_ext_in. intros i Hi. apply in_seq in Hi. apply map_ext_in. intros w Hw. rewrite Es by (auto; lia). reflexivity.
Qed.

(** *** inequalities between rationals *)
Lemma conv_bound (w x y b : Qc) : (0 <= w -> w <= 1 -> - b <= x -> x <= b -> - b <= y -> y <= b -> - b <= (1 - w) * x + w * y /\ (1 - w) * x + w * y <= b)%Qc.
Proof.
  intros W0 W1 X0 X1 Y0 Y1. assert (one : this 1%Qc = 1%Q) by reflexivity. assert (U : (0 <= 1 - w)%Qc) by (revert W1; generalize w; intros; qclra).
  assert (A1 : (0 <= (1 - w) * (b - x))%Qc) by (apply Qcmult_nonneg; [exact U|qclra]). assert (A2 : (0 <= (1 - w) * (b + x))%Qc) by (apply Qcmult_nonneg; [exact U|qclra]).
  assert (B1 : (0 <= w * (b - y))%Qc) by (apply Qcmult_nonneg; [exact W0|qclra]). assert (B2 : (0 <= w * (b + y))%Qc) by (apply Qcmult_nonneg; [exact W0|qclra]).
  assert (S1 : (0 <= b - ((1 - w) * x + w * y))%Qc). { replace (b - ((1 - w) * x + w * y))%Qc with ((1 - w) * (b - x) + w * (b - y))%Qc by ring. qclra. }
  assert (S2 : (0 <= b + ((1 - w) * x + w * y))%Qc). { replace (b + ((1 - w) * x + w * y))%Qc with ((1 - w) * (b + x) + w * (b + y))%Qc by ring. qclra. }
  revert S1 S2. generalize ((1 - w) * x + w * y)%Qc. intros; split; qclra.
Qed.
Lemma prod_bound (g h t : Qc) : (- t <= g -> g <= t -> - (1) <= h -> h <= 1 -> - t <= g * h /\ g * h <= t)%Qc.
Proof.
  intros G0 G1 H0 H1. assert (one : this 1%Qc = 1%Q) by reflexivity.
  assert (A : (0 <= 1 - h)%Qc) by (revert H1; generalize h; intros; qclra). assert (B : (0 <= 1 + h)%Qc) by (revert H0; generalize h; intros; qclra).
  assert (A1 := Qcmult_nonneg _ _ A (proj1 (Qcle_minus_iff _ _) G1)). assert (A2 : (0 <= (1 - h) * (t + g))%Qc) by (apply Qcmult_nonneg; [exact A|qclra]).
  assert (B1 := Qcmult_nonneg _ _ B (proj1 (Qcle_minus_iff _ _) G1)). assert (B2 : (0 <= (1 + h) * (t + g))%Qc) by (apply Qcmult_nonneg; [exact B|qclra]).
  (* t - gh = ((1-h)(t+g) + (1+h)(t-g))/2 *)
  assert (S1 : ((t - g * h) + (t - g * h) = (1 - h) * (t + g) + (1 + h) * (t + - g))%Qc) by ring.
  assert (S2 : ((t + g * h) + (t + g * h) = (1 - h) * (t + - g) + (1 + h) * (t + g))%Qc) by ring.
  assert (R1 : (0 <= (t - g * h) + (t - g * h))%Qc) by (rewrite S1; qclra). assert (R2 : (0 <= (t + g * h) + (t + g * h))%Qc) by (rewrite S2; qclra).
  revert R1 R2. generalize (g * h)%Qc. intros; split; qclra.
Qed.
(** the weight 1/(1 + q x) of the prior changes by at most q |x - y| *)
Lemma weight_lipschitz (q x y t : Qc) : (0 < q -> 0 < x -> 0 < y -> q * (x - y) <= t -> q * (y - x) <= t ->
  - t <= 1 / (1 + q * x) - 1 / (1 + q * y) /\ 1 / (1 + q * x) - 1 / (1 + q * y) <= t)%Qc.
Proof.
  intros Q X Y T1 T2. assert (one : this 1%Qc = 1%Q) by reflexivity.
  assert (P : forall z, (0 < z -> 0 < 1 + q * z /\ 0 <= 1 / (1 + q * z) /\ 1 / (1 + q * z) <= 1)%Qc).
  { intros z Z. assert (A : (0 < q * z)%Qc) by (revert Q Z; generalize q z; intros; qcnra). assert (B : (0 < 1 + q * z)%Qc) by (revert A; generalize (q * z)%Qc; intros; qclra).
    split; [exact B|]. assert (Z0 : (0 <= 1 / (1 + q * z))%Qc) by (apply frac_nonneg; [discriminate|exact B]). split; [exact Z0|].
    assert (E : (1 / (1 + q * z) * (1 + q * z) = 1)%Qc) by (unfold Qcdiv; field; now apply nz).
    assert (F : (1 / (1 + q * z) + 1 / (1 + q * z) * (q * z) = 1)%Qc) by (transitivity (1 / (1 + q * z) * (1 + q * z))%Qc; [ring|exact E]).
    assert (G : (0 <= 1 / (1 + q * z) * (q * z))%Qc) by (apply Qcmult_nonneg; [exact Z0|now apply Qclt_le_weak]). assert (F' : (1 / (1 + q * z) + 1 / (1 + q * z) * (q * z) <= 1)%Qc) by (rewrite F; apply Qcle_refl). clear E F. revert G F'. generalize (1 / (1 + q * z) * (q * z))%Qc (1 / (1 + q * z))%Qc. intros; qclra. }
  destruct (P x X) as (Dx & Wx & Ux). destruct (P y Y) as (Dy & Wy & Uy).
  assert (E : (1 / (1 + q * x) - 1 / (1 + q * y) = (q * (y - x)) * (1 / (1 + q * x) * (1 / (1 + q * y))))%Qc) by (unfold Qcdiv; field; split; now apply nz). rewrite E.
  apply prod_bound.
  - replace (q * (y - x))%Qc with (- (q * (x - y)))%Qc by ring. revert T1. generalize (q * (x - y))%Qc. intros; qclra.
  - exact T2.
  - assert (G : (0 <= 1 / (1 + q * x) * (1 / (1 + q * y)))%Qc) by (now apply Qcmult_nonneg). revert G. generalize (1 / (1 + q * x) * (1 / (1 + q * y)))%Qc. intros; qclra.
  - assert (A : (0 <= 1 - 1 / (1 + q * x))%Qc) by (revert Ux; generalize (1 / (1 + q * x))%Qc; intros; qclra). assert (B := Qcmult_nonneg _ _ A Wy).
    replace ((1 - 1 / (1 + q * x)) * (1 / (1 + q * y)))%Qc with (1 / (1 + q * y) - 1 / (1 + q * x) * (1 / (1 + q * y)))%Qc in B by ring.
    revert B Uy. generalize (1 / (1 + q * x) * (1 / (1 + q * y)))%Qc (1 / (1 + q * y))%Qc. intros; qclra.
Qed.

(** The default equivalent sample size is the number of rows, so the weight of the prior does not vanish: for a node with parents,
    the learned entry converges to a mixture of the uniform distribution, with weight 1/(1 + q P(parents)), q the number of
    combinations of values of the parents, and of the true conditional probability -- not to the latter. *)
Theorem C141_default_limit : forall src sk M d o o' junk m t delta v a, wfnet src -> nonneg_net src -> normalised src -> nodes_topological src -> denominator src M -> positions d ->
  bn_V src = map NInt (seq 0 m) -> good o' -> skeleton sk -> has_edge_lists sk -> parents_in_node_order sk -> bn_V sk = bn_V src ->
  (forall v, In v (bn_V src) -> nparents sk v = nparents src v) ->
  (0 < t)%Qc -> (0 < delta)%Qc -> entries_at_least src (t + Q2Qc (51 # 10000000)) -> In v (bn_V src) -> valid (ncard src) (v :: nparents src v) a ->
  let p := getq (cond_prob src v a) in
  let w := (1 / (1 + nQc (nprod (map (ncard src) (nparents src v))) * prob_of src (match_on (nparents src v) a)))%Qc in
  exists n0, forall n, n0 <= n ->
  (fraction (cells M n m)
     (fun c => learned_off (do rows <- random_sample o src (junk c) (draws M d c) n ;; bayes_estimator o' sk (as_data m rows) None None)
        v (fun w => NInt (a w)) (t + t + Q2Qc (153 # 10000000)) (w * (1 / nQc (ncard src v)) + (1 - w) * p))
   <= delta)%Qc.
Proof.
  intros src sk M d o o' junk m t delta v a0 W NN N Top Den D EV G Sk HE PO EVs EP Ht Hd Big Hv Va0 p w.
  assert (Big0 : (0 < t + Q2Qc (51 # 10000000))%Qc) by (apply pos_shift; [now apply Qclt_le_weak|reflexivity]).
  assert (Pi : (0 < prob_of src (match_on (nparents src v) a0))%Qc) by (eapply all_reachable; eassumption).
  assert (Q1 : (1 <= nQc (nprod (map (ncard src) (nparents src v))))%Qc) by (apply one_nQc; now apply q_pos).
  revert w. set (pi := prob_of src (match_on (nparents src v) a0)) in *. set (q := nQc (nprod (map (ncard src) (nparents src v)))) in *. intros w.
  assert (Qp : (0 < q)%Qc) by (assert (one : this 1%Qc = 1%Q) by reflexivity; clear - Q1 one; revert Q1; generalize q; intros; qclra).
  assert (QZ : q <> 0%Qc) by now apply nz.
  (* how close the frequency of the parents has to be *)
  assert (T0 : exists t0, (0 < t0 /\ t0 <= pi /\ q * t0 <= t)%Qc).
  { assert (E : (q * (t / q) = t)%Qc) by (field; assumption). destruct (Qclt_le_dec pi (t / q)%Qc) as [L|L].
    - exists pi. split; [exact Pi|]. split; [apply Qcle_refl|]. rewrite <- E. rewrite !(Qcmult_comm q). apply Qcmult_le_compat_r; apply Qclt_le_weak; assumption.
    - exists (t / q)%Qc. split; [|split; [exact L|rewrite E; apply Qcle_refl]]. unfold Qcdiv. rewrite <- E in Ht. destruct (Qclt_le_dec 0 (t / q)%Qc) as [K|K]; [exact K|exfalso].
      revert Ht Qp K. generalize (t / q)%Qc q. intros; qcnra. }
  destruct T0 as (t0 & Ht0 & T1 & T2).
  set (h := (delta / nQc 2)%Qc). assert (H2 : (h + h = delta)%Qc). { assert (Q2 : (nQc 2 = 1 + 1)%Qc) by (apply Qc_is_canon; reflexivity). unfold h. rewrite Q2. field. discriminate. }
  assert (Hh : (0 < h)%Qc) by (rewrite <- H2 in Hd; revert Hd; generalize h; intros; qclra).
  destruct (good_network src sk M d o o' junk m t h) as (n1 & H); auto.
  assert (t0Z : t0 <> 0%Qc) by now apply nz. assert (hZ : h <> 0%Qc) by now apply nz.
  destruct (archimedes (Q2Qc 4 * (1 + pi * (1 - pi) / (t0 * t0)) / h)%Qc) as (k & Hk).
  exists (Nat.max n1 (S k)). intros n Ln. assert (Hn : 0 < n) by lia. destruct (H n ltac:(lia)) as (bad & Hb & Good).
  assert (Lm : length (bn_V src) = m) by (rewrite EV, map_length, seq_length; reflexivity).
  assert (NE : cells M n m <> []) by (rewrite <- Lm; now apply cells_ne).
  assert (Ip : incl (nparents src v) (bn_V src)) by now apply (wn_par _ W).
  set (bad2 := fun c => match random_sample o src (junk c) (draws M d c) n with
    | Ok rows => off_by t0 (nQc (rows_with (as_data m rows) (map (fun w => (w, NInt (a0 w))) (nparents src v))) / nQc n) pi | Raise _ => true end).
  assert (Hb2 : (fraction (cells M n m) bad2 <= h)%Qc).
  { rewrite <- Lm. eapply Qcle_trans.
    - apply (event_law src M d o junk n (match_on (nparents src v) a0) t0 bad2 W NN N Top Den D); auto.
      + intros b b' X. apply match_on_ext. auto.
      + intros c Hc Bc s Hs Es [N1 N2]. unfold bad2 in Bc. rewrite Es in Bc. rewrite (rows_with_data src m n s (nparents src v) a0 EV Ip) in Bc. rewrite off_true in Bc by assumption. discriminate.
    - fold pi. assert (Ln' := nQc_le k n ltac:(lia)). set (C := (Q2Qc 4 * (1 + pi * (1 - pi) / (t0 * t0)))%Qc) in *.
      assert (E : (C / h * h = C)%Qc) by (field; assumption). assert (NZ := nQc_nz n Hn). assert (Np := nQc_pos n Hn).
      assert (X : (C / h <= nQc n)%Qc) by (eapply Qcle_trans; eassumption). assert (E2 : (C / nQc n * nQc n = C)%Qc) by (field; assumption).
      destruct (Qclt_le_dec h (C / nQc n)%Qc) as [K|K]; [exfalso|exact K].
      assert (Y1 : (C / h * h <= nQc n * h)%Qc) by (apply Qcmult_le_compat_r; [exact X|now apply Qclt_le_weak]). rewrite E in Y1.
      assert (Y2 : (h * nQc n < C / nQc n * nQc n)%Qc) by (now apply Qcmult_lt_compat_r). rewrite E2 in Y2. rewrite (Qcmult_comm (nQc n)) in Y1. revert Y1 Y2. generalize (h * nQc n)%Qc C. intros; qclra. }
  eapply Qcle_trans; [apply (fraction_or _ _ bad bad2 NE)|rewrite <- H2; revert Hb Hb2; generalize (fraction (cells M n m) bad) (fraction (cells M n m) bad2) h; intros; qclra].
  intros c Hc Lo. destruct (bad c) eqn:B; [now left|]. right. apply not_false_iff_true. intros B2. revert Lo. apply not_true_iff_false. unfold bad2 in B2. clear Hb Hb2 bad2.
  destruct (Good c Hc B) as (rows & b1 & E1 & E2 & W1 & SF & NN1 & CW & Vals). rewrite E1 in *. cbn [bind].
  apply off_false in B2 as [X1 X2]. set (T := as_data m rows) in *.
  assert (TT : table_ok T /\ t_rows T <> [] /\ length (t_rows T) = n).
  { assert (U := draws_unit src M Den d D n c). rewrite Lm in U. specialize (U Hc).
    destruct (random_ok src o (junk c) (draws M d c) n (sm src W NN N) Top U) as (s & Hs & Er). rewrite Er in E1. injection E1 as <-.
    assert (Tr : t_rows T = map (fun i => map (fun v => NInt (s i v)) (bn_V src)) (seq 0 n)) by (apply (as_data_rows src n s m EV)).
    split; [|rewrite Tr; split; [destruct n; [lia|discriminate]|now rewrite map_length, seq_length]]. intros r Hr. rewrite Tr in Hr. apply in_map_iff in Hr as (i & <- & _). rewrite map_length. exact Lm. }
  destruct TT as (TO & NR & Lr). assert (EVk : bn_V sk = map NInt (seq 0 m)) by congruence. assert (Hvk : In v (bn_V sk)) by now rewrite EVs.
  assert (Np : (0 < nQc (length (t_rows T)))%Qc) by (rewrite Lr; now apply nQc_pos).
  destruct (C131_difference o' o' sk T m None G G Sk HE PO TO NR EVk (le_n _) Np) as (c1 & b2 & F1 & F2 & _ & _ & V1 & _ & Same & Diff).
  assert (c1 = b1) by congruence. subst c1. rewrite F2. cbn [learned_off].
  destruct (C41_mle_probabilities o' sk T m G Sk HE PO TO NR EVk (le_n _)) as (c1 & F1' & _ & _ & _ & _ & Fit). assert (c1 = b1) by congruence. subst c1.
  destruct (Same v Hvk) as (SV & P2 & P1 & _). rewrite EP in P1 by assumption. rewrite P1 in P2.
  assert (Hv1 : In v (bn_V b1)) by (now rewrite V1).
  assert (Iv : forall w, In w (v :: nparents src v) -> In w (bn_V src)) by (intros u [<-|Hu]; auto).
  assert (Crd : forall u, In u (bn_V src) -> ncard b1 u = ncard src u) by (intros u Hu; symmetry; apply (proj2 SF); assumption).
  set (a := fun u => if mem u (v :: nparents src v) then a0 u else 0).
  assert (Ea : forall u, In u (v :: nparents src v) -> a u = a0 u) by (intros u Hu; unfold a; now rewrite (proj2 (mem_In _ _) Hu)).
  assert (Val : valid (ncard b1) (v :: nparents b1 v) a). { rewrite P1. intros u Hu. rewrite Ea, Crd by auto. now apply Va0. }
  assert (Vs : valid (ncard src) (bn_V src) a). { intros u Hu. unfold a. destruct (mem u (v :: nparents src v)) eqn:Mu; [apply Va0; now apply mem_In|now apply (valid_zero src W)]. }
  assert (Cfg : config (nvalues b1) (nparents b1 v) a = map (fun w => (w, NInt (a0 w))) (nparents src v)).
  { rewrite P1. apply map_ext_in. intros u Hu. f_equal. rewrite Vals by auto. assert (Hu' : In u (v :: nparents src v)) by now right. rewrite (Ea u Hu').
    rewrite map_nth, seq_nth by (now apply Va0). reflexivity. }
  assert (Xp : (0 < nQc (rows_with T (config (nvalues b1) (nparents b1 v) a)) / nQc n)%Qc) by (rewrite Cfg; revert X2 T1; generalize (nQc (rows_with T (map (fun w => (w, NInt (a0 w))) (nparents src v))) / nQc n)%Qc; intros; qclra).
  assert (Pos : 0 < rows_with T (config (nvalues b1) (nparents b1 v) a)).
  { destruct (rows_with T (config (nvalues b1) (nparents b1 v) a)) as [|r] eqn:Z; [exfalso|lia]. revert Xp. unfold nQc at 1. cbn. unfold Qcdiv. rewrite Qcmult_0_l. discriminate. }
  destruct (Diff v a Hvk Val Pos) as (p1 & p2 & C1 & C2 & [B1 B2]).
  destruct (C41_close_to_frequency T b1 v a Fit Hv1 Val Pos) as (p1' & C1' & A1 & A2). assert (p1' = p1) by congruence. subst p1'. fold (rel_freq T b1 v a) in A1, A2.
  destruct (weight_bounds T (nQc (length (t_rows T))) b1 v a W1 Np Hv1) as [WB0 WB1].
  assert (Wt : prior_weight T (nQc (length (t_rows T))) b1 v a = (1 / (1 + q * (nQc (rows_with T (config (nvalues b1) (nparents b1 v) a)) / nQc n)))%Qc).
  { unfold prior_weight. rewrite Lr. replace (nQc (nprod (map (ncard b1) (nparents b1 v)))) with q.
    2:{ unfold q. rewrite P1. f_equal. f_equal. apply map_ext_in. intros u Hu. symmetry. apply Crd. auto. }
    assert (S1 : (0 < 1 + q * (nQc (rows_with T (config (nvalues b1) (nparents b1 v) a)) / nQc n))%Qc).
    { assert (one : this 1%Qc = 1%Q) by reflexivity. revert Xp Qp. generalize (nQc (rows_with T (config (nvalues b1) (nparents b1 v) a)) / nQc n)%Qc q. clear - one. intros x q X Q. assert (A : (0 < q * x)%Qc) by (clear one; revert X Q; generalize q x; intros; qcnra). revert A one. generalize (q * x)%Qc. intros; qclra. }
    assert (Nz := nQc_nz n Hn). assert (Nn := nQc_pos n Hn). set (r := nQc (rows_with T (config (nvalues b1) (nparents b1 v) a))) in *.
    assert (S3 : (nQc n * (1 + q * (r / nQc n)) = nQc n + q * r)%Qc) by (field; assumption).
    rewrite <- S3. assert (Sz := nz _ S1). revert Sz Nz. clear. generalize (1 + q * (r / nQc n))%Qc. generalize (nQc n). intros; field; now split. }
  rewrite Wt in B1, B2, WB0, WB1.
  assert (Lip := weight_lipschitz q (nQc (rows_with T (config (nvalues b1) (nparents b1 v) a)) / nQc n)%Qc pi t Qp Xp Pi). fold w in Lip.
  assert (Cw := CW v a Hv Vs). unfold gap in Cw. rewrite C1 in Cw. cbn [getq] in Cw. apply qabs_le in Cw as [G1 G2].
  assert (EL : learned_prob b2 v (fun w => NInt (a0 w)) = p2).
  { unfold learned_prob. rewrite P2.
    replace (forallb (fun w => mem (NInt (a0 w)) (nvalues b2 w)) (v :: nparents src v)) with true.
    2:{ symmetry. apply forallb_forall. intros u Hu. assert (Huk : In u (bn_V sk)) by (rewrite EVs; auto). rewrite (proj1 (Same u Huk)), Vals by auto. apply mem_In, in_map, in_seq. assert (X := Va0 u Hu). lia. }
    replace (cond_prob b2 v _) with (cond_prob b2 v a); [now rewrite C2|]. apply cond_prob_ext. intros u Hu. rewrite P2 in Hu.
    assert (Huk : In u (bn_V sk)) by (rewrite EVs; auto). rewrite (Ea u Hu), (proj1 (Same u Huk)), Vals by auto. now rewrite index_number by (now apply Va0). }
  rewrite EL. assert (Ep : p = getq (cond_prob src v a)) by (unfold p; f_equal; apply cond_prob_ext; intros u Hu; symmetry; now apply Ea).
  rewrite <- Ep in G1, G2. rewrite Crd in B1, B2 by assumption.
  destruct (inv_range (ncard src v) (card_pos src v W Hv)) as [U0 U1].
  assert (P01 := cond_le_one src v a W NN N Hv Vs). rewrite <- Ep in P01. destruct P01 as [P0 Pl].
  assert (L1 : (q * (nQc (rows_with T (config (nvalues b1) (nparents b1 v) a)) / nQc n - pi) <= t)%Qc).
  { eapply Qcle_trans; [|exact T2]. rewrite !(Qcmult_comm q). apply Qcmult_le_compat_r; [|now apply Qclt_le_weak]. rewrite Cfg. now apply Qclt_le_weak. }
  assert (L2 : (q * (pi - nQc (rows_with T (config (nvalues b1) (nparents b1 v) a)) / nQc n) <= t)%Qc).
  { eapply Qcle_trans; [|exact T2]. rewrite !(Qcmult_comm q). apply Qcmult_le_compat_r; [|now apply Qclt_le_weak]. rewrite Cfg. now apply Qclt_le_weak. }
  specialize (Lip L1 L2). clear L1 L2. revert Lip WB0 WB1 B1 B2.
  assert (K : (Q2Qc (153 # 10000000) = Q2Qc (101 # 10000000) + Q2Qc (51 # 10000000) + Q2Qc (1 # 10000000))%Qc) by (apply Qc_is_canon; reflexivity). rewrite K.
  assert (K1 : (0 < Q2Qc (1 # 10000000))%Qc) by reflexivity. assert (K5 : (0 < Q2Qc (51 # 10000000))%Qc) by reflexivity. revert A1 A2 G1 G2 K1 K5. revert Ht U0 U1 P0 Pl.
  generalize (1 / (1 + q * (nQc (rows_with T (config (nvalues b1) (nparents b1 v) a)) / nQc n)))%Qc (Q2Qc (101 # 10000000)) (Q2Qc (51 # 10000000)) (Q2Qc (1 # 10000000)) (1 / nQc (ncard src v))%Qc (rel_freq T b1 v a).
  clear. generalize p w. clear. intros p w wn k1 k5 k0 u f Ht U0 U1 P0 Pl A1 A2 G1 G2 K1 K5 [D1 D2] W0 W1 B1 B2. assert (one : this 1%Qc = 1%Q) by reflexivity.
  destruct (conv_bound wn (p1 - p) (p1 - f) (t + k5) (Qclt_le_weak _ _ W0) W1) as [C1 C2]; [qclra|qclra|qclra|qclra|].
  destruct (prod_bound (wn - w) (u - p) t D1 D2) as [E1 E2]; [qclra|qclra|].
  assert (E : (p2 - (w * u + (1 - w) * p) = (p2 - p1 - wn * (u - f)) + ((1 - wn) * (p1 - p) + wn * (p1 - f)) + (wn - w) * (u - p))%Qc) by ring.
  revert B1 B2 C1 C2 E1 E2 E. generalize (wn * (u - f))%Qc ((1 - wn) * (p1 - p) + wn * (p1 - f))%Qc ((wn - w) * (u - p))%Qc (w * u + (1 - w) * p)%Qc.
  intros x y g z B1 B2 C1 C2 E1 E2 E. assert (Z1 : (p2 - z <= (p2 - p1 - x) + y + g)%Qc) by (rewrite E; apply Qcle_refl). assert (Z2 : ((p2 - p1 - x) + y + g <= p2 - z)%Qc) by (rewrite E; apply Qcle_refl). clear E.
  apply off_true; clear A1 A2 G1 G2; qclra.
Qed.
Print Assumptions C141_default_limit.

(** so, unless the true distribution is nearly uniform, almost no run comes within [s] of the true entry, however many rows it samples *)
Theorem C141_default_parents_refuted : forall src sk M d o o' junk m t delta v a s, wfnet src -> nonneg_net src -> normalised src -> nodes_topological src -> denominator src M -> positions d ->
  bn_V src = map NInt (seq 0 m) -> good o' -> skeleton sk -> has_edge_lists sk -> parents_in_node_order sk -> bn_V sk = bn_V src ->
  (forall v, In v (bn_V src) -> nparents sk v = nparents src v) ->
  (0 < t)%Qc -> (0 < delta)%Qc -> entries_at_least src (t + Q2Qc (51 # 10000000)) -> In v (bn_V src) -> valid (ncard src) (v :: nparents src v) a ->
  let p := getq (cond_prob src v a) in
  let w := (1 / (1 + nQc (nprod (map (ncard src) (nparents src v))) * prob_of src (match_on (nparents src v) a)))%Qc in
  (s + (t + t + Q2Qc (153 # 10000000)) <= qabs (w * (1 / nQc (ncard src v) - p)))%Qc ->
  exists n0, forall n, n0 <= n ->
  (fraction (cells M n m)
     (fun c => negb (learned_off (do rows <- random_sample o src (junk c) (draws M d c) n ;; bayes_estimator o' sk (as_data m rows) None None)
        v (fun w => NInt (a w)) s p))
   <= delta)%Qc.
Proof.
  intros src sk M d o o' junk m t delta v a s W NN N Top Den D EV G Sk HE PO EVs EP Ht Hd Big Hv Va p w Hs.
  destruct (C141_default_limit src sk M d o o' junk m t delta v a W NN N Top Den D EV G Sk HE PO EVs EP Ht Hd Big Hv Va) as (n0 & H). fold p w in H.
  exists n0. intros n Ln. eapply Qcle_trans; [|exact (H n Ln)]. assert (Lm : length (bn_V src) = m) by (rewrite EV, map_length, seq_length; reflexivity).
  assert (NE : cells M n m <> []) by (rewrite <- Lm; now apply cells_ne). rewrite !fraction_average. apply average_le; [assumption|]. intros c Hc.
  destruct (do rows <- random_sample o src (junk c) (draws M d c) n ;; bayes_estimator o' sk (as_data m rows) None None) as [b2|]; cbn [learned_off negb]; [|discriminate].
  set (x := learned_prob b2 v (fun w0 => NInt (a w0))). destruct (off_by s x p) eqn:O1; cbn [negb]; [match goal with |- (_ <= if ?b then _ else _)%Qc => destruct b end; unfold Qcle, Qle; cbn; lia|].
  match goal with |- (_ <= if ?y then _ else _)%Qc => destruct y eqn:O2; [apply Qcle_refl|exfalso] end.
  apply off_false in O1 as [A1 A2]. apply off_false in O2 as [B1 B2]. revert Hs A1 A2 B1 B2.
  replace (w * (1 / nQc (ncard src v) - p))%Qc with ((w * (1 / nQc (ncard src v)) + (1 - w) * p) - p)%Qc by ring.
  generalize (w * (1 / nQc (ncard src v)) + (1 - w) * p)%Qc (t + t + Q2Qc (153 # 10000000))%Qc x. clear. intros z e x Hs A1 A2 B1 B2.
  unfold qabs, qmax in Hs. destruct (Qclt_le_dec _ _) in Hs; qclra.
Qed.
Print Assumptions C141_default_parents_refuted.

(** node 1 copies the fair coin 0 with probability 3/4; q = 2, P(parents) = 1/2, the weight of the prior is 1/2: with the default
    the entry 3/4 is estimated as 5/8, and almost no run of enough rows estimates it to within 1/10 *)
Example C141_nonvacuous_limit : entries_at_least exCopy (qq 1 100 + Q2Qc (51 # 10000000)) /\ valid (ncard exCopy) (NInt 1 :: nparents exCopy (NInt 1)) (fun _ => 1) /\
  getq (cond_prob exCopy (NInt 1) (fun _ => 1)) = qq 3 4 /\
  (1 / (1 + nQc (nprod (map (ncard exCopy) (nparents exCopy (NInt 1)))) * prob_of exCopy (match_on (nparents exCopy (NInt 1)) (fun _ => 1%nat))))%Qc = qq 1 2 /\
  (qq 1 10 + (qq 1 100 + qq 1 100 + Q2Qc (153 # 10000000)) <= qabs (qq 1 2 * (1 / nQc (ncard exCopy (NInt 1)) - qq 3 4)))%Qc /\
  learned_off (do rows <- random_sample id_oracle exCopy (fun _ _ => 0%Z) (draws 4 (fun _ _ => 0%Qc) [[2;1];[3;3];[0;0];[1;2];[0;3];[2;2];[3;0];[1;1]]) 8 ;; bayes_estimator id_oracle exCopy (as_data 2 rows) None None)
    (NInt 1) (fun _ => NInt 1) (qq 3 100) (qq 5 8) = false.
Proof.
  split; [intros v x [<-|[<-|[]]] Hx; cbn in Hx; repeat (destruct Hx as [<-|Hx]; [discriminate|]); destruct Hx|].
  split; [intros u [<-|[<-|[]]]; cbn; lia|]. split; [apply Qc_is_canon; vm_compute; reflexivity|]. split; [apply Qc_is_canon; vm_compute; reflexivity|].
  split; [vm_compute; discriminate|vm_compute; reflexivity].
Qed.
