(** Properties_Law.v -- theorems C110 to C113: the statistical laws of the samplers.
    Specification: SpecLaw.v (cells, draws, denominator, average, fraction, reported, off_by).
    Every theorem averages over ALL equiprobable draw tables (n samples, one draw per node), for
    arbitrary positions inside the cells: it is the exact law for uniform draws. *)
From Verif Require Import Py Num BayesNet Factor SpecFactor Radix SpecInference VE VETotal SpecSample Sampling SampleFacts SampleMain SampleLaws SumOver SpecLaw LawFacts ParamFacts GraphCheck Mst Rounding Examples Properties_Sample LawMain LawUse.
Open Scope nat_scope.

Definition lawful (bn : bayesnet) (M : nat) (d : nat -> nat -> Qc) : Prop :=
  wfnet bn /\ nonneg_net bn /\ normalised bn /\ nodes_topological bn /\ denominator bn M /\ positions d.
Notation nthval bn v x := (nth x (nvalues bn v) (NInt 0)).

(** ** C110: forward_sample *)
Lemma forward_rows bn M d o n c v x : lawful bn M d -> 0 < n -> In v (bn_V bn) -> x < ncard bn v -> In c (cells M n (length (bn_V bn))) ->
  reported (forward_sample o bn (draws M d c) n) v (nthval bn v x) =
  (qsum (map (fun i => rowval bn M [] (d i) (ind v x) (nth i c [])) (seq 0 n)) / nQc n)%Qc.
Proof.
  intros (W & NN & N & Top & Den & D) Hn Hv Hx Hc.
  destruct (forward_ok bn o (draws M d c) n (sm bn W NN N) Top (draws_unit bn M Den d D n c Hc) Hn) as (s & Hs & E). rewrite E.
  rewrite (reported_answer bn (fun v x => (nQc (hits s (seq 0 n) v x) / nQc n)%Qc) v x W Hv Hx). f_equal.
  apply (hits_rows bn M W NN N Top Den d D v x (seq 0 n) n c s Hv Hc). intros i Hi. apply in_seq in Hi. split; [lia|]. apply Hs. lia.
Qed.
(** the expected frequency is the marginal probability *)
Theorem C110_unbiased : forall bn M d o n v x, wfnet bn -> nonneg_net bn -> normalised bn -> nodes_topological bn -> denominator bn M -> positions d ->
  0 < n -> In v (bn_V bn) -> x < ncard bn v ->
  average (cells M n (length (bn_V bn))) (fun c => reported (forward_sample o bn (draws M d c) n) v (nthval bn v x)) = marginal bn v [] x.
Proof.
  intros bn M d o n v x W NN N Top Den D Hn Hv Hx. assert (LW : lawful bn M d) by (unfold lawful; auto 10).
  rewrite (average_ext _ _ (fun c => / nQc n * qsum (map (fun i => rowval bn M [] (d i) (ind v x) (nth i c [])) (seq 0 n)))%Qc).
  - rewrite average_scale. unfold cells.
    rewrite (average_sum (list nat) (lists_of (seq 0 M) (length (bn_V bn))) (L_ne bn M Den) [] n (fun i => rowval bn M [] (d i) (ind v x))).
    rewrite (qsum_map_ext _ (fun _ => marginal bn v [] x * 1)%Qc).
    + rewrite qsum_map_mult_l, qsum_ones, seq_length. field. now apply nQc_nz.
    + intros i _. rewrite (rowval_nil_average bn M W NN N Den d D i (ind v x)). rewrite marginal_ind. ring.
  - intros c Hc. rewrite (forward_rows bn M d o n c v x LW Hn Hv Hx Hc). unfold Qcdiv. ring.
Qed.
Print Assumptions C110_unbiased.

Lemma square_law bn M d v x i : lawful bn M d -> In v (bn_V bn) -> let p := marginal bn v [] x in
  average (lists_of (seq 0 M) (length (bn_V bn))) (fun c => (rowval bn M [] (d i) (ind v x) c - p) * (rowval bn M [] (d i) (ind v x) c - p))%Qc = (p * (1 - p))%Qc.
Proof.
  intros (W & NN & N & Top & Den & D) Hv p.
  rewrite (average_ext _ _ (rowval bn M [] (d i) (fun a => (ind v x a - p) * (ind v x a - p))%Qc)).
  - rewrite (rowval_nil_average bn M W NN N Den d D i).
    transitivity (sum_over (ncard bn) (bn_V bn) (fun a => (1 - p - p) * (joint bn a * ind v x a) + (p * p) * joint bn a)%Qc (fun _ => 0)).
    + apply sum_over_congr. intros a _ _. unfold ind. destruct (a v =? x); ring.
    + rewrite sum_over_plus, !sum_over_scale, marginal_ind, (total_one bn M W NN N Top Den d D). fold p. ring.
  - intros c Hc. apply (rowval_fun bn M W NN N Top Den d D [] (ind v x) (fun q => (q - p) * (q - p))%Qc i c (ge_nil bn) Hc). now apply ind_ext.
Qed.
(** the mean squared error is p(1-p)/n *)
Theorem C110_mean_squared_error : forall bn M d o n v x, wfnet bn -> nonneg_net bn -> normalised bn -> nodes_topological bn -> denominator bn M -> positions d ->
  0 < n -> In v (bn_V bn) -> x < ncard bn v ->
  let p := marginal bn v [] x in
  average (cells M n (length (bn_V bn))) (fun c => let e := reported (forward_sample o bn (draws M d c) n) v (nthval bn v x) - p in e * e)%Qc = (p * (1 - p) / nQc n)%Qc.
Proof.
  intros bn M d o n v x W NN N Top Den D Hn Hv Hx p. assert (LW : lawful bn M d) by (unfold lawful; auto 10). cbn zeta.
  set (X := fun i c => (rowval bn M [] (d i) (ind v x) c - p)%Qc).
  rewrite (average_ext _ _ (fun c => (/ nQc n * / nQc n) * (qsum (map (fun i => X i (nth i c [])) (seq 0 n)) * qsum (map (fun i => X i (nth i c [])) (seq 0 n))))%Qc).
  - rewrite average_scale. unfold cells.
    rewrite (average_square (list nat) (lists_of (seq 0 M) (length (bn_V bn))) (L_ne bn M Den) [] n X).
    + rewrite (qsum_map_ext _ (fun _ => (p * (1 - p)) * 1)%Qc).
      * rewrite qsum_map_mult_l, qsum_ones, seq_length. field. now apply nQc_nz.
      * intros i _. unfold X, p. rewrite (square_law bn M d v x i LW Hv). ring.
    + intros i _. unfold X. rewrite (average_ext _ _ (fun c => rowval bn M [] (d i) (ind v x) c + - p)%Qc) by reflexivity.
      rewrite average_plus, average_const by (apply (L_ne bn M Den)). rewrite (rowval_nil_average bn M W NN N Den d D i), marginal_ind. fold p. ring.
  - intros c Hc. rewrite (forward_rows bn M d o n c v x LW Hn Hv Hx Hc). cbn zeta. unfold X.
    rewrite (qsum_map_ext (fun i => rowval bn M [] (d i) (ind v x) (nth i c []) - p)%Qc (fun i => rowval bn M [] (d i) (ind v x) (nth i c []) + - p * 1)%Qc) by (intros; ring).
    rewrite qsum_map_plus, qsum_map_mult_l, qsum_ones, seq_length. field. now apply nQc_nz.
Qed.
Print Assumptions C110_mean_squared_error.
(** consistency: the fraction of runs that are off by e or more is at most p(1-p)/(n e^2) *)
Theorem C110_consistent : forall bn M d o n v x e, wfnet bn -> nonneg_net bn -> normalised bn -> nodes_topological bn -> denominator bn M -> positions d ->
  0 < n -> In v (bn_V bn) -> x < ncard bn v -> (0 < e)%Qc ->
  let p := marginal bn v [] x in
  (fraction (cells M n (length (bn_V bn))) (fun c => off_by e (reported (forward_sample o bn (draws M d c) n) v (nthval bn v x)) p)
   <= p * (1 - p) / nQc n / (e * e))%Qc.
Proof.
  intros bn M d o n v x e W NN N Top Den D Hn Hv Hx He p. apply chebyshev; [now apply cells_ne|assumption|].
  assert (Q := C110_mean_squared_error bn M d o n v x W NN N Top Den D Hn Hv Hx). cbn zeta in Q. fold p in Q. rewrite Q. apply Qcle_refl.
Qed.
Print Assumptions C110_consistent.

(** every network has a denominator *)
Lemma Qc_nonneg_frac (p : Qc) : (0 <= p)%Qc -> exists z m : nat, 0 < m /\ p = (nQc z / nQc m)%Qc.
Proof.
  intros H. exists (Z.to_nat (Qnum (this p))), (Pos.to_nat (Qden (this p))). split; [lia|].
  assert (Nn : (0 <= Qnum (this p))%Z) by (unfold Qcle, Qle in H; cbn in H; lia).
  assert (Mp := nQc_nz (Pos.to_nat (Qden (this p))) ltac:(lia)).
  assert (E : (p * nQc (Pos.to_nat (Qden (this p))) = nQc (Z.to_nat (Qnum (this p))))%Qc).
  { apply Qc_eq_Q. rewrite this_mult. unfold nQc. rewrite !this_Q2Qc. rewrite Z2Nat.id by assumption. rewrite positive_nat_Z.
    unfold Qeq, Qmult, inject_Z. cbn [Qnum Qden]. lia. }
  rewrite <- E. field. assumption.
Qed.
Theorem C110_denominator_exists : forall bn, nonneg_net bn -> exists M, denominator bn M.
Proof.
  intros bn NN.
  assert (G : forall ps, (forall p, In p ps -> (0 <= p)%Qc) -> exists M, 0 < M /\ forall p, In p ps -> exists z : nat, p = (nQc z / nQc M)%Qc).
  { induction ps as [|p ps IH]; intros H; [exists 1; split; [lia|intros p []]|].
    destruct IH as (M & Mp & IH); [intros; apply H; now right|]. destruct (Qc_nonneg_frac p) as (z & m & mp & E); [apply H; now left|].
    exists (m * M). split; [nia|]. assert (A := nQc_nz _ Mp). assert (B := nQc_nz _ mp). intros q [<-|Hq].
    - exists (z * M). rewrite E, !nQc_mult. field. now split.
    - destruct (IH q Hq) as (z' & ->). exists (m * z'). rewrite !nQc_mult. field. now split. }
  destruct (G (flat_map (ncpt bn) (bn_V bn))) as (M & Mp & H).
  - intros p Hp. apply in_flat_map in Hp as (v & Hv & Hp). now apply (NN v).
  - exists M. split; [assumption|]. intros v p Hv Hp. apply H. apply in_flat_map. eauto.
Qed.
Print Assumptions C110_denominator_exists.

(** ** C111: random_sample draws independent rows from the joint distribution *)
Definition row_is (bn : bayesnet) (a b : asg) : bool := forallb (fun v => b v =? a v) (bn_V bn).
Lemma row_is_spec bn a b : row_is bn a b = true <-> forall v, In v (bn_V bn) -> b v = a v.
Proof. unfold row_is. rewrite forallb_forall. split; intros H v Hv; specialize (H v Hv); now apply Nat.eqb_eq. Qed.
Theorem C111_independent_rows : forall bn M d o junk n (a : nat -> asg), wfnet bn -> nonneg_net bn -> normalised bn -> nodes_topological bn -> denominator bn M -> positions d ->
  (forall i, i < n -> valid (ncard bn) (bn_V bn) (a i)) ->
  fraction (cells M n (length (bn_V bn)))
    (fun c => same_table (random_sample o bn (junk c) (draws M d c) n) (map (fun i => map (fun v => Z.of_nat (a i v)) (bn_V bn)) (seq 0 n)))
  = qprod (map (fun i => joint bn (a i)) (seq 0 n)).
Proof.
  intros bn M d o junk n a W NN N Top Den D Va.
  assert (Ex : forall i, exton bn (fun b => if row_is bn (a i) b then 1%Qc else 0%Qc)).
  { intros i b b' E. replace (row_is bn (a i) b') with (row_is bn (a i) b); [reflexivity|]. unfold row_is.
    assert (G : forall vs, incl vs (bn_V bn) -> forallb (fun v => b v =? a i v) vs = forallb (fun v => b' v =? a i v) vs).
    { induction vs as [|v vs IH]; intros I; [reflexivity|]. cbn [forallb]. rewrite IH by (intros z Hz; apply I; now right). now rewrite (E v) by (apply I; now left). }
    apply G, incl_refl. }
  rewrite fraction_average.
  rewrite (average_ext _ _ (fun c => qprod (map (fun i => rowval bn M [] (d i) (fun b => if row_is bn (a i) b then 1%Qc else 0%Qc) (nth i c [])) (seq 0 n)))).
  - unfold cells. rewrite (average_prod (list nat) (lists_of (seq 0 M) (length (bn_V bn))) (L_ne bn M Den) [] n (fun i => rowval bn M [] (d i) (fun b => if row_is bn (a i) b then 1%Qc else 0%Qc))).
    apply qprod_map_ext. intros i Hi. apply in_seq in Hi. rewrite (rowval_nil_average bn M W NN N Den d D i).
    apply (sum_over_single _ _ _ (a i)); [apply (wn_V _ W)|apply Va; lia| |].
    + intros b _ Vb E. rewrite (proj2 (row_is_spec bn (a i) b) E). rewrite Qcmult_1_r. unfold joint. apply qprod_map_ext. intros v Hv. f_equal. apply cond_prob_ext.
      intros w [<-|Hw]; apply E; [assumption|]. now apply (wn_par _ W v Hv).
    + intros b _ Vb (w & Hw & Ne). destruct (row_is bn (a i) b) eqn:R; [|ring]. exfalso. apply Ne. now apply (proj1 (row_is_spec bn (a i) b) R).
  - intros c Hc. destruct (random_ok bn o (junk c) (draws M d c) n (sm bn W NN N) Top (draws_unit bn M Den d D n c Hc)) as (s & Hs & E). rewrite E. unfold same_table.
    rewrite (qprod_map_ext _ (fun i => if row_is bn (a i) (s i) then 1%Qc else 0%Qc)).
    2:{ intros i Hi. apply in_seq in Hi. assert (A := Hs i ltac:(lia)).
        apply (rowval_ok bn M [] W NN N Top Den (ge_nil bn) (d i) (fun b => if row_is bn (a i) b then 1%Qc else 0%Qc) (nth i c []) (s i) (D i)); [apply (cells_row bn M n c i Hc); lia|apply Ex|now apply (ancestral_valid _ _ _ A)|now apply weighted_nil]. }
    clear. generalize (seq 0 n). intros is.
    assert (Q : forall is, qprod (map (fun i => if row_is bn (a i) (s i) then 1%Qc else 0%Qc) is) = if forallb (fun i => row_is bn (a i) (s i)) is then 1%Qc else 0%Qc).
    { clear. induction is as [|i is IH]; [reflexivity|]. cbn [map qprod fold_right forallb]. unfold qprod in IH. rewrite IH. destruct (row_is bn (a i) (s i)); cbn [andb]; ring. }
    rewrite Q.
    destruct (list_eq_dec _ _ _) as [F|F]; destruct (forallb _ _) eqn:R; auto; exfalso.
    + apply not_true_iff_false in R. apply R. apply forallb_forall. intros i Hi. apply row_is_spec. intros v Hv.
      assert (G : map (fun v => Z.of_nat (s i v)) (bn_V bn) = map (fun v => Z.of_nat (a i v)) (bn_V bn)) by (now apply (proj1 map_ext_in_iff F)).
      assert (G' := proj1 map_ext_in_iff G v Hv). cbn beta in G'. lia.
    + apply F. apply map_ext_in. intros i Hi. rewrite forallb_forall in R. specialize (R i Hi). apply map_ext_in. intros v Hv. rewrite (proj1 (row_is_spec _ _ _) R v Hv). reflexivity.
Qed.
Print Assumptions C111_independent_rows.

(** ** C112: lw_sample converges to the posterior, at a rate governed by the evidence probability *)
Lemma off_false e x p : off_by e x p = false -> (x - p < e /\ p - x < e)%Qc.
Proof. unfold off_by. destruct (qleb_spec e (x - p)%Qc) as [A|A]; [discriminate|]. destruct (qleb_spec e (p - x)%Qc) as [B|B]; [discriminate|]. intros _. split; now apply Qcnot_le_lt. Qed.
Lemma off_true e x p : (x - p < e -> p - x < e -> off_by e x p = false)%Qc.
Proof. intros A B. unfold off_by. destruct (qleb_spec e (x - p)%Qc) as [C|C]; [now apply Qcle_not_lt in C|]. destruct (qleb_spec e (p - x)%Qc) as [C'|C']; [now apply Qcle_not_lt in C'|]. reflexivity. Qed.

Theorem C112_lw_converges : forall bn ev M d o n v x t, wfnet bn -> nonneg_net bn -> normalised bn -> nodes_topological bn -> denominator bn M -> positions d ->
  good_evidence bn ev -> (0 < evidence_prob bn ev)%Qc -> 0 < n -> In v (bn_V bn) -> x < ncard bn v -> (0 < t)%Qc ->
  let E := evidence_prob bn ev in
  let q := (marginal bn v ev x / E)%Qc in
  (fraction (cells M n (length (bn_V bn)))
     (fun c => misses (lw_sample o bn ev (draws M d c) n) v (nthval bn v x) (t + Q2Qc (1 # 20000)) q)
   <= Q2Qc 4 * (1 + q * (1 - q) / (t * t)) / (nQc n * E))%Qc.
Proof.
  intros bn ev M d o n v x t W NN N Top Den D GE HE Hn Hv Hx Ht E q.
  assert (ENZ : E <> 0%Qc) by (intros Z; fold E in HE; rewrite Z in HE; discriminate).
  assert (TNZ : t <> 0%Qc) by (intros Z; rewrite Z in Ht; discriminate).
  assert (NZ := nQc_nz n Hn). assert (Np := nQc_pos n Hn).
  set (Z := likelihood bn ev). set (Y := fun a => (Z a * (ind v x a - q))%Qc).
  assert (EZ : exton bn Z) by (now apply likelihood_ext).
  assert (EY : exton bn Y) by (intros a b H; unfold Y; rewrite (EZ a b H), (ind_ext bn v x Hv a b H); reflexivity).
  (* expectations *)
  assert (Jn : forall a, valid (ncard bn) (bn_V bn) a -> (0 <= joint bn a)%Qc).
  { intros a V. unfold joint. apply qprod_nonneg. intros z Hz. apply in_map_iff in Hz as (w & <- & Hw). now apply cond_prob_nonneg. }
  assert (mu1 : sum_over (ncard bn) (bn_V bn) (fun a => if agrees bn ev a then joint bn a * ind v x a else 0)%Qc (fun _ => 0) = (q * E)%Qc).
  { transitivity (marginal bn v ev x); [|unfold q; field; assumption]. unfold marginal, prob_of. apply sum_over_congr. intros a _ _. unfold ind.
    destruct (a v =? x), (agrees bn ev a); cbn [andb]; ring. }
  assert (mu0 : sum_over (ncard bn) (bn_V bn) (fun a => if agrees bn ev a then joint bn a * 1 else 0)%Qc (fun _ => 0) = E).
  { unfold E, evidence_prob, prob_of. apply sum_over_congr. intros a _ _. destruct (agrees bn ev a); ring. }
  assert (Lz := fun a V => likelihood_unit bn ev a W NN N V). fold Z in Lz.
  (* the weights *)
  assert (F0 : (fraction (cells M n (length (bn_V bn))) (fun c => off_by (E / Q2Qc 2) (qsum (map (fun i => rowval bn M ev (d i) Z (nth i c [])) (seq 0 n)) / nQc n) E) <= E / nQc n / (E / Q2Qc 2 * (E / Q2Qc 2)))%Qc).
  { apply (mean_cheb bn M d ev Z E E (E / Q2Qc 2)%Qc n); auto.
    - assert (H2 : (E / Q2Qc 2 * Q2Qc 2 = E)%Qc) by (field; discriminate). fold E in HE. rewrite <- H2 in HE. revert HE. generalize (E / Q2Qc 2)%Qc. intros; qclra.
    - intros i. rewrite <- mu0. rewrite <- (rowval_average bn M ev W NN N Den (d i) (fun _ => 1%Qc) (D i)). apply average_ext. intros c _. apply rowval_ext. intros a. unfold Z. ring.
    - intros i. rewrite (average_ext _ _ (fun c => rowval bn M ev (d i) (fun a => likelihood bn ev a * Z a)%Qc c + ((- (E + E)) * rowval bn M ev (d i) (fun a => likelihood bn ev a * 1)%Qc c + E * E))%Qc).
      + rewrite average_plus, average_plus, average_scale, average_const by (apply (L_ne bn M Den)).
        rewrite (rowval_average bn M ev W NN N Den (d i) Z (D i)), (rowval_average bn M ev W NN N Den (d i) (fun _ => 1%Qc) (D i)), mu0.
        assert (Q : (sum_over (ncard bn) (bn_V bn) (fun a => if agrees bn ev a then joint bn a * Z a else 0) (fun _ => 0%nat) <= E)%Qc).
        { rewrite <- mu0. apply sum_over_le; [assumption|]. intros a V. destruct (agrees bn ev a); [|apply Qcle_refl]. destruct (Lz a V) as [A B]. assert (C := Jn a V). revert A B C. generalize (Z a) (joint bn a). intros; qcnra. }
        revert Q. generalize (sum_over (ncard bn) (bn_V bn) (fun a => if agrees bn ev a then joint bn a * Z a else 0)%Qc (fun _ => 0%nat)). intros; qcnra.
      + intros c Hc. destruct (row_exists bn M ev W NN N Top Den GE (d i) c (D i) Hc) as (s & A & V).
        rewrite (rowval_ok bn M ev W NN N Top Den GE (d i) (fun a => (Z a - E) * (Z a - E))%Qc c s (D i) Hc) by (auto; intros a b H; now rewrite (EZ a b H)).
        rewrite (rowval_ok bn M ev W NN N Top Den GE (d i) (fun a => likelihood bn ev a * Z a)%Qc c s (D i) Hc) by (auto; intros a b H; fold Z; now rewrite (EZ a b H)).
        rewrite (rowval_ok bn M ev W NN N Top Den GE (d i) (fun a => likelihood bn ev a * 1)%Qc c s (D i) Hc) by (auto; intros a b H; fold Z; now rewrite (EZ a b H)).
        unfold Z. ring. }
  (* the weighted deviations *)
  set (e1 := (t * E / Q2Qc 2)%Qc).
  assert (Pe1 : (0 < e1)%Qc).
  { assert (H2 : (e1 * Q2Qc 2 = t * E)%Qc) by (unfold e1; field; discriminate). assert (H3 : (0 < t * E)%Qc) by (fold E in HE; revert Ht HE; generalize E; intros; qcnra). rewrite <- H2 in H3. revert H3. generalize e1. intros; qclra. }
  assert (F1 : (fraction (cells M n (length (bn_V bn))) (fun c => off_by e1 (qsum (map (fun i => rowval bn M ev (d i) Y (nth i c [])) (seq 0 n)) / nQc n) 0) <= E * (q * (1 - q)) / nQc n / (e1 * e1))%Qc).
  { apply (mean_cheb bn M d ev Y 0%Qc (E * (q * (1 - q)))%Qc e1 n); auto.
    - intros i. unfold Y, Z. rewrite (rowval_average bn M ev W NN N Den (d i) (fun a => ind v x a - q)%Qc (D i)).
      transitivity (q * E - q * E)%Qc; [|ring]. rewrite <- mu1 at 1. rewrite <- mu0. unfold Qcminus at 2.
      replace (- (q * sum_over (ncard bn) (bn_V bn) (fun a => if agrees bn ev a then joint bn a * 1 else 0)%Qc (fun _ => 0%nat)))%Qc with (- q * sum_over (ncard bn) (bn_V bn) (fun a => if agrees bn ev a then joint bn a * 1 else 0)%Qc (fun _ => 0%nat))%Qc by ring.
      rewrite <- sum_over_scale, <- sum_over_plus. apply sum_over_congr. intros a _ _. destruct (agrees bn ev a); ring.
    - intros i. rewrite (average_ext _ _ (rowval bn M ev (d i) (fun a => likelihood bn ev a * (Z a * ((ind v x a - q) * (ind v x a - q))))%Qc)) by (intros c _; apply rowval_ext; intros a; unfold Y, Z; ring).
      rewrite (rowval_average bn M ev W NN N Den (d i) (fun a => Z a * ((ind v x a - q) * (ind v x a - q)))%Qc (D i)).
      apply (Qcle_trans _ (sum_over (ncard bn) (bn_V bn) (fun a => (1 - q - q) * (if agrees bn ev a then joint bn a * ind v x a else 0) + (q * q) * (if agrees bn ev a then joint bn a * 1 else 0)) (fun _ => 0%nat))%Qc).
      + apply sum_over_le; [assumption|]. intros a V. destruct (agrees bn ev a); [|rewrite !Qcmult_0_r; apply Qcle_refl]. destruct (Lz a V) as [A B]. assert (C := Jn a V).
        replace ((1 - q - q) * (joint bn a * ind v x a) + q * q * (joint bn a * 1))%Qc with (joint bn a * ((ind v x a - q) * (ind v x a - q)))%Qc by (unfold ind; destruct (a v =? x); ring).
        assert (Sq : (0 <= (ind v x a - q) * (ind v x a - q))%Qc) by (generalize (ind v x a - q)%Qc; intros; qcnra).
        assert (P : (0 <= joint bn a * ((ind v x a - q) * (ind v x a - q)))%Qc) by (now apply Qcmult_nonneg).
        replace (joint bn a * (Z a * ((ind v x a - q) * (ind v x a - q))))%Qc with (Z a * (joint bn a * ((ind v x a - q) * (ind v x a - q))))%Qc by ring.
        revert A B P. generalize (joint bn a * ((ind v x a - q) * (ind v x a - q)))%Qc (Z a). intros; qcnra.
      + rewrite sum_over_plus, !sum_over_scale, mu1, mu0. replace (E * (q * (1 - q)))%Qc with ((1 - q - q) * (q * E) + q * q * E)%Qc by ring. apply Qcle_refl. }
  (* together *)
  replace (Q2Qc 4 * (1 + q * (1 - q) / (t * t)) / (nQc n * E))%Qc with (E / nQc n / (E / Q2Qc 2 * (E / Q2Qc 2)) + E * (q * (1 - q)) / nQc n / (e1 * e1))%Qc.
  2:{ unfold e1. replace (Q2Qc 4) with (Q2Qc 2 * Q2Qc 2)%Qc by (apply Qc_is_canon; reflexivity). field. repeat split; auto; discriminate. }
  eapply Qcle_trans; [|apply Qcplus_le_compat; [exact F0|exact F1]].
  apply fraction_or; [now apply cells_ne|]. intros c Hc Ms. destruct (off_by (E / Q2Qc 2) _ E) eqn:O0; [now left|]. right.
  destruct (off_by e1 _ 0) eqn:O1; [reflexivity|exfalso]. apply off_false in O0 as [_ O0]. apply off_false in O1 as [O1 O1'].
  destruct (lw_ok bn ev o (draws M d c) n (sm bn W NN N) Top GE (draws_unit bn M Den d D n c Hc) Hn) as (s & Hs & Eq). cbn zeta in Eq.
  set (total := qsum (map (fun i => likelihood bn ev (s i)) (seq 0 n))) in *.
  assert (Row : forall g i, exton bn g -> i < n -> rowval bn M ev (d i) g (nth i c []) = g (s i)).
  { intros g i Eg Hi. destruct (Hs i Hi) as [A V]. apply (rowval_ok bn M ev W NN N Top Den GE (d i) g (nth i c []) (s i) (D i)); auto. now apply (cells_row bn M n). }
  assert (T0 : qsum (map (fun i => rowval bn M ev (d i) Z (nth i c [])) (seq 0 n)) = total).
  { apply qsum_map_ext. intros i Hi. apply in_seq in Hi. apply Row; [assumption|lia]. }
  assert (T1 : qsum (map (fun i => rowval bn M ev (d i) Y (nth i c [])) (seq 0 n)) = (whits s (fun i => likelihood bn ev (s i)) (seq 0 n) v x - q * total)%Qc).
  { unfold whits, total. replace (q * qsum (map (fun i => likelihood bn ev (s i)) (seq 0 n)))%Qc with (- (- q * qsum (map (fun i => likelihood bn ev (s i)) (seq 0 n))))%Qc by ring.
    rewrite <- qsum_map_mult_l. transitivity (qsum (map (fun i => (if s i v =? x then likelihood bn ev (s i) else 0) + - q * likelihood bn ev (s i))%Qc (seq 0 n))).
    - apply qsum_map_ext. intros i Hi. apply in_seq in Hi. rewrite (Row Y i EY ltac:(lia)). unfold Y, Z, ind. destruct (s i v =? x); ring.
    - rewrite qsum_map_plus. ring. }
  rewrite T0 in O0. rewrite T1 in O1, O1'. set (wh := whits s (fun i => likelihood bn ev (s i)) (seq 0 n) v x) in *.
  (* total > n E / 2 *)
  assert (Tb : (nQc n * E < total * Q2Qc 2)%Qc).
  { assert (A : (total / nQc n * nQc n = total)%Qc) by (field; assumption). assert (B : (E / Q2Qc 2 * Q2Qc 2 = E)%Qc) by (field; discriminate).
    rewrite <- A. revert O0 Np. rewrite <- B at 1 3. generalize (total / nQc n)%Qc (E / Q2Qc 2)%Qc (nQc n). intros a b m H1 H2. qcnra. }
  assert (Tp : (0 < total)%Qc) by (fold E in HE; revert Tb HE Np; generalize total E (nQc n); intros a b m; intros; qcnra).
  assert (TZ : total <> 0%Qc) by (intros Z0; rewrite Z0 in Tp; discriminate).
  (* |wh - q total| < t total *)
  assert (Db : (wh - q * total < t * total /\ q * total - wh < t * total)%Qc).
  { assert (A : ((wh - q * total) / nQc n * nQc n = wh - q * total)%Qc) by (field; assumption). assert (B : (e1 * Q2Qc 2 = t * E)%Qc) by (unfold e1; field; discriminate).
    assert (C : (t * (nQc n * E) < t * (total * Q2Qc 2))%Qc) by (revert Tb Ht; generalize (nQc n * E)%Qc (total * Q2Qc 2)%Qc; intros; qcnra).
    replace (t * (nQc n * E))%Qc with (nQc n * (e1 * Q2Qc 2))%Qc in C by (rewrite B; ring).
    replace (t * (total * Q2Qc 2))%Qc with ((t * total) * Q2Qc 2)%Qc in C by ring.
    replace (q * total - wh)%Qc with (- (wh - q * total))%Qc by ring. rewrite <- A.
    revert O1 O1' C Np. generalize ((wh - q * total) / nQc n)%Qc (t * total)%Qc e1 (nQc n). intros a b e m H1 H2 H3 H4. split; qcnra. }
  (* the estimate *)
  unfold misses in Ms. rewrite Eq in Ms. rewrite (answer_get bn _ v W Hv) in Ms. rewrite (answer_get2 bn (fun v x => if Qc_eq_dec total 0 then None else Some (py_round 4 (whits s (fun i => likelihood bn ev (s i)) (seq 0 n) v x / total)%Qc)) v x W Hv Hx) in Ms.
  destruct (Qc_eq_dec total 0) as [Z0|_]; [contradiction|]. fold wh in Ms.
  destruct (py_round_near 4 (wh / total)%Qc) as [R1 R2].
  assert (hp : (half / pow10 4 = Q2Qc (1 # 20000))%Qc) by (apply Qc_is_canon; vm_compute; reflexivity). rewrite hp in R1, R2.
  assert (Eb : (wh / total - q < t /\ q - wh / total < t)%Qc).
  { assert (A : (wh / total * total = wh)%Qc) by (field; assumption). rewrite <- A in Db. revert Db Tp. generalize (wh / total)%Qc total. intros a b [H1 H2] H3. split; qcnra. }
  rewrite off_true in Ms; [discriminate| |]; revert R1 R2 Eb; generalize (wh / total)%Qc (py_round 4 (wh / total)) (Q2Qc (1 # 20000)); intros a b e H1 H2 [H3 H4]; qclra.
Qed.
Print Assumptions C112_lw_converges.

(** ** C113: gibbs_sample is biased by the factor (n-burn-1)/(n-burn) *)
Theorem C113_gibbs_bias : forall bn M d o init n burn v x, wfnet bn -> nonneg_net bn -> normalised bn -> nodes_topological bn -> denominator bn M -> positions d ->
  burn < n -> In v (bn_V bn) -> x < ncard bn v ->
  let mean := average (cells M n (length (bn_V bn))) (fun c => reported (gibbs_sample o bn init (draws M d c) n burn) v (nthval bn v x)) in
  let expected := (nQc (n - burn - 1) / nQc (n - burn) * marginal bn v [] x)%Qc in
  (expected - Q2Qc (1 # 20000) <= mean /\ mean <= expected + Q2Qc (1 # 20000))%Qc.
Proof.
  intros bn M d o init n burn v x W NN N Top Den D Hb Hv Hx. cbn zeta. assert (LW : lawful bn M d) by (unfold lawful; auto 10).
  assert (NZ := nQc_nz (n - burn) ltac:(lia)).
  set (R := fun c => (qsum (map (fun i => rowval bn M [] (d i) (ind v x) (nth i c [])) (seq (S burn) (n - S burn))) / nQc (n - burn))%Qc).
  assert (hp : (half / pow10 4 = Q2Qc (1 # 20000))%Qc) by (apply Qc_is_canon; vm_compute; reflexivity).
  assert (E : forall c, In c (cells M n (length (bn_V bn))) -> reported (gibbs_sample o bn init (draws M d c) n burn) v (nthval bn v x) = py_round 4 (R c)).
  { intros c Hc. destruct (gibbs_ok bn o init (draws M d c) n burn (sm bn W NN N) (draws_unit bn M Den d D n c Hc) Hb) as (s & Hs & E). rewrite E.
    rewrite (reported_answer bn (fun v x => py_round 4 (nQc (hits s (seq (S burn) (n - S burn)) v x) / nQc (n - burn))%Qc) v x W Hv Hx). unfold R. do 2 f_equal.
    apply (hits_rows bn M W NN N Top Den d D v x _ n c s Hv Hc). intros i Hi. apply in_seq in Hi. split; [lia|]. apply Hs; [lia|assumption]. }
  assert (Mr : average (cells M n (length (bn_V bn))) R = (nQc (n - burn - 1) / nQc (n - burn) * marginal bn v [] x)%Qc).
  { set (G := fun i c => if S burn <=? i then rowval bn M [] (d i) (ind v x) c else 0%Qc).
    rewrite (average_ext _ _ (fun c => / nQc (n - burn) * qsum (map (fun i => G i (nth i c [])) (seq 0 n)))%Qc).
    - rewrite average_scale. unfold cells. rewrite (average_sum (list nat) (lists_of (seq 0 M) (length (bn_V bn))) (L_ne bn M Den) [] n G).
      replace (seq 0 n) with (seq 0 (S burn) ++ seq (S burn) (n - S burn)) by (rewrite <- seq_app; f_equal; lia). rewrite map_app, qsum_app.
      rewrite (qsum_zero _ (seq 0 (S burn))).
      + rewrite (qsum_map_ext _ (fun _ => marginal bn v [] x * 1)%Qc).
        * rewrite qsum_map_mult_l, qsum_ones, seq_length. replace (n - burn - 1) with (n - S burn) by lia. field. assumption.
        * intros i Hi. apply in_seq in Hi. unfold G. destruct (Nat.leb_spec (S burn) i); [|lia].
          rewrite (average_ext _ _ (rowval bn M [] (d i) (ind v x))) by reflexivity. rewrite (rowval_nil_average bn M W NN N Den d D i (ind v x)), marginal_ind. ring.
      + intros i Hi. apply in_seq in Hi. unfold G. destruct (Nat.leb_spec (S burn) i); [lia|]. apply average_const. apply (L_ne bn M Den).
    - intros c _. unfold R. replace (seq 0 n) with (seq 0 (S burn) ++ seq (S burn) (n - S burn)) by (rewrite <- seq_app; f_equal; lia). rewrite map_app, qsum_app.
      rewrite (qsum_zero _ (seq 0 (S burn))).
      + rewrite (qsum_map_ext (fun i => G i (nth i c [])) (fun i => rowval bn M [] (d i) (ind v x) (nth i c []))).
        * unfold Qcdiv. ring.
        * intros i Hi. apply in_seq in Hi. unfold G. destruct (Nat.leb_spec (S burn) i); [reflexivity|lia].
      + intros i Hi. apply in_seq in Hi. unfold G. destruct (Nat.leb_spec (S burn) i); [lia|reflexivity]. }
  rewrite <- Mr. rewrite (average_ext _ _ (fun c => py_round 4 (R c)) E).
  assert (NE := cells_ne bn M Den n).
  split.
  - assert (A := average_le (cells M n (length (bn_V bn))) (fun c => R c + - Q2Qc (1 # 20000))%Qc (fun c => py_round 4 (R c)) NE).
    rewrite average_plus, average_const in A by assumption. apply A. intros c _. destruct (py_round_near 4 (R c)) as [R1 _]. rewrite hp in R1. exact R1.
  - assert (A := average_le (cells M n (length (bn_V bn))) (fun c => py_round 4 (R c)) (fun c => R c + Q2Qc (1 # 20000))%Qc NE).
    rewrite average_plus, average_const in A by assumption. apply A. intros c _. destruct (py_round_near 4 (R c)) as [_ R1]. rewrite hp in R1. exact R1.
Qed.
Print Assumptions C113_gibbs_bias.
(** so it underestimates every probability larger than (n-burn)/20000 *)
Theorem C113_unbiased_refuted : forall bn M d o init n burn v x, wfnet bn -> nonneg_net bn -> normalised bn -> nodes_topological bn -> denominator bn M -> positions d ->
  burn < n -> In v (bn_V bn) -> x < ncard bn v -> (nQc (n - burn) * Q2Qc (1 # 20000) < marginal bn v [] x)%Qc ->
  (average (cells M n (length (bn_V bn))) (fun c => reported (gibbs_sample o bn init (draws M d c) n burn) v (nthval bn v x)) < marginal bn v [] x)%Qc.
Proof.
  intros bn M d o init n burn v x W NN N Top Den D Hb Hv Hx H.
  destruct (C113_gibbs_bias bn M d o init n burn v x W NN N Top Den D Hb Hv Hx) as [_ A]. cbn zeta in A. eapply Qcle_lt_trans; [exact A|]. clear A.
  assert (NZ := nQc_nz (n - burn) ltac:(lia)). assert (Np := nQc_pos (n - burn) ltac:(lia)).
  set (p := marginal bn v [] x) in *.
  assert (E : (nQc (n - burn - 1) / nQc (n - burn) * p = p - p / nQc (n - burn))%Qc).
  { assert (E : nQc (n - burn) = (nQc (n - burn - 1) + 1)%Qc) by (change 1%Qc with (nQc 1); rewrite <- nQc_plus; f_equal; lia).
    replace (nQc (n - burn - 1)) with (nQc (n - burn) - 1)%Qc by (rewrite E; ring). field. assumption. }
  rewrite E. assert (Q : (p / nQc (n - burn) * nQc (n - burn) = p)%Qc) by (field; assumption). rewrite <- Q in H.
  assert (L : (Q2Qc (1 # 20000) < p / nQc (n - burn))%Qc).
  { apply Qcnot_le_lt. intros L. revert H Np L. generalize (p / nQc (n - burn))%Qc (nQc (n - burn)) (Q2Qc (1 # 20000)). intros; qcnra. }
  revert L. generalize (p / nQc (n - burn))%Qc (Q2Qc (1 # 20000)) p. intros; qclra.
Qed.
Print Assumptions C113_unbiased_refuted.

(** ** the hypotheses hold for a real network, and the averages can be computed *)
Lemma ex3_den : denominator ex3 20.
Proof.
  split; [lia|]. intros v p Hv Hp.
  assert (G : forallb (fun v => forallb (fun p => if in_dec Qc_eq_dec p (map (fun z => (nQc z / nQc 20)%Qc) (seq 0 21)) then true else false) (ncpt ex3 v)) (bn_V ex3) = true) by (vm_compute; reflexivity).
  rewrite forallb_forall in G. specialize (G v Hv). rewrite forallb_forall in G. specialize (G p Hp).
  destruct (in_dec _ _ _) as [I|]; [|discriminate]. apply in_map_iff in I as (z & E & _). exists z. symmetry. exact E.
Qed.
Lemma zero_lists {A} (z : A) l n : In z l -> In (repeat z n) (lists_of l n).
Proof. intros H. induction n as [|n IH]; [now left|]. cbn [repeat lists_of]. apply in_flat_map. exists z. split; [assumption|]. now apply in_map. Qed.
Example C110_nonvacuous : wfnet ex3 /\ nonneg_net ex3 /\ normalised ex3 /\ nodes_topological ex3 /\ denominator ex3 20 /\ positions (fun _ _ => 0%Qc) /\
  In exA (bn_V ex3) /\ 1 < ncard ex3 exA /\ (exists c, In c (cells 20 2 3) /\
  same_table (random_sample id_oracle ex3 (fun _ _ => 0%Z) (draws 20 (fun _ _ => 0%Qc) c) 2) (map (fun i => map (fun v => Z.of_nat ((fun _ => 0%nat) v)) (bn_V ex3)) (seq 0 2)) = true) /\
  good_evidence ex3 [(exC, nm "1")] /\ (0 < evidence_prob ex3 [(exC, nm "1")])%Qc /\
  (nQc (5 - 2) * Q2Qc (1 # 20000) < marginal ex3 exA [] 1)%Qc.
Proof.
  split; [apply ex3_wf|]. split; [apply ex3_nonneg|]. split; [apply ex3_norm|]. split; [apply ex3_top|]. split; [apply ex3_den|].
  split; [intros i j; split; [discriminate|reflexivity]|]. split; [vm_compute; auto|]. split; [vm_compute; lia|]. split; [|split; [|split]].
  - exists [[0;0;0];[0;0;0]]. split; [|vm_compute; reflexivity]. apply (zero_lists [0;0;0] _ 2), (zero_lists 0 _ 3). apply in_seq. lia.
  - split; [repeat constructor; intros []|]. intros rv x [E|[]]. injection E as <- <-. split; vm_compute; auto.
  - vm_compute. reflexivity.
  - vm_compute. reflexivity.
Qed.
(** all 8000 runs of one sample of [ex3] *)
Example C110_computed : (if Qc_eq_dec (average (cells 20 1 3) (fun c => reported (forward_sample id_oracle ex3 (draws 20 (fun _ _ => 0%Qc) c) 1) exC (nm "1"))) (marginal ex3 exC [] 1) then true else false) = true.
Proof. vm_compute. reflexivity. Qed.
