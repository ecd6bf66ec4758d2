(** LawUse.v -- the samplers' reports as sums of independent row values. *)
From Verif Require Import Py Num BayesNet Factor SpecFactor Radix SpecInference VE VETotal SpecSample Sampling SampleFacts SampleMain SampleLaws SumOver SpecLaw LawFacts ParamFacts GraphCheck Mst Rounding Properties_Sample LawMain.
Open Scope nat_scope.

Section Use.
Variable bn : bayesnet.
Variable M : nat.
Hypothesis W : wfnet bn.
Hypothesis NN : nonneg_net bn.
Hypothesis N : normalised bn.
Hypothesis Top : nodes_topological bn.
Hypothesis Den : denominator bn M.
Variable d : nat -> nat -> Qc.
Hypothesis D : positions d.
Let k := length (bn_V bn).
Let L := lists_of (seq 0 M) k.

Lemma L_ne : L <> [].
Proof. apply lists_ne. destruct Den as [P _]. destruct M; [lia|discriminate]. Qed.
Lemma cells_ne n : cells M n k <> [].
Proof. apply lists_ne. apply L_ne. Qed.
Lemma cells_row n c i : In c (cells M n k) -> i < n -> In (nth i c []) L.
Proof. intros H Hi. destruct (lists_of_In _ _ _ H) as [E I]. apply I. apply nth_In. lia. Qed.
Lemma draws_unit n c : In c (cells M n k) -> unit_draws (draws M d c).
Proof.
  intros H i j. destruct (le_lt_dec n i) as [G|G].
  - destruct (lists_of_In _ _ _ H) as [E _]. unfold draws. rewrite (nth_overflow c) by lia.
    assert (Z : In (repeat 0 k) L).
    { unfold L. destruct Den as [P _]. clear - P. generalize k. intros m. induction m as [|m IH]; [now left|]. cbn [repeat lists_of]. apply in_flat_map. exists 0. split; [apply in_seq; lia|]. now apply in_map. }
    assert (R := row_unit bn M Den (d i) (repeat 0 k) (D i) Z j). unfold urow in R.
    replace (nth j [] 0) with (nth j (repeat 0 k) 0); [exact R|]. rewrite nth_repeat. now destruct j.
  - apply (row_unit bn M Den (d i) (nth i c []) (D i)). now apply (cells_row n).
Qed.
Lemma ge_nil : good_evidence bn [].
Proof. split; [constructor|intros v x []]. Qed.
Lemma weighted_nil u a : ancestral bn u a -> weighted_sample bn [] u a.
Proof. intros A j v Hv. cbn [dget]. now apply A. Qed.
Lemma likelihood_nil a : likelihood bn [] a = 1%Qc.
Proof. unfold likelihood. cbn [map mem]. rewrite (filter_ext_in _ (fun _ => false)) by reflexivity. replace (filter (fun _ => false) (bn_V bn)) with (@nil name); [reflexivity|]. clear. induction (bn_V bn); auto. Qed.
Lemma rowval_nil_average i g : average L (rowval bn M [] (d i) g) = sum_over (ncard bn) (bn_V bn) (fun a => joint bn a * g a)%Qc (fun _ => 0).
Proof.
  rewrite (average_ext _ _ (rowval bn M [] (d i) (fun a => likelihood bn [] a * g a)%Qc)).
  - unfold L, k. rewrite (rowval_average bn M [] W NN N Den (d i) g (D i)). apply sum_over_congr. intros a _ _. reflexivity.
  - intros c _. apply rowval_ext. intros a. rewrite likelihood_nil. ring.
Qed.
Lemma total_one : sum_over (ncard bn) (bn_V bn) (joint bn) (fun _ => 0) = 1%Qc.
Proof.
  transitivity (sum_over (ncard bn) (bn_V bn) (fun a => joint bn a * 1)%Qc (fun _ => 0)); [apply sum_over_congr; intros; ring|].
  rewrite <- (rowval_nil_average 0 (fun _ => 1%Qc)). rewrite (average_ext _ _ (fun _ => 1%Qc)).
  - apply average_const. apply L_ne.
  - intros c Hc. destruct (row_exists bn M [] W NN N Top Den ge_nil (d 0) c (D 0) Hc) as (s & A & V).
    apply (rowval_ok bn M [] W NN N Top Den ge_nil (d 0) (fun _ => 1%Qc) c s (D 0) Hc); auto. intros ? ? ?; reflexivity.
Qed.
(** a function of the row's value is the row's value of the composed function *)
Lemma rowval_fun ev g h i c : good_evidence bn ev -> In c L -> exton bn g -> h (rowval bn M ev (d i) g c) = rowval bn M ev (d i) (fun a => h (g a)) c.
Proof.
  intros GE Hc Eg. destruct (row_exists bn M ev W NN N Top Den GE (d i) c (D i) Hc) as (s & A & V).
  rewrite (rowval_ok bn M ev W NN N Top Den GE (d i) g c s (D i) Hc Eg V A).
  symmetry. apply (rowval_ok bn M ev W NN N Top Den GE (d i) (fun a => h (g a)) c s (D i) Hc); auto. intros a b E. now rewrite (Eg a b E).
Qed.
Definition ind (v : name) (x : nat) (a : asg) : Qc := if a v =? x then 1%Qc else 0%Qc.
Lemma ind_ext v x : In v (bn_V bn) -> exton bn (ind v x).
Proof. intros Hv a b E. unfold ind. now rewrite (E v Hv). Qed.
Lemma hits_rows v x is n c s : In v (bn_V bn) -> In c (cells M n k) -> (forall i, In i is -> i < n /\ ancestral bn (draws M d c i) (s i)) ->
  nQc (hits s is v x) = qsum (map (fun i => rowval bn M [] (d i) (ind v x) (nth i c [])) is).
Proof.
  intros Hv Hc Hs. rewrite hits_whits. unfold whits. apply qsum_map_ext. intros i Hi. destruct (Hs i Hi) as [Li A].
  symmetry. apply (rowval_ok bn M [] W NN N Top Den ge_nil (d i) (ind v x) (nth i c []) (s i) (D i)); [now apply (cells_row n)|now apply ind_ext| |].
  - now apply (ancestral_valid _ _ _ A).
  - now apply weighted_nil.
Qed.
Lemma marginal_ind v x : sum_over (ncard bn) (bn_V bn) (fun a => joint bn a * ind v x a)%Qc (fun _ => 0) = marginal bn v [] x.
Proof. unfold marginal, prob_of. apply sum_over_congr. intros a _ _. unfold ind, agrees. cbn [forallb]. rewrite andb_true_r. destruct (a v =? x); ring. Qed.
End Use.

Lemma reported_answer bn (f : name -> nat -> Qc) v x : wfnet bn -> In v (bn_V bn) -> x < ncard bn v ->
  reported (Ok (answer bn f)) v (nth x (nvalues bn v) (NInt 0)) = f v x.
Proof.
  intros W Hv Hx. unfold reported. rewrite (answer_get bn f v W Hv). now rewrite (answer_get2 bn f v x W Hv Hx).
Qed.

(** the mean of n independent rows is close to the expectation *)
Lemma mean_cheb bn M d ev g mu V e n : wfnet bn -> nonneg_net bn -> normalised bn -> nodes_topological bn -> denominator bn M -> positions d -> good_evidence bn ev -> exton bn g -> 0 < n -> (0 < e)%Qc ->
  (forall i, average (lists_of (seq 0 M) (length (bn_V bn))) (rowval bn M ev (d i) g) = mu) ->
  (forall i, average (lists_of (seq 0 M) (length (bn_V bn))) (rowval bn M ev (d i) (fun a => (g a - mu) * (g a - mu))) <= V)%Qc ->
  (fraction (cells M n (length (bn_V bn))) (fun c => off_by e (qsum (map (fun i => rowval bn M ev (d i) g (nth i c [])) (seq 0 n)) / nQc n) mu) <= V / nQc n / (e * e))%Qc.
Proof.
  intros W NN N Top Den D GE Eg Hn He Hmu HV. apply chebyshev; [now apply cells_ne|assumption|].
  set (X := fun i c => (rowval bn M ev (d i) g c - mu)%Qc).
  rewrite (average_ext _ _ (fun c => (/ nQc n * / nQc n) * (qsum (map (fun i => X i (nth i c [])) (seq 0 n)) * qsum (map (fun i => X i (nth i c [])) (seq 0 n))))%Qc).
  - rewrite average_scale. unfold cells.
    rewrite (average_square (list nat) (lists_of (seq 0 M) (length (bn_V bn))) (L_ne bn M Den) [] n X).
    + assert (Q : (qsum (map (fun i => average (lists_of (seq 0 M) (length (bn_V bn))) (fun x => X i x * X i x)) (seq 0 n)) <= qsum (map (fun _ => V * 1) (seq 0 n)))%Qc).
      { apply qsum_le. intros i _. rewrite Qcmult_1_r. eapply Qcle_trans; [|apply (HV i)]. rewrite (average_ext _ _ (rowval bn M ev (d i) (fun a => (g a - mu) * (g a - mu))%Qc)); [apply Qcle_refl|].
        intros c Hc. unfold X. apply (rowval_fun bn M W NN N Top Den d D ev g (fun q => (q - mu) * (q - mu))%Qc i c GE Hc Eg). }
      rewrite qsum_map_mult_l, qsum_ones, seq_length in Q. replace (V / nQc n)%Qc with (/ nQc n * / nQc n * (V * nQc n))%Qc by (field; now apply nQc_nz).
      assert (P : (0 < / nQc n * / nQc n)%Qc).
      { assert (Np := nQc_pos n Hn). assert (O := Qcmult_inv_r (nQc n) (nQc_nz n Hn)). assert (NZ : (/ nQc n)%Qc <> 0%Qc). { intros Z. rewrite Z in O. revert O. rewrite Qcmult_0_r. discriminate. }
        revert NZ. generalize (/ nQc n)%Qc. intros q NZ. destruct (Qclt_le_dec 0 q) as [H|H]; [qcnra|]. destruct (Qcle_lt_or_eq _ _ H) as [H'|H']; [qcnra|contradiction]. }
      revert Q P. generalize (/ nQc n * / nQc n)%Qc (V * nQc n)%Qc (qsum (map (fun i => average (lists_of (seq 0 M) (length (bn_V bn))) (fun x => X i x * X i x)%Qc) (seq 0 n))). intros; qcnra.
    + intros i _. unfold X. rewrite (average_ext _ _ (fun c => rowval bn M ev (d i) g c + - mu)%Qc) by reflexivity.
      rewrite average_plus, average_const by (apply (L_ne bn M Den)). rewrite Hmu. ring.
  - intros c Hc. unfold X.
    rewrite (qsum_map_ext (fun i => rowval bn M ev (d i) g (nth i c []) - mu)%Qc (fun i => rowval bn M ev (d i) g (nth i c []) + - mu * 1)%Qc) by (intros; ring).
    rewrite qsum_map_plus, qsum_map_mult_l, qsum_ones, seq_length. field. now apply nQc_nz.
Qed.
Lemma cond_le_one bn v a : wfnet bn -> nonneg_net bn -> normalised bn -> In v (bn_V bn) -> valid (ncard bn) (bn_V bn) a -> (0 <= getq (cond_prob bn v a) /\ getq (cond_prob bn v a) <= 1)%Qc.
Proof.
  intros W NN N Hv V. split; [now apply cond_prob_nonneg|]. assert (C1 := N v a Hv V). fold (cum bn v a (ncard bn v)) in C1.
  assert (A := cum_mono bn v a NN Hv 0 (a v) ltac:(lia)). assert (B := cum_mono bn v a NN Hv (S (a v)) (ncard bn v) ltac:(apply V; assumption)).
  rewrite cum_S, cond_self, C1 in B. change (cum bn v a 0) with 0%Qc in A. revert A B. generalize (cum bn v a (a v)) (getq (cond_prob bn v a)). intros; qclra.
Qed.
Lemma likelihood_unit bn ev a : wfnet bn -> nonneg_net bn -> normalised bn -> valid (ncard bn) (bn_V bn) a -> (0 <= likelihood bn ev a /\ likelihood bn ev a <= 1)%Qc.
Proof.
  intros W NN N V. unfold likelihood.
  assert (G : forall vs, incl vs (bn_V bn) -> (0 <= qprod (map (fun v => getq (cond_prob bn v a)) vs) /\ qprod (map (fun v => getq (cond_prob bn v a)) vs) <= 1)%Qc).
  { induction vs as [|v vs IH]; intros I; [split; [discriminate|apply Qcle_refl]|]. cbn [map qprod fold_right]. fold (qprod (map (fun v => getq (cond_prob bn v a)) vs)).
    destruct IH as [A B]; [intros z Hz; apply I; now right|]. destruct (cond_le_one bn v a W NN N (I v (or_introl eq_refl)) V) as [A' B'].
    revert A B A' B'. generalize (qprod (map (fun v => getq (cond_prob bn v a)) vs)) (getq (cond_prob bn v a)). intros; split; qcnra. }
  apply G. intros v Hv. now apply filter_In in Hv.
Qed.
Lemma likelihood_ext bn ev : wfnet bn -> exton bn (likelihood bn ev).
Proof.
  intros W a b E. unfold likelihood. apply qprod_map_ext. intros v Hv. apply filter_In in Hv as [Hv _]. f_equal. apply cond_prob_ext. intros w [<-|Hw]; apply E; [assumption|]. now apply (wn_par _ W v Hv).
Qed.
Lemma sum_over_le bn phi psi : wfnet bn -> (forall a, valid (ncard bn) (bn_V bn) a -> phi a <= psi a)%Qc ->
  (sum_over (ncard bn) (bn_V bn) phi (fun _ => 0%nat) <= sum_over (ncard bn) (bn_V bn) psi (fun _ => 0%nat))%Qc.
Proof.
  intros W H. assert (Q : (0 <= sum_over (ncard bn) (bn_V bn) (fun a => psi a + (- (1)) * phi a) (fun _ => 0%nat))%Qc).
  { apply sum_over_nonneg. intros b _ V. specialize (H b (V (wn_V _ W))). revert H. generalize (phi b) (psi b). intros; qclra. }
  rewrite sum_over_plus, sum_over_scale in Q. revert Q. generalize (sum_over (ncard bn) (bn_V bn) phi (fun _ => 0%nat)) (sum_over (ncard bn) (bn_V bn) psi (fun _ => 0%nat)). intros; qclra.
Qed.
