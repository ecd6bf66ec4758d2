(** Properties_Bayes.v -- theorem C131: the Bayesian estimator against the maximum likelihood estimator.
    Specification: SpecLearn.v (rel_freq, prior_weight, within). *)
From Verif Require Import Py Num BayesNet Factor SpecFactor Radix Graph Data SpecLearn ParamLearn ParamFacts ParamMain BayesZero Rounding Examples Properties_Learn Properties_LearnLaw LearnInfer.
From Coq Require Import Sorted.
Open Scope nat_scope.

Lemma nz (x : Qc) : (0 < x)%Qc -> x <> 0%Qc.
Proof. intros P ->. discriminate. Qed.
Lemma Qcmult_pos x y : (0 < x -> 0 < y -> 0 < x * y)%Qc.
Proof. intros A B. qcnra. Qed.
Lemma rows_le t bn v a : rows_with t (config (nvalues bn) (v :: nparents bn v) a) <= rows_with t (config (nvalues bn) (nparents bn v) a).
Proof. apply rows_with_mono. intros z Hz. now right. Qed.
Lemma q_pos bn v : wfnet bn -> In v (bn_V bn) -> 0 < nprod (map (ncard bn) (nparents bn v)).
Proof. intros W Hv. apply size_pos. intros u Hu. apply card_pos; [assumption|now apply (wn_par _ W v)]. Qed.
Lemma one_nQc n : 0 < n -> (1 <= nQc n)%Qc.
Proof. intros H. rewrite <- nQc_1. now apply nQc_le. Qed.

Lemma weight_bounds t e bn v a : wfnet bn -> (0 < e)%Qc -> In v (bn_V bn) -> (0 < prior_weight t e bn v a /\ prior_weight t e bn v a <= 1)%Qc.
Proof.
  intros W He Hv. unfold prior_weight. pose proof (one_nQc _ (q_pos bn v W Hv)) as Q. pose proof (nQc_nonneg (rows_with t (config (nvalues bn) (nparents bn v) a))) as D.
  revert Q D. generalize (nQc (rows_with t (config (nvalues bn) (nparents bn v) a))). generalize (nQc (nprod (map (ncard bn) (nparents bn v)))). intros q d Q D.
  assert (QD : (0 <= q * d)%Qc) by (apply Qcmult_nonneg; [qclra|assumption]). revert QD. generalize (q * d)%Qc. intros x X.
  assert (P : (0 < e + x)%Qc) by qclra. split; [now apply Qcdiv_pos|].
  assert (E : (e / (e + x) * (e + x) = e)%Qc) by (field; now apply nz). revert E. generalize (e / (e + x))%Qc. intros w E.
  destruct (Qclt_le_dec 1 w) as [L|L]; [exfalso|assumption]. assert (((1 * (e + x)) < w * (e + x))%Qc) by now apply Qcmult_lt_compat_r. rewrite E in H. qclra.
Qed.

(** the smoothed frequency is the uniform distribution and the relative frequency, mixed in the proportion of
    the prior's weight; an unseen parent configuration gets the uniform distribution *)
Theorem C131_mixture : forall t e bn v a, wfnet bn -> (0 < e)%Qc -> In v (bn_V bn) ->
  let w := prior_weight t e bn v a in
  (smoothed t e bn v a = w * (1 / nQc (ncard bn v)) + (1 - w) * rel_freq t bn v a /\ 0 < w /\ w <= 1)%Qc /\
  (rows_with t (config (nvalues bn) (nparents bn v) a) = 0%nat -> smoothed t e bn v a = 1 / nQc (ncard bn v))%Qc.
Proof.
  intros t e bn v a W He Hv. cbn zeta. destruct (weight_bounds t e bn v a W He Hv) as [W0 W1].
  assert (M : (smoothed t e bn v a = prior_weight t e bn v a * (1 / nQc (ncard bn v)) + (1 - prior_weight t e bn v a) * rel_freq t bn v a)%Qc /\
    (rows_with t (config (nvalues bn) (nparents bn v) a) = 0 -> prior_weight t e bn v a = 1%Qc)).
  2:{ destruct M as [M Z]. split; [now split; [|split]|]. intros D. rewrite M, (Z D). ring. }
  clear W0 W1. unfold smoothed, prior_weight, rel_freq. cbn zeta. cbn [map nprod fold_right]. fold (nprod (map (ncard bn) (nparents bn v))). rewrite nQc_mult.
  pose proof (one_nQc _ (q_pos bn v W Hv)) as Q. pose proof (one_nQc _ (card_pos bn v W Hv)) as R. pose proof (rows_le t bn v a) as L.
  revert L. generalize (rows_with t (config (nvalues bn) (v :: nparents bn v) a)). generalize (rows_with t (config (nvalues bn) (nparents bn v) a)). intros D N L.
  revert Q R. generalize (nQc (nprod (map (ncard bn) (nparents bn v)))). generalize (nQc (ncard bn v)). intros r q Q R.
  assert (q0 : q <> 0%Qc) by (apply nz; qclra). assert (r0 : r <> 0%Qc) by (apply nz; qclra). assert (e0 := nz e He).
  assert (rq : (0 < r * q)%Qc) by (apply Qcmult_pos; qclra).
  destruct D as [|D].
  - assert (N = 0) as -> by lia. rewrite nQc_0. replace (e / (e + q * 0))%Qc with 1%Qc by (field; intros H; apply e0; rewrite <- H; ring). split; [|reflexivity].
    replace ((1 - 1) * (0 / 0))%Qc with 0%Qc by ring. field. split; [assumption|]. split; [assumption|]. assumption.
  - pose proof (one_nQc (S D) ltac:(lia)) as P. revert P. generalize (nQc (S D)) (nQc N). intros d m P. split; [|discriminate].
    assert (d0 : d <> 0%Qc) by (apply nz; qclra). assert (QD : (0 < q * d)%Qc) by (apply Qcmult_pos; qclra).
    assert (S1 : (e + q * d)%Qc <> 0%Qc) by (apply nz; revert QD; generalize (q * d)%Qc; intros; qclra).
    field. repeat (split; [first [assumption|intros H; apply S1; rewrite <- H; ring]|]). first [assumption|intros H; apply S1; rewrite <- H; ring].
Qed.
Print Assumptions C131_mixture.

(** both estimators on one structure and one data set: the same values, and every seen entry of the two networks
    differs by the prior's weight times the distance of the relative frequency from uniform, up to the rounding *)
Theorem C131_difference : forall o o' bn t n ess, good o -> good o' -> skeleton bn -> has_edge_lists bn -> parents_in_node_order bn ->
  table_ok t -> t_rows t <> [] -> bn_V bn = map NInt (seq 0 n) -> n <= t_ncols t ->
  let e := match ess with Some e => e | None => nQc (length (t_rows t)) end in (0 < e)%Qc ->
  exists b1 b2, mle_estimator o bn t None = Ok b1 /\ bayes_estimator o' bn t ess None = Ok b2 /\ wfnet b1 /\ wfnet b2 /\ bn_V b1 = bn_V bn /\ bn_V b2 = bn_V bn /\
    (forall v, In v (bn_V bn) -> nvalues b2 v = nvalues b1 v /\ nparents b2 v = nparents b1 v /\ nparents b1 v = nparents bn v /\ levels t v (nvalues b1 v)) /\
    forall v a, In v (bn_V bn) -> valid (ncard b1) (v :: nparents b1 v) a -> 0 < rows_with t (config (nvalues b1) (nparents b1 v) a) ->
    exists p1 p2, cond_prob b1 v a = Some p1 /\ cond_prob b2 v a = Some p2 /\
      within (Q2Qc (101 # 10000000)) (prior_weight t e b1 v a * (1 / nQc (ncard b1 v) - rel_freq t b1 v a)) (p2 - p1).
Proof.
  intros o o' bn t n ess G G' S HE PO T NR EV L e He.
  destruct (C41_mle_probabilities o bn t n G S HE PO T NR EV L) as (b1 & E1 & W1 & V1 & _ & P1 & F1).
  destruct (C43_bayes_estimator o' bn t n ess G' S T NR EV L He) as (b2 & E2 & W2 & V2 & _ & P2 & F2). fold e in F2.
  exists b1, b2. split; [exact E1|]. split; [exact E2|]. split; [exact W1|]. split; [exact W2|]. split; [exact V1|]. split; [exact V2|].
  assert (Same : forall v, In v (bn_V bn) -> nvalues b2 v = nvalues b1 v).
  { intros v Hv. destruct (proj1 F1 v) as [S1 L1]; [now rewrite V1|]. destruct (proj1 F2 v) as [S2 L2]; [now rewrite V2|]. apply sorted_same; [assumption..|]. intros x. now rewrite L1, L2. }
  assert (Par : forall v, In v (bn_V bn) -> nparents b2 v = nparents b1 v) by (intros v Hv; rewrite P1, P2 by assumption; reflexivity).
  split. { intros v Hv. split; [now apply Same|]. split; [now apply Par|]. split; [now apply P1|]. apply (proj1 F1). now rewrite V1. }
  intros v a Hv Va Hd. assert (Hv1 : In v (bn_V b1)) by now rewrite V1. assert (Hv2 : In v (bn_V b2)) by now rewrite V2.
  assert (Card : forall u, In u (bn_V bn) -> ncard b2 u = ncard b1 u) by (intros u Hu; rewrite !nvalues_card; now rewrite Same).
  assert (Inc : incl (v :: nparents b1 v) (bn_V bn)). { intros u [<-|Hu]; [assumption|]. rewrite <- V1. now apply (wn_par _ W1 v). }
  assert (Cfg : forall l, incl l (bn_V bn) -> config (nvalues b2) l a = config (nvalues b1) l a). { intros l Il. apply map_ext_in. intros u Hu. now rewrite Same by auto. }
  assert (IncP : incl (nparents b1 v) (bn_V bn)) by (intros u Hu; apply Inc; now right).
  destruct (C41_close_to_frequency t b1 v a F1 Hv1 Va Hd) as (p1 & C1 & B1). fold (rel_freq t b1 v a) in B1.
  exists p1, (py_round 5 (smoothed t e b2 v a)). split; [exact C1|]. split. { apply (proj2 F2 v a Hv2). rewrite Par by assumption. intros u Hu. rewrite Card by auto. now apply Va. }
  destruct (C131_mixture t e b2 v a W2 He Hv2) as [[M [_ _]] _].
  assert (PW : prior_weight t e b2 v a = prior_weight t e b1 v a). { unfold prior_weight. rewrite Par by assumption. rewrite Cfg by assumption. rewrite (map_ext_in (ncard b2) (ncard b1)) by auto. reflexivity. }
  assert (RF : rel_freq t b2 v a = rel_freq t b1 v a). { unfold rel_freq. rewrite Par by assumption. now rewrite !Cfg by assumption. }
  rewrite PW, RF, Card in M by assumption. pose proof (py_round_near 5 (smoothed t e b2 v a)) as [A B].
  assert (Eh : (half / pow10 5 = Q2Qc (5 # 1000000))%Qc) by (apply Qc_eq_Q; vm_compute; reflexivity). rewrite Eh in A, B. rewrite M in A, B. destruct B1 as [B1 B1'].
  unfold within. revert A B B1 B1'. rewrite M. generalize (py_round 5 (prior_weight t e b1 v a * (1 / nQc (ncard b1 v)) + (1 - prior_weight t e b1 v a) * rel_freq t b1 v a)).
  generalize (rel_freq t b1 v a). intros f p A B A' B'. 
  replace (prior_weight t e b1 v a * (1 / nQc (ncard b1 v) - f))%Qc with (prior_weight t e b1 v a * (1 / nQc (ncard b1 v)) + (1 - prior_weight t e b1 v a) * f - f)%Qc by ring.
  revert A B. generalize (prior_weight t e b1 v a * (1 / nQc (ncard b1 v)) + (1 - prior_weight t e b1 v a) * f)%Qc. intros m A B.
  assert (E101 : (this (Q2Qc (101 # 10000000)) == 101 # 10000000)%Q) by reflexivity. assert (E51 : (this (Q2Qc (51 # 10000000)) == 51 # 10000000)%Q) by reflexivity. assert (E5 : (this (Q2Qc (5 # 1000000)) == 5 # 1000000)%Q) by reflexivity.
  split; qclra.
Qed.
Print Assumptions C131_difference.

Lemma freq_range t bn v a : 0 < rows_with t (config (nvalues bn) (nparents bn v) a) -> (0 <= rel_freq t bn v a /\ rel_freq t bn v a <= 1)%Qc.
Proof.
  intros H. unfold rel_freq. pose proof (nQc_le _ _ (rows_le t bn v a)) as L. pose proof (nQc_nonneg (rows_with t (config (nvalues bn) (v :: nparents bn v) a))) as N.
  pose proof (one_nQc _ H) as D. revert L N D. generalize (nQc (rows_with t (config (nvalues bn) (v :: nparents bn v) a))). generalize (nQc (rows_with t (config (nvalues bn) (nparents bn v) a))). intros d m L N D.
  assert (Pd : (0 < d)%Qc) by qclra. split; [now apply frac_nonneg|].
  assert (E : (m / d * d = m)%Qc) by (field; now apply nz). revert E. generalize (m / d)%Qc. intros w E.
  destruct (Qclt_le_dec 1 w) as [K|K]; [exfalso|assumption]. assert (X : ((1 * d) < w * d)%Qc) by now apply Qcmult_lt_compat_r. rewrite E in X. qclra.
Qed.
Lemma inv_range n : 0 < n -> (0 <= 1 / nQc n /\ 1 / nQc n <= 1)%Qc.
Proof.
  intros H. pose proof (one_nQc n H) as P. revert P. generalize (nQc n). intros r P. assert (Pr : (0 < r)%Qc) by qclra. split; [apply frac_nonneg; [discriminate|assumption]|].
  assert (E : (1 / r * r = 1)%Qc) by (field; now apply nz). revert E. generalize (1 / r)%Qc. intros w E. destruct (Qclt_le_dec 1 w) as [K|K]; [exfalso|assumption].
  assert (X : ((1 * r) < w * r)%Qc) by now apply Qcmult_lt_compat_r. rewrite E in X. qclra.
Qed.
(** the networks the two estimators return *)
Lemma both o o' bn t n ess b1 b2 : good o -> good o' -> skeleton bn -> has_edge_lists bn -> parents_in_node_order bn ->
  table_ok t -> t_rows t <> [] -> bn_V bn = map NInt (seq 0 n) -> n <= t_ncols t ->
  let e := match ess with Some e => e | None => nQc (length (t_rows t)) end in (0 < e)%Qc ->
  mle_estimator o bn t None = Ok b1 -> bayes_estimator o' bn t ess None = Ok b2 ->
  wfnet b1 /\ bn_V b1 = bn_V bn /\ (forall v, In v (bn_V bn) -> nparents b1 v = nparents bn v /\ levels t v (nvalues b1 v)) /\
  forall v a, In v (bn_V bn) -> valid (ncard b1) (v :: nparents b1 v) a -> 0 < rows_with t (config (nvalues b1) (nparents b1 v) a) ->
    exists p1 p2, cond_prob b1 v a = Some p1 /\ cond_prob b2 v a = Some p2 /\
      within (Q2Qc (101 # 10000000)) (prior_weight t e b1 v a * (1 / nQc (ncard b1 v) - rel_freq t b1 v a)) (p2 - p1).
Proof.
  intros G G' S HE PO T NR EV L e He E1 E2. destruct (C131_difference o o' bn t n ess G G' S HE PO T NR EV L He) as (c1 & c2 & F1 & F2 & W1 & _ & V1 & _ & P & H).
  assert (c1 = b1) by congruence. assert (c2 = b2) by congruence. subst c1 c2. split; [exact W1|]. split; [exact V1|]. split; [|exact H]. intros v Hv. destruct (P v Hv) as (_ & _ & A & B). now split.
Qed.
(** a fixed equivalent sample size: with enough rows for a parent configuration the two estimators agree, up to the rounding *)
Theorem C131_fixed_converges : forall e eps, (0 < e)%Qc -> (0 < eps)%Qc -> exists D0, forall o o' bn t n b1 b2, good o -> good o' -> skeleton bn -> has_edge_lists bn -> parents_in_node_order bn ->
  table_ok t -> t_rows t <> [] -> bn_V bn = map NInt (seq 0 n) -> n <= t_ncols t ->
  mle_estimator o bn t None = Ok b1 -> bayes_estimator o' bn t (Some e) None = Ok b2 ->
  forall v a, In v (bn_V bn) -> valid (ncard b1) (v :: nparents b1 v) a -> D0 <= rows_with t (config (nvalues b1) (nparents b1 v) a) ->
  exists p1 p2, cond_prob b1 v a = Some p1 /\ cond_prob b2 v a = Some p2 /\ within (eps + Q2Qc (101 # 10000000)) p1 p2.
Proof.
  intros e eps He Heps. destruct (archimedes (e / eps)%Qc) as [D0 HD0]. exists (S D0). intros o o' bn t n b1 b2 G G' S HE PO T NR EV L E1 E2 v a Hv Va HD.
  destruct (both o o' bn t n (Some e) b1 b2 G G' S HE PO T NR EV L He E1 E2) as (W1 & V1 & _ & H). assert (Hv1 : In v (bn_V b1)) by now rewrite V1.
  assert (Pos : 0 < rows_with t (config (nvalues b1) (nparents b1 v) a)) by lia. destruct (H v a Hv Va Pos) as (p1 & p2 & C1 & C2 & B). exists p1, p2. split; [exact C1|]. split; [exact C2|].
  destruct (freq_range t b1 v a Pos) as [F0 F1]. destruct (inv_range (ncard b1 v) (card_pos b1 v W1 Hv1)) as [R0 R1]. destruct (weight_bounds t e b1 v a W1 He Hv1) as [Y0 Y1].
  assert (Y : (prior_weight t e b1 v a <= eps)%Qc).
  { clear B. unfold prior_weight in *. pose proof (one_nQc _ (q_pos b1 v W1 Hv1)) as Q. assert (HD' : (nQc D0 <= nQc (rows_with t (config (nvalues b1) (nparents b1 v) a)))%Qc) by (apply nQc_le; lia).
    revert HD' Q Y0 Y1. generalize (nQc (rows_with t (config (nvalues b1) (nparents b1 v) a))). generalize (nQc (nprod (map (ncard b1) (nparents b1 v)))). intros q d HD' Q Y0 Y1.
    assert (Ed : (e / eps * eps = e)%Qc) by (field; now apply nz). revert HD0 Ed. generalize (e / eps)%Qc. intros k HD0 Ed.
    assert (kd : (k <= d)%Qc) by qclra. assert (k0 : (0 < k)%Qc). { destruct (Qclt_le_dec 0 k) as [K|K]; [assumption|exfalso]. assert (X : (k * eps <= 0 * eps)%Qc) by (apply Qcmult_le_compat_r; [assumption|qclra]). rewrite Ed in X. qclra. }
    assert (dq : (d <= q * d)%Qc). { replace d with (1 * d)%Qc at 1 by ring. apply Qcmult_le_compat_r; [assumption|qclra]. }
    revert dq Y0 Y1. generalize (q * d)%Qc. intros x dq Y0 Y1. assert (P : (0 < e + x)%Qc) by qclra.
    assert (E : (e / (e + x) * (e + x) = e)%Qc) by (field; now apply nz). revert E Y0 Y1. generalize (e / (e + x))%Qc. intros w E Y0 Y1.
    destruct (Qclt_le_dec eps w) as [K|K]; [exfalso|assumption]. 
    assert (X1 : (eps * (e + x) < w * (e + x))%Qc) by now apply Qcmult_lt_compat_r. rewrite E in X1.
    assert (X2 : (k * eps <= (e + x) * eps)%Qc) by (apply Qcmult_le_compat_r; qclra). rewrite Ed in X2. replace ((e + x) * eps)%Qc with (eps * (e + x))%Qc in X2 by ring. qclra. }
  unfold within in *. revert B Y Y0. generalize (prior_weight t e b1 v a). revert F0 F1 R0 R1. generalize (rel_freq t b1 v a) (1 / nQc (ncard b1 v))%Qc. intros f g F0 F1 R0 R1 w [B B'] Y Y0. clear Y1.
  assert (U : (w * (g - f) <= w * 1)%Qc) by (rewrite !(Qcmult_comm w); apply Qcmult_le_compat_r; qclra). assert (U' : (w * (f - g) <= w * 1)%Qc) by (rewrite !(Qcmult_comm w); apply Qcmult_le_compat_r; qclra).
  replace (w * (f - g))%Qc with (- (w * (g - f)))%Qc in U' by ring. rewrite Qcmult_1_r in U, U'. revert U U' B B'. generalize (w * (g - f))%Qc. intros m U U' B B'. split; qclra.
Qed.
Print Assumptions C131_fixed_converges.

(** the default equivalent sample size, the number of rows: the prior keeps at least 1 part in 1 + (number of parent configurations), and half for a root *)
Lemma rows_all t q : rows_with t q <= length (t_rows t).
Proof. unfold rows_with. induction (t_rows t) as [|r l IH]; cbn [filter length]; [lia|]. destruct (forallb (entryb r) q); cbn [length]; lia. Qed.
Lemma rows_nil t : rows_with t [] = length (t_rows t).
Proof. unfold rows_with. f_equal. induction (t_rows t) as [|r l IH]; [reflexivity|]. cbn. now f_equal. Qed.
Theorem C131_default_weight : forall t bn v a, wfnet bn -> In v (bn_V bn) -> t_rows t <> [] ->
  let w := prior_weight t (nQc (length (t_rows t))) bn v a in let q := nQc (nprod (map (ncard bn) (nparents bn v))) in
  (1 / (1 + q) <= w)%Qc /\ (nparents bn v = [] -> w = 1 / nQc 2)%Qc.
Proof.
  intros t bn v a W Hv NR. cbn zeta. unfold prior_weight. pose proof (one_nQc _ (q_pos bn v W Hv)) as Q.
  assert (Ln : 0 < length (t_rows t)) by (destruct (t_rows t); [congruence|cbn [length]; lia]). pose proof (one_nQc _ Ln) as P. split.
  - pose proof (nQc_le _ _ (rows_all t (config (nvalues bn) (nparents bn v) a))) as D. pose proof (nQc_nonneg (rows_with t (config (nvalues bn) (nparents bn v) a))) as D0.
    revert Q P D D0. generalize (nQc (rows_with t (config (nvalues bn) (nparents bn v) a))). generalize (nQc (nprod (map (ncard bn) (nparents bn v)))) (nQc (length (t_rows t))). intros q n d Q P D D0. assert (one : this 1%Qc = 1%Q) by reflexivity.
    assert (QD : (q * d <= q * n)%Qc) by (rewrite !(Qcmult_comm q); apply Qcmult_le_compat_r; qclra). assert (QD0 : (0 <= q * d)%Qc) by (apply Qcmult_nonneg; qclra).
    assert (S1 : (0 < n + q * d)%Qc) by (revert QD0; generalize (q * d)%Qc; intros; qclra).
    assert (E : (n / (n + q * d) * (n + q * d) = n)%Qc) by (field; now apply nz). assert (q1 : (0 < 1 + q)%Qc) by (clear - Q one; qc2q; rewrite ?one in *; lra). assert (E' : (1 / (1 + q) * (1 + q) = 1)%Qc) by (unfold Qcdiv; field; now apply nz).
    assert (Z : (0 <= 1 / (1 + q))%Qc) by (apply frac_nonneg; [discriminate|assumption]).
    revert E E' Z. generalize (n / (n + q * d))%Qc (1 / (1 + q))%Qc. intros w z E E' Z. destruct (Qclt_le_dec w z) as [K|K]; [exfalso|assumption].
    assert (X : (w * (n + q * d) < z * (n + q * d))%Qc) by now apply Qcmult_lt_compat_r. rewrite E in X.
    assert (X' : (z * (n + q * d) <= z * (n + q * n))%Qc). { rewrite !(Qcmult_comm z). apply Qcmult_le_compat_r; [|assumption]. revert QD. generalize (q * d)%Qc (q * n)%Qc. intros. qclra. }
    replace (z * (n + q * n))%Qc with (z * (1 + q) * n)%Qc in X' by ring. rewrite E' in X'. replace (1 * n)%Qc with n in X' by ring. revert X X'. generalize (z * (n + q * d))%Qc. intros. qclra.
  - intros ->. cbn [map nprod fold_right config]. rewrite rows_nil, nQc_1. replace (nQc 2) with (1 + 1)%Qc by (apply Qc_is_canon; vm_compute; reflexivity). revert P. generalize (nQc (length (t_rows t))). intros n P.
    assert (S1 : n <> 0%Qc) by (apply nz; qclra). replace (n + 1 * n)%Qc with ((1 + 1) * n)%Qc by ring. field. split; first [assumption|discriminate].
Qed.
Print Assumptions C131_default_weight.
(** so with the default the two estimators stay apart, however large the data set, wherever the frequencies are not uniform *)
Theorem C131_default_apart : forall o o' bn t n b1 b2, good o -> good o' -> skeleton bn -> has_edge_lists bn -> parents_in_node_order bn ->
  table_ok t -> t_rows t <> [] -> bn_V bn = map NInt (seq 0 n) -> n <= t_ncols t ->
  mle_estimator o bn t None = Ok b1 -> bayes_estimator o' bn t None None = Ok b2 ->
  forall v a, In v (bn_V bn) -> valid (ncard b1) (v :: nparents b1 v) a -> 0 < rows_with t (config (nvalues b1) (nparents b1 v) a) ->
  let gap := (1 / nQc (ncard b1 v) - rel_freq t b1 v a)%Qc in let q := nQc (nprod (map (ncard b1) (nparents b1 v))) in
  exists p1 p2, cond_prob b1 v a = Some p1 /\ cond_prob b2 v a = Some p2 /\
    (0 <= gap -> gap / (1 + q) - Q2Qc (101 # 10000000) <= p2 - p1)%Qc /\
    (gap <= 0 -> p2 - p1 <= gap / (1 + q) + Q2Qc (101 # 10000000))%Qc /\
    (nparents b1 v = [] -> within (Q2Qc (101 # 10000000)) (gap / nQc 2) (p2 - p1))%Qc.
Proof.
  intros o o' bn t n b1 b2 G G' S HE PO T NR EV L E1 E2 v a Hv Va Hd. cbn zeta.
  assert (He : (0 < nQc (length (t_rows t)))%Qc) by (apply nQc_pos; destruct (t_rows t); [congruence|cbn [length]; lia]).
  destruct (both o o' bn t n None b1 b2 G G' S HE PO T NR EV L He E1 E2) as (W1 & V1 & _ & H). assert (Hv1 : In v (bn_V b1)) by now rewrite V1.
  destruct (H v a Hv Va Hd) as (p1 & p2 & C1 & C2 & B). exists p1, p2. split; [exact C1|]. split; [exact C2|].
  destruct (C131_default_weight t b1 v a W1 Hv1 NR) as [Wq Wr]. revert B Wq Wr. generalize (prior_weight t (nQc (length (t_rows t))) b1 v a). generalize (1 / nQc (ncard b1 v) - rel_freq t b1 v a)%Qc.
  intros g w [B B'] Wq Wr. unfold Qcdiv in *. rewrite Qcmult_1_l in Wq. revert Wq. generalize (/ (1 + nQc (nprod (map (ncard b1) (nparents b1 v)))))%Qc. intros z Wq. split; [|split].
  - intros P. assert (X : (z * g <= w * g)%Qc) by now apply Qcmult_le_compat_r. replace (z * g)%Qc with (g * z)%Qc in X by ring. revert X B. generalize (g * z)%Qc (w * g)%Qc. intros. qclra.
  - intros P. assert (X : (z * (- g) <= w * (- g))%Qc) by (apply Qcmult_le_compat_r; [assumption|qclra]). replace (z * - g)%Qc with (- (g * z))%Qc in X by ring. replace (w * - g)%Qc with (- (w * g))%Qc in X by ring. revert X B'. generalize (g * z)%Qc (w * g)%Qc. intros. qclra.
  - intros R. rewrite (Wr R) in B, B'. rewrite Qcmult_1_l in B, B'. rewrite (Qcmult_comm g). now split.
Qed.
Print Assumptions C131_default_apart.

(** three rows 0 for every row 1, any number of rows: 0.75 and 0.25 against 0.625 and 0.375 *)
Definition exSkew (n : nat) : table := mkT 1 (concat (repeat [[NInt 0]; [NInt 0]; [NInt 0]; [NInt 1]] n)).
Definition exOne : bayesnet := mkBN [NInt 0] [(NInt 0, [])] [(NInt 0, mkF [] [] [])].
Lemma exSkew_rows n r : In r (t_rows (exSkew n)) -> r = [NInt 0] \/ r = [NInt 1].
Proof. cbn [exSkew t_rows]. induction n as [|n IH]; cbn [repeat concat app]; [intros []|]. intros [<-|[<-|[<-|[<-|H]]]]; auto. Qed.
Lemma exSkew_count n : length (filter (fun r => forallb (entryb r) [(NInt 0, NInt 0)]) (t_rows (exSkew n))) = 3 * n /\ length (t_rows (exSkew n)) = 4 * n.
Proof. cbn [exSkew t_rows]. induction n as [|n [IH1 IH2]]; [now split|]. cbn [repeat concat app filter length]. cbn -[Nat.mul concat]. cbn in IH1. split; [rewrite IH1; lia|]. rewrite IH2. lia. Qed.
Lemma exOne_skeleton : skeleton exOne /\ has_edge_lists exOne /\ parents_in_node_order exOne.
Proof.
  split; [constructor|split].
  - repeat constructor. intros [].
  - intros v [<-|[]]. cbn. eauto.
  - intros v [<-|[]]. repeat constructor. intros [].
  - intros v [<-|[]] u [].
  - intros v [<-|[]]. cbn. eauto.
  - intros v [<-|[]]. reflexivity.
Qed.
Theorem C131_refuted : forall n, 0 < n -> exists b1 b2 p1 p2, mle_estimator id_oracle exOne (exSkew n) None = Ok b1 /\ bayes_estimator id_oracle exOne (exSkew n) None None = Ok b2 /\
  length (t_rows (exSkew n)) = 4 * n /\ nvalues b1 (NInt 0) = [NInt 0; NInt 1] /\ cond_prob b1 (NInt 0) (fun _ => 0) = Some p1 /\ cond_prob b2 (NInt 0) (fun _ => 0) = Some p2 /\
  (p2 <= p1 - qq 12 100)%Qc.
Proof.
  intros n Hn. destruct exOne_skeleton as (S & HE & PO). destruct (exSkew_count n) as [K1 K2].
  assert (T : table_ok (exSkew n)) by (intros r Hr; destruct (exSkew_rows n r Hr) as [-> | ->]; reflexivity).
  assert (NR : t_rows (exSkew n) <> []) by (intros H; rewrite H in K2; cbn [length] in K2; lia).
  assert (He : (0 < nQc (length (t_rows (exSkew n))))%Qc) by (apply nQc_pos; lia).
  destruct (C131_difference id_oracle id_oracle exOne (exSkew n) 1 None good_id good_id S HE PO T NR eq_refl (le_n 1) He) as (b1 & b2 & E1 & E2 & W1 & _ & V1 & _ & P & _).
  destruct (P (NInt 0) (or_introl eq_refl)) as (_ & _ & Pa & Lv).
  assert (Vals : nvalues b1 (NInt 0) = [NInt 0; NInt 1]).
  { apply sorted_same; [apply Lv|change [NInt 0; NInt 1] with (map NInt (seq 0 2)); apply numbers_sorted|]. intros x. rewrite (proj2 Lv). split.
    - intros (r & Hr & Ex). destruct (exSkew_rows n r Hr) as [-> | ->]; cbn in Ex; injection Ex as <-; cbn; auto.
    - destruct n as [|n]; [lia|]. intros [<-|[<-|[]]]; [exists [NInt 0]|exists [NInt 1]]; (split; [cbn; auto|reflexivity]). }
  destruct (C131_default_apart id_oracle id_oracle exOne (exSkew n) 1 b1 b2 good_id good_id S HE PO T NR eq_refl (le_n 1) E1 E2 (NInt 0) (fun _ => 0) (or_introl eq_refl)) as (p1 & p2 & C1 & C2 & _ & _ & H).
  - rewrite Pa. intros u [<-|[]]. rewrite nvalues_card, Vals. cbn. lia.
  - rewrite Pa. cbn [nparents config map]. change (nparents exOne (NInt 0)) with (@nil name). cbn [map config]. rewrite rows_nil. lia.
  - exists b1, b2, p1, p2. split; [exact E1|]. split; [exact E2|]. split; [exact K2|]. split; [exact Vals|]. split; [exact C1|]. split; [exact C2|].
    destruct (H Pa) as [_ B]. revert B. unfold rel_freq. rewrite Pa. change (nparents exOne (NInt 0)) with (@nil name). cbn [config map]. rewrite rows_nil, K2, Vals. cbn [nth]. unfold rows_with. rewrite K1, nvalues_card, Vals. cbn [length].
    rewrite !nQc_mult. assert (N0 := nQc_pos n Hn). replace (nQc 3 * nQc n / (nQc 4 * nQc n))%Qc with (nQc 3 / nQc 4)%Qc by (field; split; [now apply nz|discriminate]).
    intros B. replace ((1 / nQc 2 - nQc 3 / nQc 4) / nQc 2)%Qc with (qq (-1) 8) in B by (apply Qc_is_canon; vm_compute; reflexivity). unfold qq in *. revert B. qc2q. cbn. intros. lra.
Qed.
Print Assumptions C131_refuted.
Example C131_nonvacuous : skeleton (exLbn [NInt 0; NInt 1]) /\ has_edge_lists (exLbn [NInt 0; NInt 1]) /\ parents_in_node_order (exLbn [NInt 0; NInt 1]) /\ table_ok exL /\
  match mle_estimator id_oracle (exLbn [NInt 0; NInt 1]) exL None, bayes_estimator id_oracle (exLbn [NInt 0; NInt 1]) exL None None with
  | Ok b1, Ok b2 => Qc_eq_bool (prior_weight exL (nQc 4) b1 (NInt 2) (fun _ => 0)) (qq 2 5) &&
      match cond_prob b1 (NInt 2) (fun _ => 0), cond_prob b2 (NInt 2) (fun _ => 0) with Some p1, Some p2 => Qc_eq_bool p1 1 && Qc_eq_bool p2 (qq 4 5) | _, _ => false end
  | _, _ => false end = true.
Proof. destruct C40_nonvacuous as (A & B & _ & _ & C & D & _). split; [exact A|]. split; [exact C|]. split; [exact D|]. split; [exact B|]. vm_compute. reflexivity. Qed.

(** ** equivalent sample size 0 *)
Lemma group_at t e bn b v k : table_ok t -> learned t bn b -> own_values t b -> In v (bn_V b) -> k < nsize b v ->
  exists a, valid (ncard b) (v :: nparents b v) a /\ radix (ncard b) (v :: nparents b v) a = k /\
  group_total (ncard b v) (counted (row_cell b v) (t_rows t) (repeat (e / nQc (nsize b v))%Qc (nsize b v))) k =
  (nQc (ncard b v) * (e / nQc (nsize b v)) + nQc (rows_with t (config (nvalues b) (nparents b v) a)))%Qc.
Proof.
  intros T LL O Hv Hk. destruct (digits_ok (ncard b) (v :: nparents b v) k (wn_scope _ (proj1 LL) v Hv) Hk) as [Va Er]. eexists. split; [exact Va|]. split; [exact Er|].
  rewrite <- Er at 1. apply counted_group; try assumption. apply LL.
Qed.
Lemma zero_group t bn b v k : table_ok t -> learned t bn b -> own_values t b -> In v (bn_V b) -> k < nsize b v ->
  exists a, valid (ncard b) (v :: nparents b v) a /\ radix (ncard b) (v :: nparents b v) a = k /\
  group_total (ncard b v) (counted (row_cell b v) (t_rows t) (repeat (0 / nQc (nsize b v))%Qc (nsize b v))) k = nQc (rows_with t (config (nvalues b) (nparents b v) a)).
Proof.
  intros T LL O Hv Hk. destruct (group_at t 0%Qc bn b v k T LL O Hv Hk) as (a & Va & Ea & E). exists a. split; [exact Va|]. split; [exact Ea|]. rewrite E. unfold Qcdiv. ring.
Qed.
Lemma radix_ext_cd cd cd' ord a : (forall v, In v ord -> cd v = cd' v) -> radix cd ord a = radix cd' ord a.
Proof. induction ord as [|v r IH]; cbn [radix]; intros H; [reflexivity|]. rewrite (H v) by now left. rewrite IH by (intros u Hu; apply H; now right). reflexivity. Qed.
Lemma nth_index (vs : list name) x : In x vs -> exists i, i < length vs /\ nth i vs (NInt 0) = x.
Proof. intros H. destruct (In_nth _ _ (NInt 0) H) as (i & L & E). eauto. Qed.
Lemma values_asg t b v q : wfnet b -> own_values t b -> In v (bn_V b) -> parent_values t b v q ->
  exists a, valid (ncard b) (v :: nparents b v) a /\ config (nvalues b) (nparents b v) a = q.
Proof.
  intros W O Hv [F Hq]. assert (ND := wn_scope _ W v Hv). inversion ND as [|? ? Nv NDp]; subst. rewrite <- F in Nv, NDp.
  assert (G : forall l, NoDup (map fst l) -> incl l q -> ~ In v (map fst l) -> exists a, a v = 0 /\ (forall u, In u (map fst l) -> a u < ncard b u) /\ config (nvalues b) (map fst l) a = l).
  { induction l as [|[u x] l IH]; intros N I Nl; [exists (fun _ => 0); split; [reflexivity|]; split; [intros u []|reflexivity]|]. cbn [map fst] in *. inversion N as [|? ? N1 N2]; subst.
    destruct IH as (a & A0 & A1 & A2); [assumption|intros z Hz; apply I; now right|intros H; apply Nl; now right|].
    assert (Hu : In u (bn_V b)). { apply (wn_par _ W v Hv). rewrite <- F. apply in_map_iff. exists (u, x). split; [reflexivity|]. apply I. now left. }
    destruct (Hq u x) as (r & Hr & Er); [apply I; now left|]. destruct (O u Hu) as [_ [_ Lu]]. destruct (nth_index (nvalues b u) x) as (i & Li & Ei); [apply Lu; eauto|].
    exists (upd a u i). split; [rewrite upd_other; [assumption|intros ->; apply Nl; now left]|]. split.
    - intros w [<-|Hw]; [rewrite upd_same, nvalues_card; assumption|]. rewrite upd_other by (intros ->; contradiction). now apply A1.
    - cbn [config map]. rewrite upd_same, Ei. f_equal. rewrite <- A2 at 2. apply map_ext_in. intros w Hw. rewrite upd_other by (intros ->; contradiction). reflexivity. }
  destruct (G q NDp (incl_refl _) Nv) as (a & A0 & A1 & A2). rewrite F in *. exists a. split; [|exact A2]. intros u [<-|Hu]; [rewrite A0; now apply card_pos|now apply A1].
Qed.
(** with equivalent sample size 0 the entries are the relative frequencies, if every combination of parent values was seen;
    if one was not, ZeroDivisionError *)
Theorem C131_zero : forall o bn t n, good o -> skeleton bn -> table_ok t -> t_rows t <> [] -> bn_V bn = map NInt (seq 0 n) -> n <= t_ncols t ->
  ((forall v q, In v (bn_V bn) -> parent_values t bn v q -> 0 < rows_with t q) ->
    exists b, bayes_estimator o bn t (Some 0%Qc) None = Ok b /\ wfnet b /\ bn_V b = bn_V bn /\
      (forall v, In v (bn_V bn) -> nparents b v = nparents bn v /\ levels t v (nvalues b v)) /\
      forall v a, In v (bn_V bn) -> valid (ncard b) (v :: nparents b v) a -> cond_prob b v a = Some (py_round 5 (rel_freq t b v a))) /\
  ((exists v q, In v (bn_V bn) /\ parent_values t bn v q /\ rows_with t q = 0) -> bayes_estimator o bn t (Some 0%Qc) None = Raise ZeroDivisionError).
Proof.
  intros o bn t n G S T NR EV L. destruct (in_order_cols t bn n T EV L) as [Lc Hc].
  destruct (bayes_counted o bn t (Some 0%Qc) G S T NR Lc Hc) as (b & -> & LL & H). cbn zeta in H.
  destruct (in_order_own t bn b n T EV L LL) as (O & _ & _). assert (W := proj1 LL). assert (Vb : bn_V b = bn_V bn) by apply LL. assert (K : forall v, In v (bn_V bn) -> nparents b v = nparents bn v) by (intros v Hv; now apply LL).
  split.
  - intros Seen. destruct (bayes_norms_ok (bn_V bn) b W (sk_V _ S)) as (b' & E & W' & S' & _ & R); [rewrite Vb; apply incl_refl| |].
    + intros v k Hv Hk. assert (Hv' : In v (bn_V b)) by now rewrite Vb. rewrite H by assumption. destruct (zero_group t bn b v k T LL O Hv' Hk) as (a & Va & _ & ->).
      apply nz, nQc_pos. apply (Seen v); [assumption|]. rewrite K in * by assumption. split; [unfold config; rewrite map_map; apply map_id|].
      intros u x Hx. unfold config in Hx. apply in_map_iff in Hx as (w & Q & Hw). injection Q as -> <-. assert (Hu : In u (bn_V b)) by (apply (wn_par _ W v Hv'); now rewrite K).
      destruct (O u Hu) as [_ [_ Lu]]. apply Lu. apply nth_In. rewrite <- nvalues_card. apply Va. now right.
    + exists b'. destruct S' as (V' & E' & K'). split; [exact E|]. split; [exact W'|]. split; [congruence|].
      assert (Sc : forall v, In v (bn_V bn) -> nparents b' v = nparents b v /\ nvalues b' v = nvalues b v /\ ncard b' v = ncard b v). { intros v Hv. destruct (K' v) as (A & B & C & _); [now rewrite Vb|]. now split. }
      split. { intros v Hv. destruct (Sc v Hv) as (-> & -> & _). split; [now apply K|]. apply O. now rewrite Vb. }
      intros v a Hv Va. assert (Hv' : In v (bn_V b)) by now rewrite Vb. assert (Hvv : In v (bn_V b')) by now rewrite V'.
      rewrite cond_prob_nth by assumption. f_equal. assert (Inc : incl (v :: nparents b v) (bn_V bn)). { intros u [<-|Hu]; [assumption|]. rewrite <- Vb. now apply (wn_par _ W v). }
      destruct (Sc v Hv) as (P1 & P2 & P3). unfold rel_freq. rewrite P1 in *.
      assert (Va' : valid (ncard b) (v :: nparents b v) a) by (intros u Hu; destruct (Sc u (Inc u Hu)) as (_ & _ & <-); now apply Va).
      assert (Er : radix (ncard b') (v :: nparents b v) a = radix (ncard b) (v :: nparents b v) a). { apply radix_ext_cd. intros u Hu. now apply Sc, Inc. }
      assert (Cf : forall l, incl l (bn_V bn) -> config (nvalues b') l a = config (nvalues b) l a). { intros l Il. apply map_ext_in. intros u Hu. destruct (Sc u (Il u Hu)) as (_ & -> & _). reflexivity. }
      rewrite Er, (Cf _ Inc), (Cf (nparents b v)) by (intros u Hu; apply Inc; now right). rewrite R by (assumption || now apply radix_lt). f_equal. rewrite H by assumption.
      rewrite (counted_cell t), (counted_group t) by assumption. unfold Qcdiv. f_equal; [ring|]. f_equal. ring.
  - intros (v & q & Hv & Pq & Z). assert (Hv' : In v (bn_V b)) by now rewrite Vb. assert (Pq' : parent_values t b v q) by (destruct Pq; split; [now rewrite K|assumption]).
    destruct (values_asg t b v q W O Hv' Pq') as (a & Va & <-).
    apply (bayes_norms_fail (bn_V bn) b v (radix (ncard b) (v :: nparents b v) a)); [assumption|apply S|rewrite Vb; apply incl_refl|assumption|now apply radix_lt|].
    rewrite H by assumption. rewrite (counted_group t) by assumption. rewrite Z, nQc_0. unfold Qcdiv. ring.
Qed.
Print Assumptions C131_zero.
(** 0 -> 2 <- 1 on a table with 4 of the 6 combinations of the values of columns 0 and 1 *)
Example C131_zero_nonvacuous : parent_values exL (exLbn [NInt 0; NInt 1]) (NInt 2) [(NInt 0, NInt 0); (NInt 1, NInt 2)] /\ rows_with exL [(NInt 0, NInt 0); (NInt 1, NInt 2)] = 0 /\
  bayes_estimator id_oracle (exLbn [NInt 0; NInt 1]) exL (Some 0%Qc) None = Raise ZeroDivisionError.
Proof.
  split; [|split; vm_compute; reflexivity]. split; [reflexivity|]. intros u x [E|[E|[]]]; injection E as <- <-; [exists [NInt 0; NInt 1; NInt 0]|exists [NInt 1; NInt 2; NInt 1]]; (split; [cbn; auto|reflexivity]).
Qed.
