(** Properties_Float.v -- C115: exact inference in floating point arithmetic. *)
From Verif Require Import Py Num BayesNet Factor SpecFactor FactorMul FactorOut Rounding Factorization SpecInference VE VEShape VETotal Float SpecFloat FloatFacts FloatMain FloatMap FloatMapMain Binary64 Examples.
From Coq Require Import Qpower.
Open Scope nat_scope.

(** with exact arithmetic the floating point program is the exact one *)
Theorem C115_same_program : forall o bn target ev,
  fl_marginal_ve_e (fun x => x) o bn target ev = marginal_ve_e o bn target ev.
Proof. intros. unfold fl_marginal_ve_e, marginal_ve_e. now rewrite fl_marginal_id. Qed.
Print Assumptions C115_same_program.

(** the bounds of [near] in the linear form *)
Lemma linear u K x y : (0 <= u /\ u < 1 -> nQc 2 * nQc K * u <= 1 -> 0 <= x -> x * dn u K <= y -> y <= x * up u K -> close_to (nQc 2 * nQc K * u * x) x y)%Qc.
Proof.
  intros Hu H X A B. pose proof (dn_bernoulli u Hu K) as D. pose proof (up_bernoulli u Hu K H) as U. pose proof one_q as O.
  assert (T : (this (nQc 2) == 2)%Q) by reflexivity.
  pose proof (nQc_nonneg K) as PK. assert (Q : (0 <= nQc K * u)%Qc) by (apply Qcmult_nonneg; tauto).
  replace (nQc 2 * nQc K * u)%Qc with (nQc 2 * (nQc K * u))%Qc in * by ring.
  generalize dependent (nQc K * u)%Qc. generalize dependent (dn u K). generalize dependent (up u K). clear - X O T. intros p B d A q H D U Q.
  split.
  - apply Qcle_trans with (x * d)%Qc; [|assumption]. apply Qcle_trans with (x * (1 - q))%Qc.
    + assert (0 <= q * x)%Qc by now apply Qcmult_nonneg. replace (x * (1 - q))%Qc with (x - q * x)%Qc by ring. replace (nQc 2 * q * x)%Qc with (q * x + q * x)%Qc by (replace (nQc 2) with (1 + 1)%Qc by (apply Qc_is_canon; reflexivity); ring). qclra.
    + rewrite !(Qcmult_comm x). now apply Qcmult_le_compat_r.
  - apply Qcle_trans with (x * p)%Qc; [assumption|]. apply Qcle_trans with (x * (1 + nQc 2 * q))%Qc.
    + rewrite !(Qcmult_comm x). now apply Qcmult_le_compat_r.
    + replace (x * (1 + nQc 2 * q))%Qc with (x + nQc 2 * q * x)%Qc by ring. apply Qcle_refl.
Qed.

Lemma ops_pos bn t : In t (bn_V bn) -> 1 <= operations bn.
Proof. intros H. unfold operations. destruct (bn_V bn); [destruct H|simpl; lia]. Qed.
Lemma ops_unit bn t u : In t (bn_V bn) -> (0 <= u -> nQc 2 * nQc (operations bn) * u <= 1 -> 0 <= u /\ nQc 2 * u <= 1)%Qc.
Proof.
  intros H Pu A. split; [assumption|]. pose proof (nQc_le 1 (operations bn) (ops_pos bn t H)) as B. rewrite nQc_1 in B.
  assert (T : (this (nQc 2) == 2)%Q) by reflexivity. pose proof one_q as O.
  generalize dependent (nQc (operations bn)). intros k A B. generalize dependent (nQc 2). intros t' A T. qcnra.
Qed.

Lemma two_eq : nQc 2 = (1 + 1)%Qc.
Proof. apply Qc_is_canon. reflexivity. Qed.
Lemma ops_half bn t u : In t (bn_V bn) -> (0 <= u)%Qc -> (nQc 2 * nQc (operations bn) * u <= 1)%Qc -> (0 <= u /\ u < 1)%Qc /\ (u <= half)%Qc.
Proof.
  intros H Pu A. destruct (ops_unit bn t u H Pu A) as [_ U2]. rewrite two_eq in U2. pose proof one_q. pose proof half_q as Hh. generalize dependent half. intros h Hh.
  assert (u + u <= 1)%Qc by (replace (u + u)%Qc with ((1 + 1) * u)%Qc by ring; assumption). split; [split; [assumption|qclra]|qclra].
Qed.
Lemma pow_pos d n : (0 < d)%Qc -> (0 < Qcpower d n)%Qc.
Proof. intros P. induction n as [|n IH]; simpl; [reflexivity|]. generalize dependent (Qcpower d n). intros. qcnra. Qed.

Lemma float_near : forall rnd u lo hi bn target ev o d,
  wfnet bn -> In target (bn_V bn) -> good_evidence bn ev -> ~ In target (map fst ev) -> good o ->
  entries_within bn d -> (0 < d /\ d <= 1)%Qc ->
  accurate rnd u lo hi -> (0 <= u)%Qc -> (nQc 2 * nQc (operations bn) * u <= 1)%Qc ->
  (nQc 2 * lo <= Qcpower d (length (bn_V bn)))%Qc -> (nQc 2 * nQc (assignments bn) <= hi)%Qc ->
  (connected bn (target :: map fst ev) /\
     exists f, fl_marginal_factor rnd o bn target ev = Ok f /\
       Forall2 (near u (operations bn) (Qcpower d (length (bn_V bn))) (nQc (assignments bn)))
               (map (marginal bn target ev) (seq 0 (ncard bn target))) (f_cpt f)) \/
  (~ connected bn (target :: map fst ev) /\ fl_marginal_factor rnd o bn target ev = Raise NameError).
Proof.
  intros rnd u lo hi bn target ev o d W Ht GE Nt Go HE Pd HA Pu HK HL HM.
  assert (T : (this (nQc 2) == 2)%Q) by reflexivity. pose proof one_q as O.
  destruct (ops_unit bn target u Ht Pu HK) as [_ U2]. assert (Hu : (0 <= u /\ u < 1)%Qc) by (split; [assumption|clear - U2 T O Pu; generalize dependent (nQc 2); intros t U2 T; qcnra]).
  assert (S : safe u rnd (operations bn) (Qcpower d (length (bn_V bn))) (nQc (assignments bn))).
  { pose proof (dn_bernoulli u Hu (operations bn)) as D. pose proof (up_bernoulli u Hu (operations bn) HK) as U. pose proof (nQc_nonneg (assignments bn)) as PA.
    assert (PL : (0 < Qcpower d (length (bn_V bn)))%Qc).
    { generalize (length (bn_V bn)). clear - Pd O. induction n as [|n IH]; simpl; [reflexivity|]. generalize dependent (Qcpower d n). intros. qcnra. }
    intros z [Z|[Z1 Z2]]; apply HA; [now left|right].
    replace (nQc 2 * nQc (operations bn) * u)%Qc with (nQc 2 * (nQc (operations bn) * u))%Qc in * by ring.
    generalize dependent (nQc (operations bn) * u)%Qc. generalize dependent (dn u (operations bn)). generalize dependent (up u (operations bn)).
    generalize dependent (Qcpower d (length (bn_V bn))). generalize dependent (nQc (assignments bn)). generalize dependent (nQc 2).
    clear - O. intros t T _ A HM PA L HL PL p Z2 d Z1 k HK D U. split.
    - assert (L * (t * d) >= L)%Qc by (assert (1 <= t * d)%Qc by qcnra; generalize dependent (t * d)%Qc; intros; qcnra). assert (t * (L * d) <= t * z)%Qc by qcnra. 
      replace (L * (t * d))%Qc with (t * (L * d))%Qc in * by ring. qcnra.
    - assert (p <= t)%Qc by qcnra. assert (A * p <= A * t)%Qc by qcnra. replace (t * A)%Qc with (A * t)%Qc in HM by ring. qclra. }
  pose proof (marginal_sim u Hu rnd bn target ev o d W Ht GE Nt Go HE Pd S) as R.
  destruct (marginal_result bn target ev o W Ht GE Nt Go) as [(C & f & Ef & Cf)|[C Ef]]; rewrite Ef in R.
  - left. split; [assumption|]. destruct (fl_marginal_factor rnd o bn target ev) as [f'|]; [|destruct R]. exists f'. split; [reflexivity|].
    simpl in R. rewrite <- Cf. exact (fr_cpt _ _ _ _ _ _ R).
  - right. split; [assumption|]. destruct (fl_marginal_factor rnd o bn target ev) as [f'|]; [destruct R|]. simpl in R. now subst.
Qed.

(** the value before the final rounding to 4 decimals *)
Theorem C115_relative_error : forall rnd u lo hi bn target ev o d,
  wfnet bn -> In target (bn_V bn) -> good_evidence bn ev -> ~ In target (map fst ev) -> good o ->
  entries_within bn d -> (0 < d /\ d <= 1)%Qc ->
  accurate rnd u lo hi -> (0 <= u)%Qc -> (nQc 2 * nQc (operations bn) * u <= 1)%Qc ->
  (nQc 2 * lo <= Qcpower d (length (bn_V bn)))%Qc -> (nQc 2 * nQc (assignments bn) <= hi)%Qc ->
  (connected bn (target :: map fst ev) /\
     exists f, fl_marginal_factor rnd o bn target ev = Ok f /\
       Forall2 (fun p y => close_to (nQc 2 * nQc (operations bn) * u * p) p y)
               (map (marginal bn target ev) (seq 0 (ncard bn target))) (f_cpt f)) \/
  (~ connected bn (target :: map fst ev) /\ fl_marginal_factor rnd o bn target ev = Raise NameError).
Proof.
  intros rnd u lo hi bn target ev o d W Ht GE Nt Go HE Pd HA Pu HK HL HM.
  destruct (float_near rnd u lo hi bn target ev o d W Ht GE Nt Go HE Pd HA Pu HK HL HM) as [(C & f & Ef & Cf)|H]; [left|now right].
  split; [assumption|]. exists f. split; [assumption|]. destruct (ops_half bn target u Ht Pu HK) as [Hu _].
  eapply F2_mono; [|exact Cf]. intros x y N. pose proof (near_nonneg u _ _ _ _ _ (pow_pos d _ (proj1 Pd)) N) as X.
  destruct N as (_ & _ & A & B). now apply linear.
Qed.
Print Assumptions C115_relative_error.

(** the last step: numpy's rounding to 4 decimals, itself computed in floating point *)
Lemma pow10_4 : (this (pow10 4) == 10000)%Q.
Proof. reflexivity. Qed.
Lemma zQc_nonneg_cases n : (0 <= n)%Z -> zQc n = 0%Qc \/ (1 <= zQc n)%Qc.
Proof.
  intros H. destruct (Z.eq_dec n 0) as [->|N]; [left; reflexivity|right]. unfold Qcle. unfold zQc. rewrite !this_Q2Qc. assert (L : (inject_Z 1 <= inject_Z n)%Q) by (rewrite <- Zle_Qle; lia). exact L.
Qed.
Lemma fl_round_near rnd u lo hi A y : accurate rnd u lo hi -> (0 <= u -> u <= half -> 1 <= A -> pow10 4 * A <= hi -> lo * pow10 4 <= 1 ->
  y = 0 \/ lo <= y -> 0 <= y -> y <= A ->
  close_to (half / pow10 4 * (1 + u) + u * (nQc 2 + u) * y) y (fl_round rnd 4 y))%Qc.
Proof.
  intros HA Pu Ph P1 Hh Hl Hy Py Ph1. pose proof one_q as O. pose proof pow10_4 as T. pose proof half_q as HQ.
  unfold fl_round. assert (C1 : (y * pow10 4 * (1 - u) <= rnd (y * pow10 4) /\ rnd (y * pow10 4) <= y * pow10 4 * (1 + u))%Qc).
  { apply HA. destruct Hy as [->|Hy]; [left; ring|right]. split.
    - apply Qcle_trans with y; [assumption|]. clear - Py T O. generalize dependent (pow10 4). intros q T. qcnra.
    - apply Qcle_trans with (pow10 4 * A)%Qc; [|assumption]. clear - Ph1 T. generalize dependent (pow10 4). intros q T. qcnra. }
  assert (TP : (0 <= rnd (y * pow10 4))%Qc).
  { apply Qcle_trans with (y * pow10 4 * (1 - u))%Qc; [|tauto]. apply Qcmult_nonneg; [apply Qcmult_nonneg; [assumption|qclra]|qclra]. }
  pose proof (rint_near (rnd (y * pow10 4)%Qc)) as [R1 R2]. pose proof (rint_nonneg _ TP) as RN.
  destruct C1 as [C1 C2]. set (t := rnd (y * pow10 4)%Qc) in *. set (m := zQc (rint t)) in *.
  assert (RM : m = 0%Qc \/ (1 <= m)%Qc) by now apply zQc_nonneg_cases.
  assert (DI : (this (/ pow10 4)%Qc == 1 # 10000)%Q) by reflexivity.
  assert (C3 : (m / pow10 4 * (1 - u) <= rnd (m / pow10 4) /\ rnd (m / pow10 4) <= m / pow10 4 * (1 + u))%Qc).
  { apply HA. unfold Qcdiv. destruct RM as [->|RM]; [left; ring|right]. split.
    - clear - RM Hl DI T O. generalize dependent (pow10 4). intros q. generalize (/ q)%Qc. intros. qcnra.
    - apply Qcle_trans with (pow10 4 * A)%Qc; [|assumption]. clear - R2 C2 DI T O Ph Ph1 P1 HQ Py Pu.
      assert (y * u <= A)%Qc. { generalize dependent half. intros. qcnra. }
      replace (y * pow10 4 * (1 + u))%Qc with (pow10 4 * y + pow10 4 * (y * u))%Qc in C2 by ring.
      assert (X : (this m <= 20001 * this A)%Q).
      { generalize dependent (y * u)%Qc. generalize dependent half. intros h. intros. qc2q. rewrite T in *. lra. }
      clear - X DI T P1 O. assert (this (m * / pow10 4)%Qc <= this (pow10 4 * A)%Qc)%Q; [|assumption]. rewrite !this_mult, DI, T. qc2q. lra. }
  assert (D1 : (y - half / pow10 4 - u * y <= m / pow10 4 /\ m / pow10 4 <= y + half / pow10 4 + u * y)%Qc).
  { assert (DD : (pow10 4 * / pow10 4 = 1)%Qc) by (apply Qc_is_canon; reflexivity).
    assert (PI : (0 <= / pow10 4)%Qc) by discriminate. unfold Qcdiv.
    assert (G1 : ((y * pow10 4 * (1 - u) - half) * / pow10 4 <= m * / pow10 4)%Qc) by (apply Qcmult_le_compat_r; [qclra|assumption]).
    assert (G2 : (m * / pow10 4 <= (y * pow10 4 * (1 + u) + half) * / pow10 4)%Qc) by (apply Qcmult_le_compat_r; [qclra|assumption]).
    replace ((y * pow10 4 * (1 - u) - half) * / pow10 4)%Qc with (y * (1 - u) * (pow10 4 * / pow10 4) - half * / pow10 4)%Qc in G1 by ring.
    replace ((y * pow10 4 * (1 + u) + half) * / pow10 4)%Qc with (y * (1 + u) * (pow10 4 * / pow10 4) + half * / pow10 4)%Qc in G2 by ring.
    rewrite DD in G1, G2. clear - G1 G2. generalize dependent (half * / pow10 4)%Qc. generalize dependent (m * / pow10 4)%Qc. intros. split; qcnra. }
  assert (Hc : (0 <= half / pow10 4)%Qc) by discriminate. assert (T2 : (this (nQc 2) == 2)%Q) by reflexivity.
  unfold close_to. generalize dependent (rnd (m / pow10 4)%Qc). generalize dependent (m / pow10 4)%Qc. generalize dependent (half / pow10 4)%Qc.
  rewrite two_eq. clear - Py Pu O. intros c Hc r D1 s C3.
  replace (c * (1 + u) + u * (1 + 1 + u) * y)%Qc with (c + c * u + (u * y + u * y + u * (u * y)))%Qc by ring.
  replace (r * (1 - u))%Qc with (r - r * u)%Qc in C3 by ring. replace (r * (1 + u))%Qc with (r + r * u)%Qc in C3 by ring.
  assert (V : (r * u <= u * y + c * u + u * (u * y))%Qc).
  { replace (u * y + c * u + u * (u * y))%Qc with ((y + c + u * y) * u)%Qc by ring. apply Qcmult_le_compat_r; tauto. }
  assert (V1 : (0 <= c * u)%Qc) by now apply Qcmult_nonneg. assert (V2 : (0 <= u * y)%Qc) by now apply Qcmult_nonneg. assert (V3 : (0 <= u * (u * y))%Qc) by now apply Qcmult_nonneg.
  generalize dependent (r * u)%Qc. generalize dependent (c * u)%Qc. generalize dependent (u * (u * y))%Qc. generalize dependent (u * y)%Qc. intros. split; qclra.
Qed.

(** what the caller of marginal_ve_e receives *)
Theorem C115_marginal_ve_e : forall rnd u lo hi bn target ev o d,
  wfnet bn -> In target (bn_V bn) -> good_evidence bn ev -> ~ In target (map fst ev) -> good o ->
  entries_within bn d -> (0 < d /\ d <= 1)%Qc ->
  accurate rnd u lo hi -> (0 <= u)%Qc -> (nQc 2 * nQc (operations bn) * u <= 1)%Qc ->
  (nQc 2 * lo <= Qcpower d (length (bn_V bn)))%Qc -> (lo * pow10 4 <= 1)%Qc -> (pow10 4 * (nQc 2 * nQc (assignments bn)) <= hi)%Qc ->
  (connected bn (target :: map fst ev) /\
     exists l, fl_marginal_ve_e rnd o bn target ev = Ok l /\
       Forall2 (fun p y => close_to (half / pow10 4 * (1 + u) + (nQc 2 * nQc (operations bn) + nQc 5) * u * p) p y)
               (map (marginal bn target ev) (seq 0 (ncard bn target))) l) \/
  (~ connected bn (target :: map fst ev) /\ fl_marginal_ve_e rnd o bn target ev = Raise NameError).
Proof.
  intros rnd u lo hi bn target ev o d W Ht GE Nt Go HE Pd HA Pu HK HL Hl HM. pose proof one_q as O. assert (T2 : (this (nQc 2) == 2)%Q) by reflexivity.
  pose proof (nQc_nonneg (assignments bn)) as PA.
  assert (P1 : (1 <= nQc (assignments bn))%Qc).
  { rewrite <- nQc_1. apply nQc_le. unfold assignments. assert (0 < nprod (map (ncard bn) (bn_V bn))); [|lia]. apply nprod_pos. intros x Hx.
    apply in_map_iff in Hx as (w & <- & Hw). now apply CliqueMain.card_pos_wf. }
  assert (HM' : (nQc 2 * nQc (assignments bn) <= hi)%Qc).
  { apply Qcle_trans with (pow10 4 * (nQc 2 * nQc (assignments bn)))%Qc; [|assumption]. pose proof pow10_4. rewrite two_eq in *.
    clear - H O PA. generalize dependent (nQc (assignments bn)). generalize dependent (pow10 4). intros. qcnra. }
  destruct (float_near rnd u lo hi bn target ev o d W Ht GE Nt Go HE Pd HA Pu HK HL HM') as [(C & f & Ef & Cf)|[C Ef]]; unfold fl_marginal_ve_e; rewrite Ef; [left|now right].
  split; [assumption|]. cbn [bind]. eexists. split; [reflexivity|]. destruct (ops_half bn target u Ht Pu HK) as [Hu Hh].
  assert (G : forall p y, near u (operations bn) (Qcpower d (length (bn_V bn))) (nQc (assignments bn)) p y ->
     close_to (half / pow10 4 * (1 + u) + (nQc 2 * nQc (operations bn) + nQc 5) * u * p)%Qc p (fl_round rnd 4 y)).
  { intros p y N. pose proof (pow_pos d (length (bn_V bn)) (proj1 Pd)) as PL. pose proof (near_nonneg u _ _ _ _ _ PL N) as X. destruct N as (N1 & N2 & A & B).
    pose proof (linear u _ p y Hu HK X A B) as [L1 L2].
    pose proof (dn_bernoulli u Hu (operations bn)) as D. pose proof (up_bernoulli u Hu (operations bn) HK) as U.
    assert (Q : (nQc 2 * nQc (operations bn) * u * p <= p)%Qc).
    { rewrite <- (Qcmult_1_l p) at 2. now apply Qcmult_le_compat_r. }
    assert (Y2 : (y <= nQc 2 * p)%Qc).
    { rewrite two_eq. replace ((1 + 1) * p)%Qc with (p + p)%Qc by ring. clear - L2 Q. generalize dependent (nQc 2 * nQc (operations bn) * u * p)%Qc. intros. qclra. }
    assert (Y1 : (p * dn u (operations bn) + p * dn u (operations bn) >= p)%Qc).
    { clear - HK D X O T2. rewrite two_eq in HK. replace ((1 + 1) * nQc (operations bn) * u)%Qc with (nQc (operations bn) * u + nQc (operations bn) * u)%Qc in HK by ring.
      generalize dependent (nQc (operations bn) * u)%Qc. generalize dependent (dn u (operations bn)). intros. qcnra. }
    assert (Y0 : (0 <= y)%Qc) by (clear - Y1 A X; generalize dependent (p * dn u (operations bn))%Qc; intros; qclra).
    pose proof (fl_round_near rnd u lo hi (nQc 2 * nQc (assignments bn)) y HA Pu Hh) as F.
    assert (F1 : (1 <= nQc 2 * nQc (assignments bn))%Qc).
    { rewrite two_eq. clear - P1 O. generalize dependent (nQc (assignments bn)). intros. qcnra. }
    assert (F2 : (y = 0 \/ lo <= y)%Qc).
    { destruct N1 as [-> |N1].
      - left. rewrite Qcmult_0_l in A, B. now apply Qcle_antisym.
      - right. rewrite two_eq in HL. replace ((1 + 1) * lo)%Qc with (lo + lo)%Qc in HL by ring. clear - HL N1 Y1 A. generalize dependent (p * dn u (operations bn))%Qc. generalize dependent (Qcpower d (length (bn_V bn))). intros. qclra. }
    assert (F3 : (y <= nQc 2 * nQc (assignments bn))%Qc).
    { apply Qcle_trans with (nQc 2 * p)%Qc; [assumption|]. rewrite !(Qcmult_comm (nQc 2)). apply Qcmult_le_compat_r; [assumption|discriminate]. }
    specialize (F F1 HM Hl F2 Y0 F3). destruct F as [R1 R2].
    assert (E : (u * (nQc 2 + u) * y <= nQc 5 * u * p)%Qc).
    { apply Qcle_trans with (u * (nQc 2 + u) * (nQc 2 * p))%Qc.
      - rewrite !(Qcmult_comm (u * (nQc 2 + u))). apply Qcmult_le_compat_r; [assumption|]. apply Qcmult_nonneg; [assumption|]. rewrite two_eq. qclra.
      - replace (u * (nQc 2 + u) * (nQc 2 * p))%Qc with ((nQc 2 + u) * nQc 2 * (u * p))%Qc by ring. replace (nQc 5 * u * p)%Qc with (nQc 5 * (u * p))%Qc by ring.
        apply Qcmult_le_compat_r; [|now apply Qcmult_nonneg]. pose proof half_q as HQ. assert (T5 : (this (nQc 5) == 5)%Q) by reflexivity. clear - Hh HQ T2 T5.
        generalize dependent half. generalize dependent (nQc 2). generalize dependent (nQc 5). intros. qc2q. nra. }
    replace ((nQc 2 * nQc (operations bn) + nQc 5) * u * p)%Qc with (nQc 2 * nQc (operations bn) * u * p + nQc 5 * u * p)%Qc by ring.
    unfold close_to. clear - R1 R2 L1 L2 E. generalize dependent (nQc 2 * nQc (operations bn) * u * p)%Qc. generalize dependent (nQc 5 * u * p)%Qc. generalize dependent (u * (nQc 2 + u) * y)%Qc.
    generalize dependent (half / pow10 4 * (1 + u))%Qc. intros. split; qclra. }
  revert Cf. generalize (map (marginal bn target ev) (seq 0 (ncard bn target))) (f_cpt f). clear - G. induction 1; simpl; constructor; auto.
Qed.
Print Assumptions C115_marginal_ve_e.

(** IEEE double precision: for any network with at most a million nodes and values, the
    4-decimal rounding dominates *)
Theorem C115_double_precision : forall bn target ev o d,
  wfnet bn -> In target (bn_V bn) -> good_evidence bn ev -> ~ In target (map fst ev) -> good o ->
  entries_within bn d -> (0 < d /\ d <= 1)%Qc ->
  (Z.of_nat (operations bn) <= 1000000)%Z ->
  (two_to (-1000) <= Qcpower d (length (bn_V bn)))%Qc -> (nQc (assignments bn) <= two_to 1000)%Qc ->
  (connected bn (target :: map fst ev) /\
     exists l, fl_marginal_ve_e binary64 o bn target ev = Ok l /\
       Forall2 (fun p y => close_to (Q2Qc (5000001 # 100000000000) + Q2Qc (1 # 1000000000) * p) p y)
               (map (marginal bn target ev) (seq 0 (ncard bn target))) l) \/
  (~ connected bn (target :: map fst ev) /\ fl_marginal_ve_e binary64 o bn target ev = Raise NameError).
Proof.
  intros bn target ev o d W Ht GE Nt Go HE Pd HO HL HM. pose proof one_q as O.
  assert (KO : (nQc (operations bn) <= zQc 1000000)%Qc).
  { unfold nQc, zQc, Qcle. rewrite !this_Q2Qc. now rewrite <- Zle_Qle. }
  pose proof (nQc_nonneg (operations bn)) as KP.
  assert (PU : (0 <= two_to (-53))%Qc) by discriminate.
  assert (E1 : (nQc 2 * nQc (operations bn) * two_to (-53) <= 1)%Qc).
  { apply Qcle_trans with (nQc 2 * zQc 1000000 * two_to (-53))%Qc; [|discriminate]. apply Qcmult_le_compat_r; [|assumption].
    rewrite !(Qcmult_comm (nQc 2)). apply Qcmult_le_compat_r; [assumption|discriminate]. }
  assert (E2 : (nQc 2 * two_to (-1022) <= Qcpower d (length (bn_V bn)))%Qc).
  { apply Qcle_trans with (two_to (-1000)); [|assumption]. vm_compute. discriminate. }
  assert (E3 : (two_to (-1022) * pow10 4 <= 1)%Qc) by (vm_compute; discriminate).
  assert (E4 : (pow10 4 * (nQc 2 * nQc (assignments bn)) <= two_to 1023)%Qc).
  { apply Qcle_trans with (pow10 4 * (nQc 2 * two_to 1000))%Qc; [|vm_compute; discriminate].
    rewrite !(Qcmult_comm (pow10 4)), !(Qcmult_comm (nQc 2)). apply Qcmult_le_compat_r; [|discriminate]. apply Qcmult_le_compat_r; [assumption|discriminate]. }
  destruct (C115_marginal_ve_e binary64 (two_to (-53)) (two_to (-1022)) (two_to 1023) bn target ev o d W Ht GE Nt Go HE Pd binary64_accurate PU E1 E2 E3 E4)
    as [(C & l & El & Cl)|H]; [left|now right].
  split; [assumption|]. exists l. split; [assumption|].
  assert (PN : forall p, In p (map (marginal bn target ev) (seq 0 (ncard bn target))) -> (0 <= p)%Qc).
  { intros p Hp. apply in_map_iff in Hp as (x & <- & _). apply marginal_nonneg.
    intros v q Hv Hq. destruct (HE v q Hv Hq) as [-> |[A _]]; [apply Qcle_refl|qclra]. }
  revert PN Cl. generalize (map (marginal bn target ev) (seq 0 (ncard bn target))). clear - KO KP O. intros m PN F. induction F as [|p y m l H F IH]; constructor.
  - assert (P : (0 <= p)%Qc) by (apply PN; now left). 
    assert (A1 : (half / pow10 4 * (1 + two_to (-53)) <= Q2Qc (5000001 # 100000000000))%Qc) by (vm_compute; discriminate).
    assert (A2 : ((nQc 2 * nQc (operations bn) + nQc 5) * two_to (-53) * p <= Q2Qc (1 # 1000000000) * p)%Qc).
    { apply Qcmult_le_compat_r; [|assumption]. apply Qcle_trans with ((nQc 2 * zQc 1000000 + nQc 5) * two_to (-53))%Qc; [|vm_compute; discriminate].
      apply Qcmult_le_compat_r; [|discriminate]. apply Qcplus_le_compat; [|apply Qcle_refl]. rewrite !(Qcmult_comm (nQc 2)). apply Qcmult_le_compat_r; [assumption|discriminate]. }
    destruct H as [H1 H2]. unfold close_to. clear - A1 A2 H1 H2.
    generalize dependent ((nQc 2 * nQc (operations bn) + nQc 5) * two_to (-53) * p)%Qc. generalize dependent (half / pow10 4 * (1 + two_to (-53)))%Qc.
    generalize (Q2Qc (1 # 1000000000) * p)%Qc. generalize (Q2Qc (5000001 # 100000000000)). intros. split; qclra.
  - apply IH. intros q Hq. apply PN. now right.
Qed.
Print Assumptions C115_double_precision.

(** the rounding function is the one of IEEE doubles: 1/10 is stored as 0x3FB999999999999A,
    and 0.1 + 0.2 gives 0.30000000000000004, not the double nearest to 3/10 *)
Example C115_binary64_tenth : binary64 (qq 1 10) = Q2Qc (3602879701896397 # 36028797018963968).
Proof. apply Qc_is_canon. vm_compute. reflexivity. Qed.
Example C115_binary64_sum : binary64 (binary64 (qq 1 10) + binary64 (qq 2 10))%Qc <> binary64 (qq 3 10).
Proof. intros H. apply (f_equal this) in H. vm_compute in H. discriminate. Qed.
(** the smallest positive double and underflow to zero *)
Example C115_binary64_tiny : binary64 (two_to (-1074)) = two_to (-1074) /\ binary64 (two_to (-1075)) = 0%Qc.
Proof. split; apply Qc_is_canon; vm_compute; reflexivity. Qed.

Example C115_nonvacuous : wfnet ex3 /\ In exC (bn_V ex3) /\ good_evidence ex3 [(exB, nm "0")] /\ ~ In exC (map fst [(exB, nm "0")]) /\ good id_oracle /\
  entries_within ex3 (qq 1 10) /\ (0 < qq 1 10 /\ qq 1 10 <= 1)%Qc /\ (Z.of_nat (operations ex3) <= 1000000)%Z /\
  (two_to (-1000) <= Qcpower (qq 1 10) (length (bn_V ex3)))%Qc /\ (nQc (assignments ex3) <= two_to 1000)%Qc /\
  exists l, fl_marginal_ve_e binary64 id_oracle ex3 exC [(exB, nm "0")] = Ok l /\ l <> map (marginal ex3 exC [(exB, nm "0")]) (seq 0 (ncard ex3 exC)).
Proof.
  split; [exact ex3_wf|]. split; [simpl; tauto|]. split.
  { split; [apply nodupb_ok; reflexivity|]. intros rv x [E|[]]. injection E as <- <-. split; simpl; tauto. }
  split. { intros [E|[]]. discriminate. } split; [apply good_id|]. split.
  { intros v x Hv Hx. right. destruct Hv as [<-|[<-|[<-|[]]]]; vm_compute in Hx; repeat (destruct Hx as [<-|Hx]; [split; vm_compute; discriminate|]); destruct Hx. }
  split; [split; vm_compute; [reflexivity|discriminate]|]. split; [vm_compute; discriminate|]. split; [vm_compute; discriminate|]. split; [vm_compute; discriminate|].
  eexists. split; [vm_compute; reflexivity|]. intros H. apply (f_equal (map this)) in H. vm_compute in H. discriminate.
Qed.

(** C116: the MAP query in floating point *)
Theorem C116_same_program : forall o bn ev, fl_ve_map (fun x => x) o bn ev = ve_map o bn ev.
Proof. exact fl_ve_map_id. Qed.
Print Assumptions C116_same_program.

(** the answer is a full assignment with the evidence, and no assignment with the evidence
    is better by more than the factor 1 - 2nu *)
Theorem C116_near_optimal : forall rnd u lo hi bn ev o d,
  wfnet bn -> good_evidence bn ev -> good o -> entries_within bn d -> (0 < d /\ d <= 1)%Qc ->
  accurate rnd u lo hi -> (0 <= u /\ u < 1)%Qc -> (nQc 2 * nQc (length (bn_V bn)) * u <= 1)%Qc ->
  (nQc 2 * lo <= Qcpower d (length (bn_V bn)))%Qc -> (nQc 2 <= hi)%Qc ->
  exists m, fl_ve_map rnd o bn ev = Ok m /\
    (forall k, In k (dkeys m) <-> In k (bn_V bn)) /\
    (forall v, In v (bn_V bn) -> exists x, dget m v = Some x /\ In x (nvalues bn v)) /\
    (forall E e, In (E, e) ev -> dget m E = Some e) /\
    (forall b, valid (ncard bn) (bn_V bn) b -> agrees bn ev b = true ->
       (joint bn b * (1 - nQc 2 * nQc (length (bn_V bn)) * u) <= joint bn (asg_of bn m))%Qc).
Proof.
  intros rnd u lo hi bn ev o d W GE Go HE Pd HA Hu HK HL HM. pose proof one_q as O.
  pose proof (dn_bernoulli u Hu (length (bn_V bn))) as D. pose proof (up_bernoulli u Hu (length (bn_V bn)) HK) as U. pose proof (up_inv u Hu (length (bn_V bn))) as UI.
  pose proof (pow_pos d (length (bn_V bn)) (proj1 Pd)) as PL.
  assert (NN : nonneg_net bn).
  { intros v x Hv Hx. destruct (HE v x Hv Hx) as [-> |[A _]]; [apply Qcle_refl|qclra]. }
  assert (KU : (0 <= nQc (length (bn_V bn)) * u)%Qc) by (apply Qcmult_nonneg; [apply nQc_nonneg|tauto]).
  rewrite two_eq in *. replace ((1 + 1) * nQc (length (bn_V bn)) * u)%Qc with (nQc (length (bn_V bn)) * u + nQc (length (bn_V bn)) * u)%Qc in * by ring.
  destruct (fl_map_ok u Hu rnd bn ev o d W GE Go HE Pd) as (m & Em & Ek & Ev & Ee & Eb).
  { intros z [Z|[Z1 Z2]]; apply HA; [now left|right].
    generalize dependent (nQc (length (bn_V bn)) * u)%Qc. generalize dependent (dn u (length (bn_V bn))). generalize dependent (up u (length (bn_V bn))).
    generalize dependent (Qcpower d (length (bn_V bn))). clear - O HM. intros L HL PL p Z2 q Z1 k HK D U UI KU. split.
    - assert (L <= L * q + L * q)%Qc by qcnra. replace ((1 + 1) * lo)%Qc with (lo + lo)%Qc in HL by ring. generalize dependent (L * q)%Qc. intros. qclra.
    - rewrite Qcmult_1_l in Z2. qclra. }
  exists m. split; [assumption|]. split; [assumption|]. split.
  { intros v Hv. destruct (Ev v Hv) as (x & i & Hx & Hi). exists x. split; [assumption|]. apply index_of_Some in Hi. now apply nth_error_In in Hi. }
  split; [assumption|]. intros b Vb Ab. specialize (Eb b Vb Ab).
  pose proof (joint_nonneg bn b NN) as N1. pose proof (joint_nonneg bn (asg_of bn m) NN) as N2.
  generalize dependent (nQc (length (bn_V bn)) * u)%Qc. generalize dependent (dn u (length (bn_V bn))). generalize dependent (up u (length (bn_V bn))).
  generalize dependent (joint bn b). generalize dependent (joint bn (asg_of bn m)). clear - O. intros y N2 x N1 p q Eb k HK D U UI KU.
  assert (A : (x * q * (1 - k) <= y * p * (1 - k))%Qc) by (apply Qcmult_le_compat_r; [assumption|qclra]).
  assert (B : (y * p * (1 - k) <= y)%Qc) by (replace (y * p * (1 - k))%Qc with (y * (p * (1 - k)))%Qc by ring; now apply shrink).
  assert (C : (x * (1 - k) * (1 - k) <= x * q * (1 - k))%Qc).
  { apply Qcmult_le_compat_r; [|qclra]. rewrite !(Qcmult_comm x). now apply Qcmult_le_compat_r. }
  assert (E : (x * (1 - (k + k)) <= x * (1 - k) * (1 - k))%Qc).
  { replace (x * (1 - k) * (1 - k))%Qc with (x * (1 - (k + k)) + x * (k * k))%Qc by ring. assert (0 <= x * (k * k))%Qc by (apply Qcmult_nonneg; [assumption|now apply Qcmult_nonneg]).
    generalize dependent (x * (k * k))%Qc. generalize (x * (1 - (k + k)))%Qc. intros. qclra. }
  eapply Qcle_trans; [exact E|]. eapply Qcle_trans; [exact C|]. eapply Qcle_trans; [exact A|exact B].
Qed.
Print Assumptions C116_near_optimal.

(** a clear winner is found exactly *)
Theorem C116_clear_winner : forall rnd u lo hi bn ev o d w,
  wfnet bn -> good_evidence bn ev -> good o -> entries_within bn d -> (0 < d /\ d <= 1)%Qc ->
  accurate rnd u lo hi -> (0 <= u /\ u < 1)%Qc -> (nQc 2 * nQc (length (bn_V bn)) * u <= 1)%Qc ->
  (nQc 2 * lo <= Qcpower d (length (bn_V bn)))%Qc -> (nQc 2 <= hi)%Qc ->
  valid (ncard bn) (bn_V bn) w -> agrees bn ev w = true ->
  (forall b, valid (ncard bn) (bn_V bn) b -> agrees bn ev b = true -> (exists v, In v (bn_V bn) /\ b v <> w v) ->
     (joint bn b < joint bn w * (1 - nQc 2 * nQc (length (bn_V bn)) * u))%Qc) ->
  exists m, fl_ve_map rnd o bn ev = Ok m /\ forall v, In v (bn_V bn) -> asg_of bn m v = w v.
Proof.
  intros rnd u lo hi bn ev o d w W GE Go HE Pd HA Hu HK HL HM Vw Aw Best.
  destruct (C116_near_optimal rnd u lo hi bn ev o d W GE Go HE Pd HA Hu HK HL HM) as (m & Em & _ & Ev & Ee & Eb).
  exists m. split; [assumption|]. intros v Hv. destruct (Nat.eq_dec (asg_of bn m v) (w v)) as [|Ne]; [assumption|]. exfalso.
  assert (Ix : forall y, In y (bn_V bn) -> exists x i, dget m y = Some x /\ val_index bn y x = Some i).
  { intros y Hy. destruct (Ev y Hy) as (x & Hx & Hin). destruct (index_of_In x (nvalues bn y) Hin) as [i Hi]. exists x, i. auto. }
  assert (Va : valid (ncard bn) (bn_V bn) (asg_of bn m)).
  { intros y Hy. destruct (Ix y Hy) as (x & i & Hx & Hi). unfold asg_of. rewrite Hx, Hi.
    unfold val_index, nvalues in Hi. unfold ncard. destruct (dget (bn_F bn) y); [now apply index_of_lt in Hi|discriminate]. }
  assert (Ag : agrees bn ev (asg_of bn m) = true).
  { unfold agrees. apply forallb_forall. intros [E e] H. cbn [fst snd].
    destruct (good_evidence_idx bn ev E e W GE H) as (dd & Hd & Hx & _). unfold val_index, nvalues. rewrite Hd, Hx.
    unfold asg_of. rewrite (Ee E e H). unfold val_index, nvalues. rewrite Hd, Hx. apply Nat.eqb_refl. }
  specialize (Best _ Va Ag (ex_intro _ v (conj Hv Ne))). specialize (Eb w Vw Aw). 
  generalize dependent (joint bn w * (1 - nQc 2 * nQc (length (bn_V bn)) * u))%Qc. intros. qclra.
Qed.
Print Assumptions C116_clear_winner.

(** IEEE doubles, up to a million nodes *)
Theorem C116_double_precision : forall bn ev o d,
  wfnet bn -> good_evidence bn ev -> good o -> entries_within bn d -> (0 < d /\ d <= 1)%Qc ->
  (Z.of_nat (length (bn_V bn)) <= 1000000)%Z -> (two_to (-1000) <= Qcpower d (length (bn_V bn)))%Qc ->
  exists m, fl_ve_map binary64 o bn ev = Ok m /\
    (forall v, In v (bn_V bn) -> exists x, dget m v = Some x /\ In x (nvalues bn v)) /\
    (forall E e, In (E, e) ev -> dget m E = Some e) /\
    (forall b, valid (ncard bn) (bn_V bn) b -> agrees bn ev b = true ->
       (joint bn b * Q2Qc (999999999 # 1000000000) <= joint bn (asg_of bn m))%Qc).
Proof.
  intros bn ev o d W GE Go HE Pd HO HL.
  assert (KO : (nQc (length (bn_V bn)) <= zQc 1000000)%Qc).
  { unfold nQc, zQc, Qcle. rewrite !this_Q2Qc. now rewrite <- Zle_Qle. }
  assert (PU : (0 <= two_to (-53) /\ two_to (-53) < 1)%Qc) by (split; [discriminate|reflexivity]).
  assert (E1 : (nQc 2 * nQc (length (bn_V bn)) * two_to (-53) <= Q2Qc (1 # 1000000000))%Qc).
  { apply Qcle_trans with (nQc 2 * zQc 1000000 * two_to (-53))%Qc; [|vm_compute; discriminate]. apply Qcmult_le_compat_r; [|tauto].
    rewrite !(Qcmult_comm (nQc 2)). apply Qcmult_le_compat_r; [assumption|discriminate]. }
  assert (E1' : (nQc 2 * nQc (length (bn_V bn)) * two_to (-53) <= 1)%Qc) by (eapply Qcle_trans; [exact E1|discriminate]).
  assert (E2 : (nQc 2 * two_to (-1022) <= Qcpower d (length (bn_V bn)))%Qc).
  { apply Qcle_trans with (two_to (-1000)); [|assumption]. vm_compute. discriminate. }
  assert (E4 : (nQc 2 <= two_to 1023)%Qc) by (vm_compute; discriminate).
  destruct (C116_near_optimal binary64 _ _ _ bn ev o d W GE Go HE Pd binary64_accurate PU E1' E2 E4) as (m & Em & _ & Ev & Ee & Eb).
  exists m. split; [assumption|]. split; [assumption|]. split; [assumption|]. intros b Vb Ab. eapply Qcle_trans; [|exact (Eb b Vb Ab)].
  rewrite !(Qcmult_comm (joint bn b)). apply Qcmult_le_compat_r.
  - assert (T : Q2Qc (999999999 # 1000000000) = (1 - Q2Qc (1 # 1000000000))%Qc) by (apply Qc_is_canon; reflexivity). rewrite T.
    clear - E1. generalize dependent (nQc 2 * nQc (length (bn_V bn)) * two_to (-53))%Qc. generalize (Q2Qc (1 # 1000000000)). intros. qclra.
  - apply joint_nonneg. intros v x Hv Hx. destruct (HE v x Hv Hx) as [-> |[A _]]; [apply Qcle_refl|qclra].
Qed.
Print Assumptions C116_double_precision.

(** the factor cannot be dropped: with the doubles nearest to 0.6, 0.4, 0.64, 0.36, 0.96
    and 0.04 as tables, two products round to the same double and ve_map returns the
    strictly less probable assignment *)
Definition fl (n : Z) (d : positive) : Qc := binary64 (qq n d).
Definition exTie : bayesnet :=
  mkBN [exA; exB] [(exA, [exB]); (exB, [])]
    [(exA, mkF [] [nm "0"; nm "1"] [fl 6 10; fl 4 10]);
     (exB, mkF [exA] [nm "0"; nm "1"] [fl 64 100; fl 36 100; fl 96 100; fl 4 100])].
Theorem C116_exact_optimum_refuted : exists bn o m b, wfnet bn /\ good o /\ entries_within bn (qq 1 100) /\
  fl_ve_map binary64 o bn [] = Ok m /\ valid (ncard bn) (bn_V bn) b /\ agrees bn [] b = true /\ (joint bn (asg_of bn m) < joint bn b)%Qc.
Proof.
  exists exTie, id_oracle. eexists. exists (fun v => if name_eqb v exA then 1 else 0).
  split; [apply wfnetb_ok; vm_compute; reflexivity|]. split; [apply good_id|]. split.
  { intros v x Hv Hx. right. destruct Hv as [<-|[<-|[]]]; vm_compute in Hx; repeat (destruct Hx as [<-|Hx]; [split; vm_compute; discriminate|]); destruct Hx. }
  split; [vm_compute; reflexivity|]. split. { intros v [<-|[<-|[]]]; vm_compute; lia. } split; [reflexivity|]. vm_compute. reflexivity.
Qed.
Print Assumptions C116_exact_optimum_refuted.

(** the probability reported with prob=True *)
Theorem C116_same_program_prob : forall o bn ev, fl_ve_map_prob (fun x => x) o bn ev = ve_map_prob o bn ev.
Proof. exact fl_ve_map_prob_id. Qed.
Print Assumptions C116_same_program_prob.
Lemma map_safe rnd u lo hi n d : (0 < d /\ d <= 1)%Qc ->
  accurate rnd u lo hi -> (0 <= u /\ u < 1)%Qc -> (nQc 2 * nQc n * u <= 1)%Qc -> (nQc 2 * lo <= Qcpower d n)%Qc -> (nQc 2 <= hi)%Qc -> safe u rnd n (Qcpower d n) 1.
Proof.
  intros Pd HA Hu HK HL HM. pose proof one_q as O.
  pose proof (dn_bernoulli u Hu n) as D. pose proof (up_bernoulli u Hu n HK) as U. pose proof (pow_pos d n (proj1 Pd)) as PL.
  assert (KU : (0 <= nQc n * u)%Qc) by (apply Qcmult_nonneg; [apply nQc_nonneg|tauto]).
  rewrite two_eq in *. replace ((1 + 1) * nQc n * u)%Qc with (nQc n * u + nQc n * u)%Qc in * by ring.
  intros z [Z|[Z1 Z2]]; apply HA; [now left|right].
  generalize dependent (nQc n * u)%Qc. generalize dependent (dn u n). generalize dependent (up u n).
  generalize dependent (Qcpower d n). clear - O HM. intros L HL PL p Z2 q Z1 k HK D U KU. split.
  - assert (L <= L * q + L * q)%Qc by qcnra. replace ((1 + 1) * lo)%Qc with (lo + lo)%Qc in HL by ring. generalize dependent (L * q)%Qc. intros. qclra.
  - rewrite Qcmult_1_l in Z2. qclra.
Qed.
Lemma joint_le_1 bn d a : entries_within bn d -> (0 < d)%Qc -> (joint bn a <= 1)%Qc.
Proof.
  intros HE Pd. pose proof one_q as O. unfold joint. assert (G : forall l, incl l (bn_V bn) -> (0 <= qprod (map (fun v => getq (cond_prob bn v a)) l) /\ qprod (map (fun v => getq (cond_prob bn v a)) l) <= 1)%Qc).
  { induction l as [|v l IH]; intros I; cbn [map qprod fold_right]; [split; qclra|]. destruct IH as [I1 I2]; [intros w Hw; apply I; now right|].
    assert (C : (0 <= getq (cond_prob bn v a) /\ getq (cond_prob bn v a) <= 1)%Qc).
    { unfold cond_prob. destruct (nth_error (ncpt bn v) _) as [x|] eqn:E; cbn [getq]; [|split; qclra].
      apply nth_error_In in E. destruct (HE v x (I v (or_introl eq_refl)) E) as [-> |[A B]]; split; qclra. }
    fold (qprod (map (fun v => getq (cond_prob bn v a)) l)). revert C I1 I2. generalize (getq (cond_prob bn v a)) (qprod (map (fun v => getq (cond_prob bn v a)) l)). intros x y [C1 C2] I1 I2.
    split; [now apply Qcmult_nonneg|]. qcnra. }
  apply G, incl_refl.
Qed.
(** on a network that stays in one piece under the evidence, it is the rounding to five decimals of a number x that
    differs from the probability of the returned assignment (with the evidence) by the factor 1 +- 2nu *)
Theorem C116_probability : forall rnd u lo hi bn ev o d,
  wfnet bn -> good_evidence bn ev -> good o -> entries_within bn d -> (0 < d /\ d <= 1)%Qc ->
  accurate rnd u lo hi -> (0 <= u /\ u < 1)%Qc -> (nQc 2 * nQc (length (bn_V bn)) * u <= 1)%Qc ->
  (nQc 2 * lo <= Qcpower d (length (bn_V bn)))%Qc -> (nQc 2 <= hi)%Qc -> bn_V bn <> [] -> connected bn (map fst ev) ->
  exists m x, fl_ve_map rnd o bn ev = Ok m /\ fl_ve_map_prob rnd o bn ev = Ok (rnd (py_round 5 x), m) /\
    close_to (nQc 2 * nQc (length (bn_V bn)) * u * joint bn (asg_of bn m)) (joint bn (asg_of bn m)) x.
Proof.
  intros rnd u lo hi bn ev o d W GE Go HE Pd HA Hu HK HL HM NE C.
  assert (NN : nonneg_net bn).
  { intros v x Hv Hx. destruct (HE v x Hv Hx) as [-> |[A _]]; [apply Qcle_refl|qclra]. }
  destruct (fl_prob_ok u Hu rnd bn ev o d W GE Go HE Pd NE (map_safe rnd u lo hi _ d Pd HA Hu HK HL HM)) as [(_ & m & x & E1 & E2 & X1 & X2)|[K _]]; [|contradiction].
  exists m, x. split; [exact E1|]. split; [exact E2|]. apply linear; auto. now apply joint_nonneg.
Qed.
Print Assumptions C116_probability.
(** otherwise the call raises NameError, as with exact arithmetic: rounding does not decide it *)
Theorem C116_probability_disconnected : forall rnd u lo hi bn ev o d,
  wfnet bn -> good_evidence bn ev -> good o -> entries_within bn d -> (0 < d /\ d <= 1)%Qc ->
  accurate rnd u lo hi -> (0 <= u /\ u < 1)%Qc -> (nQc 2 * nQc (length (bn_V bn)) * u <= 1)%Qc ->
  (nQc 2 * lo <= Qcpower d (length (bn_V bn)))%Qc -> (nQc 2 <= hi)%Qc -> bn_V bn <> [] -> ~ connected bn (map fst ev) ->
  fl_ve_map_prob rnd o bn ev = Raise NameError.
Proof.
  intros rnd u lo hi bn ev o d W GE Go HE Pd HA Hu HK HL HM NE C.
  destruct (fl_prob_ok u Hu rnd bn ev o d W GE Go HE Pd NE (map_safe rnd u lo hi _ d Pd HA Hu HK HL HM)) as [(K & _)|[_ H]]; [contradiction|exact H].
Qed.
Print Assumptions C116_probability_disconnected.
(** IEEE doubles, up to a million nodes: off by at most 0.00000501 *)
Lemma py_round_5_grid x : (0 <= x)%Qc -> py_round 5 x = 0%Qc \/ (Q2Qc (1 # 100000) <= py_round 5 x)%Qc.
Proof.
  intros H. pose proof (py_round_nonneg 5 x H) as N. unfold py_round in *. destruct (qltb_spec x 0%Qc) as [S|S]; [exfalso; qclra|].
  set (z := qfloor (x * pow10 5 + half)) in *. destruct (Z.le_gt_cases z 0) as [Z|Z].
  - left. apply Qcle_antisym; [|exact N]. assert (zQc z <= 0)%Qc by (unfold zQc, Qcle; rewrite !this_Q2Qc; change 0%Q with (inject_Z 0); now rewrite <- Zle_Qle).
    unfold Qcdiv. pose proof (pow10_inv_pos 5). revert H0 H1. generalize (zQc z) (/ pow10 5)%Qc. intros. qcnra.
  - right. assert (A : (1 <= zQc z)%Qc) by (unfold zQc, Qcle; rewrite !this_Q2Qc; change 1%Q with (inject_Z 1); rewrite <- Zle_Qle; lia).
    assert (E : Q2Qc (1 # 100000) = (1 * / pow10 5)%Qc) by (apply Qc_is_canon; vm_compute; reflexivity). rewrite E. unfold Qcdiv. apply Qcmult_le_compat_r; [exact A|]. apply Qclt_le_weak, pow10_inv_pos.
Qed.
Theorem C116_probability_double : forall bn ev o d,
  wfnet bn -> good_evidence bn ev -> good o -> entries_within bn d -> (0 < d /\ d <= 1)%Qc ->
  (Z.of_nat (length (bn_V bn)) <= 1000000)%Z -> (two_to (-1000) <= Qcpower d (length (bn_V bn)))%Qc -> bn_V bn <> [] -> connected bn (map fst ev) ->
  exists m p, fl_ve_map binary64 o bn ev = Ok m /\ fl_ve_map_prob binary64 o bn ev = Ok (p, m) /\
    close_to (Q2Qc (501 # 100000000)) (joint bn (asg_of bn m)) p.
Proof.
  intros bn ev o d W GE Go HE Pd HO HL NE C. pose proof one_q as O.
  assert (KO : (nQc (length (bn_V bn)) <= zQc 1000000)%Qc).
  { unfold nQc, zQc, Qcle. rewrite !this_Q2Qc. now rewrite <- Zle_Qle. }
  assert (PU : (0 <= two_to (-53) /\ two_to (-53) < 1)%Qc) by (split; [discriminate|reflexivity]).
  assert (E1 : (nQc 2 * nQc (length (bn_V bn)) * two_to (-53) <= Q2Qc (1 # 1000000000))%Qc).
  { apply Qcle_trans with (nQc 2 * zQc 1000000 * two_to (-53))%Qc; [|vm_compute; discriminate]. apply Qcmult_le_compat_r; [|tauto].
    rewrite !(Qcmult_comm (nQc 2)). apply Qcmult_le_compat_r; [assumption|discriminate]. }
  assert (E1' : (nQc 2 * nQc (length (bn_V bn)) * two_to (-53) <= 1)%Qc) by (eapply Qcle_trans; [exact E1|discriminate]).
  assert (E2 : (nQc 2 * two_to (-1022) <= Qcpower d (length (bn_V bn)))%Qc).
  { apply Qcle_trans with (two_to (-1000)); [|assumption]. vm_compute. discriminate. }
  assert (E4 : (nQc 2 <= two_to 1023)%Qc) by (vm_compute; discriminate).
  destruct (C116_probability binary64 _ _ _ bn ev o d W GE Go HE Pd binary64_accurate PU E1' E2 E4 NE C) as (m & x & Em & Ep & X1 & X2).
  exists m, (binary64 (py_round 5 x)). split; [exact Em|]. split; [exact Ep|].
  assert (NN : nonneg_net bn).
  { intros v y Hv Hy. destruct (HE v y Hv Hy) as [-> |[A _]]; [apply Qcle_refl|qclra]. }
  pose proof (joint_nonneg bn (asg_of bn m) NN) as J0. pose proof (joint_le_1 bn d (asg_of bn m) HE (proj1 Pd)) as J1.
  set (j := joint bn (asg_of bn m)) in *. set (e := (nQc 2 * nQc (length (bn_V bn)) * two_to (-53))%Qc) in *.
  assert (Ee : (e * j <= Q2Qc (1 # 1000000000))%Qc).
  { apply Qcle_trans with (Q2Qc (1 # 1000000000) * j)%Qc; [now apply Qcmult_le_compat_r|]. rewrite <- (Qcmult_1_r (Q2Qc (1 # 1000000000))) at 2.
    rewrite !(Qcmult_comm (Q2Qc (1 # 1000000000))). apply Qcmult_le_compat_r; [exact J1|discriminate]. }
  assert (X0 : (0 <= x)%Qc).
  { assert (e * j <= j)%Qc; [|clear - X1 H; revert X1 H; generalize (e * j)%Qc; intros; qclra]. rewrite <- (Qcmult_1_l j) at 2. now apply Qcmult_le_compat_r. }
  assert (Hh : (half / pow10 5)%Qc = Q2Qc (1 # 200000)) by (apply Qc_is_canon; vm_compute; reflexivity).
  pose proof (py_round_near 5 x) as [R1 R2]. rewrite Hh in R1, R2. set (r := py_round 5 x) in *.
  assert (C1 : (this (Q2Qc (1 # 1000000000)) == 1 # 1000000000)%Q) by apply this_Q2Qc. assert (C2 : (this (Q2Qc (1 # 200000)) == 1 # 200000)%Q) by apply this_Q2Qc.
  assert (C3 : (this (Q2Qc (501 # 100000000)) == 501 # 100000000)%Q) by apply this_Q2Qc.
  assert (Hr : (r <= nQc 2)%Qc). { rewrite two_eq. clear - X2 R2 Ee J1 C1 C2 O. revert X2 Ee. generalize (e * j)%Qc. intros. qclra. }
  assert (A : r = 0%Qc \/ (two_to (-1022) <= r /\ r <= two_to 1023)%Qc).
  { destruct (py_round_5_grid x X0) as [Z|Z]; [now left|right]. fold r in Z. split; [|eapply Qcle_trans; eassumption]. eapply Qcle_trans; [|exact Z]. vm_compute. discriminate. }
  destruct (binary64_accurate r A) as [B1 B2].
  assert (Hr0 : (0 <= r)%Qc) by (now apply py_round_nonneg).
  assert (Et : (r * two_to (-53) <= Q2Qc (1 # 1000000000))%Qc).
  { apply Qcle_trans with (nQc 2 * two_to (-53))%Qc; [|vm_compute; discriminate]. apply Qcmult_le_compat_r; [exact Hr|tauto]. }
  assert (Q1 : (r * (1 - two_to (-53)) = r - r * two_to (-53))%Qc) by ring. assert (Q2 : (r * (1 + two_to (-53)) = r + r * two_to (-53))%Qc) by ring. rewrite Q1 in B1. rewrite Q2 in B2.
  clear - X1 X2 Ee R1 R2 B1 B2 Et C1 C2 C3 O. revert X1 X2 Ee B1 B2 Et. generalize (r * two_to (-53))%Qc (binary64 r) (e * j)%Qc. intros t b k X1 X2 Ee B1 B2 Et. split; qclra.
Qed.
Print Assumptions C116_probability_double.

Example C116_nonvacuous : wfnet ex3 /\ good_evidence ex3 [(exB, nm "0")] /\ entries_within ex3 (qq 1 10) /\
  (Z.of_nat (length (bn_V ex3)) <= 1000000)%Z /\ (two_to (-1000) <= Qcpower (qq 1 10) (length (bn_V ex3)))%Qc /\
  exists m, fl_ve_map binary64 id_oracle ex3 [(exB, nm "0")] = Ok m /\ dget m exC = Some (nm "1").
Proof.
  destruct C115_nonvacuous as (A & _ & B & _ & _ & C & _ & _ & D & _). split; [assumption|]. split; [assumption|]. split; [assumption|].
  split; [vm_compute; discriminate|]. split; [assumption|]. eexists. split; vm_compute; reflexivity.
Qed.
Example C116_probability_nonvacuous : bn_V ex3 <> [] /\ connected ex3 (map fst [(exB, nm "0")]) /\ ~ connected ex3 (map fst [(exA, nm "0")]) /\
  exists m p, fl_ve_map_prob binary64 id_oracle ex3 [(exB, nm "0")] = Ok (p, m) /\ p <> joint ex3 (asg_of ex3 m) /\ close_to (Q2Qc (501 # 100000000)) (joint ex3 (asg_of ex3 m)) p.
Proof.
  split; [discriminate|]. split.
  { assert (K : forall u, In u (bn_V ex3) -> linked ex3 [exB] u exA /\ linked ex3 [exB] exA u).
    { intros u Hu. assert (N : ~ In exA [exB]) by (intros [X|[]]; discriminate).
      assert (P : In exA (u :: nparents ex3 u)) by (destruct Hu as [<-|[<-|[<-|[]]]]; cbn; tauto).
      split; (split; [cbn in *; tauto|split; [cbn in *; tauto|exists exA; split; [exact N|split; [|]; (exact P || now left)]]]). }
    intros u w Hu Hw. eapply rt_trans; apply rt_step; [apply K; exact Hu|apply K; exact Hw]. }
  split.
  { intros C. assert (G : forall u w, clos_refl_trans _ (linked ex3 [exA]) u w -> u = exA -> w = exA).
    { intros u w H. induction H as [u w (_ & Hw & x & Nx & Ux & Wx)|u|u v w _ I1 _ I2]; intros E; [|exact E|auto]. subst u. cbn in Ux. destruct Ux as [<-|[]]. exfalso. apply Nx. now left. }
    specialize (G exA exB (C exA exB (or_introl eq_refl) (or_intror (or_introl eq_refl))) eq_refl). discriminate. }
  eexists. eexists. split; [vm_compute; reflexivity|]. split; [intros H; apply (f_equal this) in H; vm_compute in H; discriminate|]. split; vm_compute; discriminate.
Qed.
