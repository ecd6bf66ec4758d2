(** Binary64.v -- IEEE binary64 rounding has relative error 2^-53 on the normal range. *)
From Verif Require Import Py Num BayesNet Factor SpecFactor Rounding SpecInference SpecFloat.
From Coq Require Import Qpower.
Open Scope nat_scope.

Lemma this_two e : (this (two_to e) == Qpower 2 e)%Q.
Proof. unfold two_to. apply this_Q2Qc. Qed.
Lemma two_plus a b : two_to (a + b) = (two_to a * two_to b)%Qc.
Proof. apply Qc_eq_Q. rewrite this_mult, !this_two. apply Qpower_plus. discriminate. Qed.
Lemma two_0 : two_to 0 = 1%Qc.
Proof. apply Qc_is_canon. reflexivity. Qed.
Lemma two_1 : (this (two_to 1) == 2)%Q.
Proof. reflexivity. Qed.
Lemma two_nat n : (1 <= two_to (Z.of_nat n))%Qc.
Proof.
  induction n as [|n IH]; [change (Z.of_nat 0) with 0%Z; rewrite two_0; apply Qcle_refl|]. rewrite Nat2Z.inj_succ. unfold Z.succ. rewrite two_plus.
  pose proof two_1 as T. assert (O : (this 1%Qc == 1)%Q) by reflexivity. generalize dependent (two_to (Z.of_nat n)). intros q Hq.
  generalize dependent (two_to 1). intros t T. qc2q. nra.
Qed.
Lemma two_inv e : (two_to e * two_to (- e) = 1)%Qc.
Proof. rewrite <- two_plus, Z.add_opp_diag_r. apply two_0. Qed.
Lemma two_pos e : (0 < two_to e)%Qc.
Proof.
  assert (O : (this 1%Qc == 1)%Q) by reflexivity. destruct (Z_le_gt_dec 0 e) as [H|H].
  - rewrite <- (Z2Nat.id e) by lia. pose proof (two_nat (Z.to_nat e)). qclra.
  - pose proof (two_inv e) as E. pose proof (two_nat (Z.to_nat (- e))) as P. rewrite Z2Nat.id in P by lia.
    generalize dependent (two_to (- e)). generalize (two_to e). intros x y E P.
    destruct (Qclt_le_dec 0 x) as [C|C]; [assumption|]. exfalso. assert (x * y <= 0)%Qc by qcnra. rewrite E in *. qclra.
Qed.
Lemma two_mono a b : (a <= b)%Z -> (two_to a <= two_to b)%Qc.
Proof.
  intros H. replace b with (a + (b - a))%Z by lia. rewrite two_plus. pose proof (two_pos a). pose proof (two_nat (Z.to_nat (b - a))) as P.
  rewrite Z2Nat.id in P by lia. assert (O : (this 1%Qc == 1)%Q) by reflexivity.
  generalize dependent (two_to a). generalize dependent (two_to (b - a)). intros x Hx y Hy. qcnra.
Qed.
Lemma two_Z n : (0 <= n)%Z -> two_to n = zQc (2 ^ n).
Proof.
  intros H. apply Qc_eq_Q. rewrite this_two. unfold zQc. rewrite this_Q2Qc. rewrite <- (Z2Nat.id n) by assumption.
  generalize (Z.to_nat n). clear. induction n as [|n IH]; [reflexivity|]. rewrite Nat2Z.inj_succ. unfold Z.succ at 1. rewrite Qpower_plus by discriminate. rewrite IH.
  rewrite Z.pow_succ_r by lia. change (2 ^ 1)%Q with 2%Q. rewrite inject_Z_mult. change (inject_Z 2) with 2%Q. ring.
Qed.

Lemma magnitude_ok x : (0 < x)%Qc -> (two_to (magnitude x) <= x /\ x < two_to (magnitude x + 1))%Qc.
Proof.
  intros P. unfold magnitude. set (n := Qnum (this x)). set (d := Zpos (Qden (this x))).
  assert (Pn : (0 < n)%Z).
  { unfold Qclt in P. unfold Qlt in P. simpl in P. fold n in P. lia. }
  assert (Pd : (0 < d)%Z) by (unfold d; lia).
  rewrite Z.abs_eq by lia. set (b := (Z.log2 n - Z.log2 d)%Z).
  assert (E : (x * zQc d = zQc n)%Qc).
  { apply Qc_eq_Q. rewrite this_mult. unfold zQc. rewrite !this_Q2Qc. unfold n, d, Qeq. simpl. lia. }
  assert (EM : qmax x (- x) = x).
  { unfold qmax. destruct (Qclt_le_dec x (- x)) as [C|C]; [exfalso; qclra|reflexivity]. }
  rewrite EM. destruct (Z.log2_spec n Pn) as [n1 n2]. destruct (Z.log2_spec d Pd) as [d1 d2].
  pose proof (Z.log2_nonneg n) as ln. pose proof (Z.log2_nonneg d) as ld.
  assert (Q1 : (two_to (Z.log2 n) <= zQc n)%Qc).
  { rewrite two_Z by assumption. unfold zQc, Qcle. rewrite !this_Q2Qc. now rewrite <- Zle_Qle. }
  assert (Q2 : (zQc n < two_to (Z.log2 n + 1))%Qc).
  { rewrite two_Z by lia. unfold zQc, Qclt. rewrite !this_Q2Qc. now rewrite <- Zlt_Qlt. }
  assert (Q3 : (two_to (Z.log2 d) <= zQc d)%Qc).
  { rewrite two_Z by assumption. unfold zQc, Qcle. rewrite !this_Q2Qc. now rewrite <- Zle_Qle. }
  assert (Q4 : (zQc d < two_to (Z.log2 d + 1))%Qc).
  { rewrite two_Z by lia. unfold zQc, Qclt. rewrite !this_Q2Qc. now rewrite <- Zlt_Qlt. }
  assert (T1 : (two_to (Z.log2 n) = two_to (b - 1) * two_to (Z.log2 d + 1))%Qc) by (rewrite <- two_plus; f_equal; unfold b; lia).
  assert (T2 : (two_to (Z.log2 n + 1) = two_to (b + 1) * two_to (Z.log2 d))%Qc) by (rewrite <- two_plus; f_equal; unfold b; lia).
  rewrite T1 in Q1. rewrite T2 in Q2. rewrite <- E in Q1, Q2.
  pose proof (two_pos (b - 1)) as P1. pose proof (two_pos (b + 1)) as P2. pose proof (two_pos (Z.log2 d)) as P3.
  assert (A1 : (two_to (b - 1) <= x)%Qc).
  { pose proof (two_pos (Z.log2 d + 1)) as P5. revert Q1 Q4 P1 P P5. clear. generalize (two_to (b - 1)) (two_to (Z.log2 d + 1)) (zQc d). intros p q r. intros.
    destruct (Qclt_le_dec x p) as [C|C]; [|assumption]. exfalso. assert (x * r < x * q)%Qc by qcnra. assert (x * q < p * q)%Qc by qcnra. qclra. }
  assert (A2 : (x < two_to (b + 1))%Qc).
  { revert Q2 Q3 P2 P P3. clear. generalize (two_to (b + 1)) (two_to (Z.log2 d)) (zQc d). intros p q r. intros.
    destruct (Qclt_le_dec x p) as [C|C]; [assumption|]. exfalso. assert (p * q <= p * r)%Qc by qcnra. assert (p * r <= x * r)%Qc by qcnra. qclra. }
  destruct (qltb_spec x (two_to b)) as [C|C].
  - split; [assumption|]. now replace (b - 1 + 1)%Z with b by lia.
  - split; [qclra|assumption].
Qed.

Lemma half_two : half = two_to (-1).
Proof. apply Qc_is_canon. reflexivity. Qed.

Theorem binary64_accurate : accurate binary64 (two_to (-53)) (two_to (-1022)) (two_to 1023).
Proof.
  intros z [->|[H1 H2]].
  { unfold binary64. destruct (Qc_eq_dec 0 0) as [_|N]; [|now destruct N]. rewrite !Qcmult_0_l. split; apply Qcle_refl. }
  pose proof (two_pos (-1022)) as P0. assert (P : (0 < z)%Qc) by qclra. unfold binary64.
  destruct (Qc_eq_dec z 0) as [->|_]; [exfalso; qclra|].
  assert (EM : qmax z (- z) = z) by (unfold qmax; destruct (Qclt_le_dec z (- z)) as [C|C]; [exfalso; qclra|reflexivity]).
  rewrite EM. assert (HB : (z < two_to 1024)%Qc).
  { assert (two_to 1023 < two_to 1024)%Qc by reflexivity. qclra. }
  destruct (qltb_spec z (two_to 1024)) as [_|C]; [|exfalso; qclra].
  destruct (magnitude_ok z P) as [M1 M2]. set (m := magnitude z) in *.
  assert (Hm : (-1022 <= m)%Z).
  { destruct (Z_le_gt_dec (-1022) m) as [C|C]; [assumption|]. exfalso. assert (two_to (m + 1) <= two_to (-1022))%Qc by (apply two_mono; lia). qclra. }
  rewrite Z.max_l by lia. pose proof (rint_near (z * two_to (- (m - 52)))) as [R1 R2].
  assert (E : (z * two_to (- (m - 52)) * two_to (m - 52) = z)%Qc).
  { rewrite <- Qcmult_assoc, (Qcmult_comm (two_to (- (m - 52)))), two_inv. ring. }
  pose proof (two_pos (m - 52)) as Q.
  assert (U : (half * two_to (m - 52) <= z * two_to (-53))%Qc).
  { rewrite half_two, <- two_plus. replace (-1 + (m - 52))%Z with (m + -53)%Z by lia. rewrite two_plus. apply Qcmult_le_compat_r; [assumption|].
    apply Qclt_le_weak, two_pos. }
  set (r := zQc (rint (z * two_to (- (m - 52))))) in *.
  assert (G1 : ((z * two_to (- (m - 52)) - half) * two_to (m - 52) <= r * two_to (m - 52))%Qc) by (apply Qcmult_le_compat_r; [assumption|qclra]).
  assert (G2 : (r * two_to (m - 52) <= (z * two_to (- (m - 52)) + half) * two_to (m - 52))%Qc) by (apply Qcmult_le_compat_r; [assumption|qclra]).
  replace ((z * two_to (- (m - 52)) - half) * two_to (m - 52))%Qc with (z - half * two_to (m - 52))%Qc in G1 by (rewrite <- E at 1; ring).
  replace ((z * two_to (- (m - 52)) + half) * two_to (m - 52))%Qc with (z + half * two_to (m - 52))%Qc in G2 by (rewrite <- E at 1; ring).
  split.
  - replace (z * (1 - two_to (-53)))%Qc with (z - z * two_to (-53))%Qc by ring. clear - G1 U. generalize dependent (z * two_to (-53))%Qc. generalize dependent (r * two_to (m - 52))%Qc. generalize (half * two_to (m - 52))%Qc. intros. qclra.
  - replace (z * (1 + two_to (-53)))%Qc with (z + z * two_to (-53))%Qc by ring. clear - G2 U. generalize dependent (z * two_to (-53))%Qc. generalize dependent (r * two_to (m - 52))%Qc. generalize (half * two_to (m - 52))%Qc. intros. qclra.
Qed.
