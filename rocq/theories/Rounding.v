(** Rounding.v -- numpy's [np.round(x, d)] and Python 2's [round(x, d)] on exact numbers. *)
From Verif Require Import Py Num.
From Coq Require Import Qround.
Open Scope nat_scope.

Definition pow10 (d : nat) : Qc := zQc (10 ^ Z.of_nat d).
Definition qfloor (x : Qc) : Z := Qfloor (this x).
Definition half : Qc := Q2Qc (1 # 2).

(** round half to even to an integer *)
Definition rint (y : Qc) : Z :=
  let f := qfloor y in
  let r := (y - zQc f)%Qc in
  if qltb r half then f else if qltb half r then (f + 1)%Z
  else if Z.even f then f else (f + 1)%Z.
(** numpy.round(x, d) *)
Definition np_round (d : nat) (x : Qc) : Qc := (zQc (rint (x * pow10 d)) / pow10 d)%Qc.
(** Python 2 round(x, d): half away from zero *)
Definition py_round (d : nat) (x : Qc) : Qc :=
  if qltb x 0%Qc then (- (zQc (qfloor ((- x) * pow10 d + half)) / pow10 d))%Qc
  else (zQc (qfloor (x * pow10 d + half)) / pow10 d)%Qc.

Lemma qfloor_le y : (zQc (qfloor y) <= y)%Qc.
Proof. unfold zQc, qfloor. qc2q. apply Qfloor_le. Qed.
Lemma qfloor_gt y : (y < zQc (qfloor y) + 1)%Qc.
Proof.
  unfold zQc, qfloor. qc2q. pose proof (Qlt_floor (this y)) as H. rewrite inject_Z_plus in H.
  change (this 1%Qc) with 1%Q. exact H.
Qed.
Lemma zQc_succ z : zQc (z + 1) = (zQc z + 1)%Qc.
Proof. unfold zQc. apply Qc_eq_Q. qc2q. rewrite inject_Z_plus. reflexivity. Qed.
Lemma pow10_pos d : (0 < pow10 d)%Qc.
Proof.
  unfold pow10, zQc. qc2q. change (inject_Z 0 < inject_Z (10 ^ Z.of_nat d))%Q. rewrite <- Zlt_Qlt.
  apply Z.pow_pos_nonneg; lia.
Qed.
Lemma half_val : (half + half = 1)%Qc.
Proof. apply Qc_eq_Q. reflexivity. Qed.
Lemma half_q : (this half == 1 # 2)%Q.
Proof. reflexivity. Qed.

Lemma rint_near y : (y - half <= zQc (rint y) /\ zQc (rint y) <= y + half)%Qc.
Proof.
  unfold rint. pose proof (qfloor_le y) as L. pose proof (qfloor_gt y) as G. pose proof half_q as Hq.
  destruct (qltb_spec (y - zQc (qfloor y)) half) as [A|A].
  - split; qclra.
  - destruct (qltb_spec half (y - zQc (qfloor y))) as [B|B].
    + rewrite zQc_succ. assert (this 1%Qc = 1)%Q by reflexivity. split; qclra.
    + assert (this 1%Qc = 1)%Q by reflexivity. destruct (Z.even (qfloor y)); rewrite ?zQc_succ; split; qclra.
Qed.

(** rounding to d decimals moves a number by at most half a unit in the last place *)
Lemma np_round_near d x : (x - half / pow10 d <= np_round d x /\ np_round d x <= x + half / pow10 d)%Qc.
Proof.
  unfold np_round. pose proof (pow10_pos d) as P. pose proof (rint_near (x * pow10 d)) as [A B].
  set (p := pow10 d) in *. set (r := zQc (rint (x * p))) in *.
  assert (NZ : p <> 0%Qc) by (intros E; rewrite E in P; discriminate).
  assert (M1 : (r / p * p = r)%Qc) by (field; assumption).
  assert (M2 : (half / p * p = half)%Qc) by (field; assumption).
  revert A B M1 M2. generalize (r / p)%Qc (half / p)%Qc. intros u h A B M1 M2. subst r. rewrite <- M1, <- M2 in A, B.
  clear M1 M2. split.
  - destruct (Qclt_le_dec u (x - h)) as [C|C]; [|assumption]. exfalso. qcnra.
  - destruct (Qclt_le_dec (x + h) u) as [C|C]; [|assumption]. exfalso. qcnra.
Qed.

Lemma qfloor_nonneg y : (0 <= y)%Qc -> (0 <= qfloor y)%Z.
Proof. intros H. unfold qfloor. change 0%Z with (Qfloor 0). apply Qfloor_resp_le. exact H. Qed.
Lemma rint_nonneg y : (0 <= y)%Qc -> (0 <= rint y)%Z.
Proof.
  intros H. apply qfloor_nonneg in H. unfold rint.
  destruct (qltb _ _); [assumption|]. destruct (qltb _ _); [lia|]. destruct (Z.even _); lia.
Qed.
Lemma np_round_nonneg d x : (0 <= x)%Qc -> (0 <= np_round d x)%Qc.
Proof.
  intros H. unfold np_round. pose proof (pow10_pos d) as P.
  assert (0 <= x * pow10 d)%Qc as K by qcnra. apply rint_nonneg in K.
  assert (Z : (0 <= zQc (rint (x * pow10 d)))%Qc).
  { unfold zQc. qc2q. change (inject_Z 0 <= inject_Z (rint (x * pow10 d)))%Q. rewrite <- Zle_Qle. assumption. }
  unfold Qcdiv. apply Qcmult_nonneg; [assumption|].
  destruct (Qclt_le_dec (/ pow10 d) 0) as [C|C]; [|assumption]. exfalso.
  assert (NZ : pow10 d <> 0%Qc) by (intros E; rewrite E in P; discriminate).
  pose proof (Qcmult_inv_r _ NZ) as I. assert (this 1%Qc = 1)%Q by reflexivity.
  assert (pow10 d * / pow10 d <= 0)%Qc by qcnra. rewrite I in H1. now apply H1.
Qed.

Lemma pow10_inv_pos d : (0 < / pow10 d)%Qc.
Proof.
  pose proof (pow10_pos d) as P. destruct (Qclt_le_dec 0 (/ pow10 d)) as [C|C]; [assumption|]. exfalso.
  assert (pow10 d <> 0%Qc) by (intros E; rewrite E in P; discriminate).
  assert (X : (/ pow10 d * pow10 d = 1)%Qc) by (field; assumption). assert (this 1%Qc = 1)%Q by reflexivity.
  assert ((/ pow10 d * pow10 d <= 0)%Qc) as Y by (revert C P; generalize (/ pow10 d)%Qc (pow10 d); intros; qcnra). rewrite X in Y.
  apply Qcle_not_lt in Y. apply Y. reflexivity.
Qed.
(** Python's round moves a number by at most half a unit in the last place *)
Lemma py_round_near d x : (x - half / pow10 d <= py_round d x /\ py_round d x <= x + half / pow10 d)%Qc.
Proof.
  pose proof (pow10_pos d) as P. set (p := pow10 d) in *.
  assert (NZ : p <> 0%Qc) by (intros E; rewrite E in P; discriminate).
  assert (G : forall y, (y - half / p <= zQc (qfloor (y * p + half)) / p /\ zQc (qfloor (y * p + half)) / p <= y + half / p)%Qc).
  { intros y. pose proof (qfloor_le (y * p + half)) as A. pose proof (qfloor_gt (y * p + half)) as B.
    set (r := zQc (qfloor (y * p + half))) in *.
    assert (M1 : (r / p * p = r)%Qc) by (field; assumption).
    assert (M2 : (half / p * p = half)%Qc) by (field; assumption).
    pose proof half_val as HV. revert A B M1 M2. generalize (r / p)%Qc (half / p)%Qc. intros u h A B M1 M2. rewrite <- M1 in A, B.
    assert (B' : ((y - h) * p < u * p)%Qc).
    { replace ((y - h) * p)%Qc with (y * p + half - 1)%Qc by (rewrite <- HV, <- M2; ring). rewrite <- HV in *. qclra. }
    assert (A' : (u * p <= (y + h) * p)%Qc).
    { replace ((y + h) * p)%Qc with (y * p + half)%Qc by (rewrite <- M2; ring). assumption. }
    clear M1 M2 A B HV. split.
    - destruct (Qclt_le_dec u (y - h)) as [C|C]; [|assumption]. exfalso. qcnra.
    - destruct (Qclt_le_dec (y + h) u) as [C|C]; [|assumption]. exfalso. qcnra. }
  unfold py_round. fold p. destruct (qltb_spec x 0%Qc) as [S|S].
  - destruct (G (- x)%Qc) as [G1 G2]. split; qclra.
  - apply G.
Qed.
Lemma py_round_nonneg d x : (0 <= x)%Qc -> (0 <= py_round d x)%Qc.
Proof.
  intros H. unfold py_round. destruct (qltb_spec x 0%Qc) as [S|S]; [exfalso; qclra|].
  pose proof (pow10_pos d) as P. pose proof half_q as Hq.
  assert (K : (0 <= x * pow10 d + half)%Qc) by qcnra. apply qfloor_nonneg in K.
  unfold Qcdiv. apply Qcmult_nonneg; [|apply Qclt_le_weak, pow10_inv_pos].
  unfold zQc. qc2q. change (inject_Z 0 <= inject_Z (qfloor (x * pow10 d + half)))%Q. rewrite <- Zle_Qle. assumption.
Qed.
Lemma py_round_0 d : py_round d 0%Qc = 0%Qc.
Proof.
  unfold py_round. destruct (qltb_spec 0%Qc 0%Qc) as [S|S]; [exfalso; qclra|].
  replace (0 * pow10 d + half)%Qc with half by ring. replace (qfloor half) with 0%Z by reflexivity.
  change (zQc 0) with 0%Qc. unfold Qcdiv. ring.
Qed.
