(** LogFacts.v -- rounding of logarithms and exponentials. *)
From Coq Require Import Reals.
From Verif Require Import Py Num BayesNet Factor SpecFactor Radix SpecReal MiReal RealFacts RealScore SpecIlp LogReal.
From Coq Require Import Lra Lia.
Open Scope R_scope.

Lemma rint_bounds x : (Int_part x <= rint_r x <= Int_part x + 1)%Z.
Proof. unfold rint_r. repeat destruct (Rlt_dec _ _); try destruct (Z.even _); lia. Qed.
Lemma frac_bounds x : x = IZR (Int_part x) + frac_part x /\ 0 <= frac_part x < 1.
Proof. destruct (base_fp x). unfold frac_part in *. split; [ring|lra]. Qed.
Lemma rint_r_spec x : Rabs (IZR (rint_r x) - x) <= / 2.
Proof.
  destruct (frac_bounds x) as [E B]. apply Rabs_le. unfold rint_r. destruct (Rlt_dec _ _); [lra|]. destruct (Rlt_dec _ _); [rewrite plus_IZR; lra|].
  destruct (Z.even _); [lra|rewrite plus_IZR; lra].
Qed.
Lemma rint_r_mono x y : x <= y -> (rint_r x <= rint_r y)%Z.
Proof.
  intros L. destruct (frac_bounds x) as [Ex Bx], (frac_bounds y) as [Ey By].
  destruct (Z_lt_le_dec (Int_part x) (Int_part y)) as [H|H].
  - pose proof (rint_bounds x). pose proof (rint_bounds y). lia.
  - assert (Int_part x = Int_part y) as EI.
    { destruct (Z_lt_le_dec (Int_part y) (Int_part x)) as [K|K]; [|lia]. exfalso. assert (IZR (Int_part y + 1) <= IZR (Int_part x)) by (apply IZR_le; lia). rewrite plus_IZR in H0. lra. }
    unfold rint_r. rewrite EI in *. assert (frac_part x <= frac_part y) by lra. repeat destruct (Rlt_dec _ _); try lra; try destruct (Z.even _); lia.
Qed.
(** a half is rounded to the even neighbour *)
Lemma rint_r_tie z : rint_r (IZR z + / 2) = if Z.even z then z else (z + 1)%Z.
Proof.
  assert (E : Int_part (IZR z + / 2) = z).
  { unfold Int_part. rewrite <- (tech_up (IZR z + / 2) (z + 1)); [lia| |]; rewrite plus_IZR; lra. }
  unfold rint_r. replace (frac_part (IZR z + / 2)) with (/ 2) by (unfold frac_part; rewrite E; lra). rewrite E.
  destruct (Rlt_dec (/ 2) (/ 2)) as [X|_]; [lra|reflexivity].
Qed.
Lemma rint_r_IZR z : rint_r (IZR z) = z.
Proof.
  pose proof (rint_r_spec (IZR z)) as H. apply abs_le_inv in H. rewrite <- minus_IZR in H.
  assert (-1 < IZR (rint_r (IZR z) - z) < 1) as [A B] by lra. apply lt_IZR in A, B. lia.
Qed.
Lemma np_round5_spec x : Rabs (qr (np_round5 x) - x) <= / 200000.
Proof. unfold np_round5. rewrite qr_frac. pose proof (rint_r_spec (x * 100000)) as H. apply abs_le_inv in H. apply Rabs_le. lra. Qed.
Lemma np_round5_mono x y : x <= y -> (np_round5 x <= np_round5 y)%Qc.
Proof. intros L. apply qr_le. unfold np_round5. rewrite !qr_frac. apply Rmult_le_compat_r; [apply Rlt_le, Rinv_0_lt_compat, IZR_lt; lia|]. apply IZR_le, rint_r_mono. lra. Qed.
Lemma np_round5_0 : np_round5 0 = 0%Qc.
Proof. unfold np_round5. rewrite Rmult_0_l. change 0 with (IZR 0). rewrite rint_r_IZR. apply Qc_is_canon. reflexivity. Qed.
Lemma np_round5_1 : np_round5 1 = 1%Qc.
Proof. unfold np_round5. rewrite Rmult_1_l. change 100000 with (IZR 100000). rewrite rint_r_IZR. apply Qc_is_canon. reflexivity. Qed.

Lemma ln_nonpos p : (0 < p)%Qc -> (p <= 1)%Qc -> ln (qr p) <= 0.
Proof. intros P L. apply qr_lt in P. apply qr_le in L. rewrite qr_0 in P. rewrite qr_1 in L. rewrite <- ln_1. now apply ln_le. Qed.

(** e^h for small h *)
Lemma exp_small h : 0 <= h <= / 1000 -> 1 - h <= exp (- h) /\ exp h <= 1 + h + 2 * h * h.
Proof.
  intros H. split; [pose proof (exp_ineq1_le (- h)); lra|].
  assert (E : exp (- h) >= 1 - h) by (pose proof (exp_ineq1_le (- h)); lra).
  assert (M : exp h * exp (- h) = 1) by (rewrite <- exp_plus, Rplus_opp_r; apply exp_0).
  assert (P : 0 < exp h) by apply exp_pos. nra.
Qed.

Lemma qr_mult p q : qr (p * q)%Qc = qr p * qr q.
Proof. unfold qr. rewrite <- Qreals.Q2R_mult. apply Qreals.Qeq_eqR. apply Qred_correct. Qed.
Lemma qr_qprod l : qr (qprod l) = fold_right Rmult 1 (map qr l).
Proof. induction l as [|x l IH]; [apply qr_1|]. change (qprod (x :: l)) with (x * qprod l)%Qc. rewrite qr_mult, IH. reflexivity. Qed.
Lemma ln_prod l : (forall x, In x l -> 0 < x) -> 0 < fold_right Rmult 1 l /\ ln (fold_right Rmult 1 l) = fold_right Rplus 0 (map ln l).
Proof.
  induction l as [|x l IH]; intros H; cbn [map fold_right]; [rewrite ln_1; lra|]. destruct IH as [P E]; [intros; apply H; now right|]. assert (0 < x) by (apply H; now left).
  split; [now apply Rmult_lt_0_compat|]. now rewrite ln_mult, E.
Qed.
Lemma ilp_weight_spec p : Rabs (qr (ilp_weight p) - - ln (qr p)) <= / 2000.
Proof. unfold ilp_weight. rewrite qr_frac. pose proof (round_int_spec (- ln (qr p) * 1000)) as H. apply abs_le_inv in H. apply Rabs_le. lra. Qed.
