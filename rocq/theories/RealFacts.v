(** RealFacts.v -- sums and logarithmic inequalities over the reals. *)
From Verif Require Import Py Num SpecReal MiReal.
From Coq Require Import Reals Lra Lia Qreals.
Open Scope R_scope.

Lemma rsum_S n f : rsum (S n) f = rsum n f + f n.
Proof.
  unfold rsum. rewrite seq_S, map_app, fold_right_app. cbn [map fold_right plus]. rewrite Rplus_0_r.
  generalize (f n) as x. induction (map f (seq 0 n)) as [|y l IH]; intros x; cbn [fold_right]; [lra|]. rewrite IH. lra.
Qed.
Lemma rsum_0 f : rsum 0 f = 0.
Proof. reflexivity. Qed.
Lemma rsum_ext n f g : (forall i, (i < n)%nat -> f i = g i) -> rsum n f = rsum n g.
Proof. induction n as [|n IH]; intros H; [reflexivity|]. rewrite !rsum_S, IH, H by (auto with arith); reflexivity. Qed.
Lemma rsum_le n f g : (forall i, (i < n)%nat -> f i <= g i) -> rsum n f <= rsum n g.
Proof. induction n as [|n IH]; intros H; [rewrite !rsum_0; lra|]. rewrite !rsum_S. assert (rsum n f <= rsum n g) by auto. assert (f n <= g n) by auto. lra. Qed.
Lemma rsum_plus n f g : rsum n (fun i => f i + g i) = rsum n f + rsum n g.
Proof. induction n as [|n IH]; [rewrite !rsum_0; lra|]. rewrite !rsum_S, IH. lra. Qed.
Lemma rsum_minus n f g : rsum n (fun i => f i - g i) = rsum n f - rsum n g.
Proof. induction n as [|n IH]; [rewrite !rsum_0; lra|]. rewrite !rsum_S, IH. lra. Qed.
Lemma rsum_scal n c f : rsum n (fun i => c * f i) = c * rsum n f.
Proof. induction n as [|n IH]; [rewrite !rsum_0; lra|]. rewrite !rsum_S, IH. lra. Qed.
Lemma rsum_scal_r n c f : rsum n (fun i => f i * c) = rsum n f * c.
Proof. induction n as [|n IH]; [rewrite !rsum_0; lra|]. rewrite !rsum_S, IH. lra. Qed.
Lemma rsum_const n c : rsum n (fun _ => c) = INR n * c.
Proof. induction n as [|n IH]; [rewrite rsum_0; simpl; lra|]. rewrite rsum_S, IH, S_INR. lra. Qed.
Lemma rsum_nonneg n f : (forall i, (i < n)%nat -> 0 <= f i) -> 0 <= rsum n f.
Proof. intros H. replace 0 with (rsum n (fun _ => 0)) by (rewrite rsum_const; lra). now apply rsum_le. Qed.
Lemma rsum_zero n f : (forall i, (i < n)%nat -> 0 <= f i) -> rsum n f = 0 -> forall i, (i < n)%nat -> f i = 0.
Proof.
  induction n as [|n IH]; intros H Z i Hi; [lia|]. rewrite rsum_S in Z. assert (0 <= rsum n f) by (apply rsum_nonneg; auto). assert (0 <= f n) by auto.
  destruct (Nat.eq_dec i n) as [-> |D]; [lra|]. apply IH; [auto|lra|lia].
Qed.
Lemma rsum_ge_one n f i : (forall i, (i < n)%nat -> 0 <= f i) -> (i < n)%nat -> f i <= rsum n f.
Proof.
  induction n as [|n IH]; intros H Hi; [lia|]. rewrite rsum_S. assert (0 <= rsum n f) by (apply rsum_nonneg; auto). assert (0 <= f n) by auto.
  destruct (Nat.eq_dec i n) as [-> |D]; [lra|]. assert (f i <= rsum n f) by (apply IH; [auto|lia]). lra.
Qed.
Lemma rsum_swap n m f : rsum n (fun i => rsum m (fun j => f i j)) = rsum m (fun j => rsum n (fun i => f i j)).
Proof.
  induction n as [|n IH]; [rewrite rsum_0; rewrite (rsum_ext m _ (fun _ => 0)) by reflexivity; rewrite rsum_const; lra|].
  rewrite rsum_S, IH, <- rsum_plus. apply rsum_ext. intros j _. now rewrite rsum_S.
Qed.
Lemma rsum_abs n f : Rabs (rsum n f) <= rsum n (fun i => Rabs (f i)).
Proof. induction n as [|n IH]; [rewrite !rsum_0, Rabs_R0; lra|]. rewrite !rsum_S. eapply Rle_trans; [apply Rabs_triang|lra]. Qed.
Lemma rsum_INR n f : rsum n (fun i => INR (f i)) = INR (fold_right Nat.add 0%nat (map f (seq 0 n))).
Proof. unfold rsum. induction (seq 0 n) as [|x l IH]; [reflexivity|]. cbn [map fold_right]. rewrite IH, plus_INR. reflexivity. Qed.

Lemma eps_pos : 0 < eps.
Proof. unfold eps. lra. Qed.

(** ln x <= x - 1, strictly unless x = 1 *)
Lemma ln_le_sub x : 0 < x -> ln x <= x - 1.
Proof. intros H. assert (1 + ln x <= exp (ln x)) by apply exp_ineq1_le. rewrite exp_ln in H0 by exact H. lra. Qed.
Lemma ln_lt_sub x : 0 < x -> x <> 1 -> ln x < x - 1.
Proof.
  intros H N. assert (L : ln x <> 0). { intros E. apply N. rewrite <- (exp_ln x H), E. apply exp_0. }
  apply exp_ineq1 in L. rewrite exp_ln in L by exact H. lra.
Qed.
Lemma ln_le x y : 0 < x -> x <= y -> ln x <= ln y.
Proof. intros H [L| ->]; [left; now apply ln_increasing|lra]. Qed.
Lemma ln_inv x : 0 < x -> ln (/ x) = - ln x.
Proof. intros H. now apply ln_Rinv. Qed.
Lemma ln_div x y : 0 < x -> 0 < y -> ln (x / y) = ln x - ln y.
Proof. intros Hx Hy. unfold Rdiv. rewrite ln_mult, ln_inv; [lra|assumption|assumption|now apply Rinv_0_lt_compat]. Qed.
Lemma div_pos x y : 0 < x -> 0 < y -> 0 < x / y.
Proof. intros. apply Rdiv_lt_0_compat; assumption. Qed.
(** Gibbs' inequality for one term *)
Lemma gibbs p q : 0 < p -> 0 < q -> p - q <= p * ln (p / q).
Proof.
  intros Hp Hq. rewrite ln_div by assumption. pose proof (ln_le_sub (q / p) (div_pos _ _ Hq Hp)) as L. rewrite ln_div in L by assumption.
  assert (p * (ln q - ln p) <= p * (q / p - 1)) by (apply Rmult_le_compat_l; lra). replace (p * (q / p - 1)) with (q - p) in H by (field; lra). lra.
Qed.
Lemma gibbs_eq p q : 0 < p -> 0 < q -> p * ln (p / q) = p - q -> p = q.
Proof.
  intros Hp Hq E. destruct (Req_EM_T (q / p) 1) as [D|D]; [apply (Rmult_eq_compat_l p) in D; field_simplify in D; lra|]. exfalso.
  pose proof (ln_lt_sub (q / p) (div_pos _ _ Hq Hp) D) as L. rewrite ln_div in L by assumption. rewrite ln_div in E by assumption.
  assert (p * (ln q - ln p) < p * (q / p - 1)) by (apply Rmult_lt_compat_l; lra). replace (p * (q / p - 1)) with (q - p) in H by (field; lra). lra.
Qed.

(** Gibbs' inequality for tables with equal sums *)
Lemma gibbs_sum a b (p q : nat -> nat -> R) : (forall i j, (i < a)%nat -> (j < b)%nat -> 0 < p i j /\ 0 < q i j) ->
  rsum a (fun i => rsum b (fun j => p i j)) = rsum a (fun i => rsum b (fun j => q i j)) ->
  0 <= rsum a (fun i => rsum b (fun j => p i j * ln (p i j / q i j))) /\
  (rsum a (fun i => rsum b (fun j => p i j * ln (p i j / q i j))) = 0 <-> forall i j, (i < a)%nat -> (j < b)%nat -> p i j = q i j).
Proof.
  intros H E. set (d := fun i j => p i j * ln (p i j / q i j) - (p i j - q i j)).
  assert (D : forall i j, (i < a)%nat -> (j < b)%nat -> 0 <= d i j). { intros i j Hi Hj. destruct (H i j Hi Hj) as [P Q]. unfold d. pose proof (gibbs _ _ P Q). lra. }
  assert (T : rsum a (fun i => rsum b (fun j => d i j)) = rsum a (fun i => rsum b (fun j => p i j * ln (p i j / q i j)))).
  { unfold d. rewrite (rsum_ext a _ (fun i => rsum b (fun j => p i j * ln (p i j / q i j)) - (rsum b (fun j => p i j) - rsum b (fun j => q i j)))) by (intros; now rewrite !rsum_minus).
    rewrite !rsum_minus. rewrite E. lra. }
  rewrite <- T. split; [apply rsum_nonneg; intros; apply rsum_nonneg; auto|]. split.
  - intros Z i j Hi Hj. destruct (H i j Hi Hj) as [P Q]. apply gibbs_eq; [assumption..|].
    assert (d i j = 0). { apply (rsum_zero b (fun j => d i j)); [auto| |exact Hj]. apply (rsum_zero a (fun i => rsum b (fun j => d i j))); [intros; apply rsum_nonneg; auto|exact Z|exact Hi]. }
    unfold d in H0. lra.
  - intros Q. rewrite (rsum_ext a _ (fun _ => 0)); [rewrite rsum_const; lra|]. intros i Hi. rewrite (rsum_ext b _ (fun _ => 0)); [rewrite rsum_const; lra|]. intros j Hj.
    unfold d. rewrite <- (Q i j Hi Hj). destruct (H i j Hi Hj) as [P _]. unfold Rdiv. rewrite Rinv_r by lra. rewrite ln_1. lra.
Qed.

Lemma abs_le_inv x a : Rabs x <= a -> - a <= x <= a.
Proof. intros H. pose proof (Rle_abs x). pose proof (Rle_abs (- x)). rewrite Rabs_Ropp in *. lra. Qed.
(** rounding to four decimals *)
Lemma round_int_spec x : Rabs (IZR (round_int x) - x) <= / 2.
Proof.
  unfold round_int. destruct (Rle_dec 0 x) as [H|H].
  - destruct (base_Int_part (x + / 2)). apply Rabs_le. lra.
  - destruct (base_Int_part (- x + / 2)). rewrite opp_IZR. apply Rabs_le. lra.
Qed.
Lemma qr_Q2Qc q : qr (Q2Qc q) = Q2R q.
Proof. unfold qr. apply Qeq_eqR. simpl. apply Qred_correct. Qed.
Lemma qr_frac z p : qr (Q2Qc (z # p)) = IZR z / IZR (Zpos p).
Proof. rewrite qr_Q2Qc. reflexivity. Qed.
Lemma qr_lt p q : (p < q)%Qc <-> qr p < qr q.
Proof. unfold qr, Qclt. split; [apply Qlt_Rlt|apply Rlt_Qlt]. Qed.
Lemma qr_le p q : (p <= q)%Qc <-> qr p <= qr q.
Proof. unfold qr, Qcle. split; [apply Qle_Rle|apply Rle_Qle]. Qed.
Lemma qr_inj p q : qr p = qr q -> p = q.
Proof. intros E. apply Qc_is_canon. apply eqR_Qeq. exact E. Qed.
Lemma round4_spec x : Rabs (qr (round4 x) - x) <= / 20000.
Proof.
  unfold round4. rewrite qr_frac. pose proof (round_int_spec (x * 10000)) as H. apply Rabs_le.
  assert (- / 2 <= IZR (round_int (x * 10000)) - x * 10000 <= / 2) by (split; [apply abs_le_inv in H; lra|apply abs_le_inv in H; lra]). lra.
Qed.
Lemma round_int_IZR z : round_int (IZR z) = z.
Proof.
  pose proof (round_int_spec (IZR z)) as H. apply abs_le_inv in H. rewrite <- minus_IZR in H.
  assert (-1 < IZR (round_int (IZR z) - z) < 1) as [A B] by lra. apply lt_IZR in A, B. lia.
Qed.
Lemma round_int_mono x y : x <= y -> (round_int x <= round_int y)%Z.
Proof.
  intros L. unfold round_int. destruct (Rle_dec 0 x) as [H|H], (Rle_dec 0 y) as [H'|H']; try lra.
  - destruct (base_Int_part (x + / 2)), (base_Int_part (y + / 2)). assert (IZR (Int_part (x + / 2)) < IZR (Int_part (y + / 2) + 1)) by (rewrite plus_IZR; lra). apply lt_IZR in H4. lia.
  - destruct (base_Int_part (- x + / 2)), (base_Int_part (y + / 2)). assert (IZR (-1) < IZR (Int_part (- x + / 2))) by (change (IZR (-1)) with (-1); lra). apply lt_IZR in H4.
    assert (IZR (-1) < IZR (Int_part (y + / 2))) by (change (IZR (-1)) with (-1); lra). apply lt_IZR in H5. lia.
  - destruct (base_Int_part (- x + / 2)), (base_Int_part (- y + / 2)). assert (IZR (Int_part (- y + / 2)) < IZR (Int_part (- x + / 2) + 1)) by (rewrite plus_IZR; lra). apply lt_IZR in H4. lia.
Qed.
Lemma round4_mono x y : x <= y -> (round4 x <= round4 y)%Qc.
Proof. intros L. apply qr_le. unfold round4. rewrite !qr_frac. apply Rmult_le_compat_r; [apply Rlt_le, Rinv_0_lt_compat, IZR_lt; lia|]. apply IZR_le, round_int_mono. lra. Qed.
Lemma round4_frac z : round4 (IZR z / 10000) = Q2Qc (z # 10000).
Proof. unfold round4. replace (IZR z / 10000 * 10000) with (IZR z) by lra. now rewrite round_int_IZR. Qed.
