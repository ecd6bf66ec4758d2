(** RealChi.v -- facts about the chi-square density. *)
From Verif Require Import Py Num SpecReal MiReal RealFacts.
From Coq Require Import Reals Lra Lia.
Open Scope R_scope.

Definition nrm (k : nat) : R := Rpower 2 (INR k / 2) * half_gamma k.
Lemma nrm_1 : nrm 1 = sqrt 2 * sqrt PI.
Proof. unfold nrm. cbn [half_gamma INR]. replace (1 / 2) with (/ 2) by lra. now rewrite Rpower_sqrt by lra. Qed.
Lemma nrm_2 : nrm 2 = 2.
Proof. unfold nrm. cbn [half_gamma INR]. replace ((1 + 1) / 2) with 1 by lra. rewrite Rpower_1 by lra. lra. Qed.
Lemma nrm_step k : (1 <= k)%nat -> nrm (S (S k)) = INR k * nrm k.
Proof.
  intros H. unfold nrm. replace (half_gamma (S (S k))) with (INR k / 2 * half_gamma k) by (destruct k; [lia|reflexivity]).
  rewrite !S_INR. replace ((INR k + 1 + 1) / 2) with (INR k / 2 + 1) by lra. rewrite Rpower_plus, Rpower_1 by lra. field.
Qed.
Lemma nrm_pos k : (1 <= k)%nat -> 0 < nrm k.
Proof.
  induction k as [k IH] using lt_wf_ind. intros H. destruct k as [|[|[|k]]]; [lia| | |].
  - rewrite nrm_1. apply Rmult_lt_0_compat; apply sqrt_lt_R0; [lra|apply PI_RGT_0].
  - rewrite nrm_2. lra.
  - rewrite nrm_step by lia. apply Rmult_lt_0_compat; [apply lt_0_INR; lia|apply IH; lia].
Qed.
Lemma pi_low : 3 <= PI.
Proof. pose proof PI2_3_2. lra. Qed.
Lemma nrm_1_low : 12 / 5 <= nrm 1.
Proof.
  rewrite nrm_1, <- sqrt_mult by (pose proof PI_RGT_0; lra). pose proof pi_low. rewrite <- (sqrt_pow2 (12 / 5)) by lra. apply sqrt_le_1_alt. simpl. lra.
Qed.
Lemma nrm_1_sqr : nrm 1 * nrm 1 = 2 * PI.
Proof. rewrite nrm_1. replace (sqrt 2 * sqrt PI * (sqrt 2 * sqrt PI)) with ((sqrt 2 * sqrt 2) * (sqrt PI * sqrt PI)) by ring. rewrite !sqrt_sqrt by (pose proof PI_RGT_0; lra). ring. Qed.
Lemma nrm_low k : (1 <= k)%nat -> 2 <= nrm k.
Proof.
  induction k as [k IH] using lt_wf_ind. intros H. destruct k as [|[|[|k]]]; [lia| | |].
  - pose proof nrm_1_low. lra.
  - rewrite nrm_2. lra.
  - rewrite nrm_step by lia. assert (2 <= nrm (S k)) by (apply IH; lia). assert (1 <= INR (S k)) by (change 1 with (INR 1); apply le_INR; lia). nra.
Qed.
Lemma density_nrm k x : chi2_density k x = Rpower x (INR k / 2 - 1) * exp (- x / 2) / nrm k.
Proof. reflexivity. Qed.
Lemma density_pos k x : (1 <= k)%nat -> 0 < chi2_density k x.
Proof. intros H. rewrite density_nrm. apply div_pos; [|now apply nrm_pos]. apply Rmult_lt_0_compat; [unfold Rpower|]; apply exp_pos. Qed.
(** two degrees of freedom *)
Lemma density_2 x : 0 < x -> chi2_density 2 x = exp (- x / 2) / 2.
Proof. intros H. rewrite density_nrm, nrm_2. replace (INR 2 / 2 - 1) with 0 by (simpl; lra). rewrite Rpower_O by exact H. lra. Qed.
Lemma PI_4' : PI <= 4.
Proof. apply PI_4. Qed.
(** one degree of freedom: above 1/2 for small x *)
Lemma density_1 x : 0 < x -> x <= / 4 -> / 2 < chi2_density 1 x.
Proof.
  intros P L. rewrite density_nrm. replace (INR 1 / 2 - 1) with (- / 2) by (simpl; lra). rewrite Rpower_Ropp, Rpower_sqrt by exact P.
  assert (S1 : 0 < sqrt x <= / 2). { split; [now apply sqrt_lt_R0|]. rewrite <- (sqrt_pow2 (/ 2)) by lra. apply sqrt_le_1_alt. simpl. lra. }
  assert (I2 : 2 <= / sqrt x). { rewrite <- (Rinv_inv 2). apply Rinv_le_contravar; lra. }
  assert (E : 7 / 8 <= exp (- x / 2)) by (pose proof (exp_ineq1_le (- x / 2)); lra).
  assert (D : 0 < nrm 1 <= 3). { split; [apply nrm_pos; lia|]. rewrite nrm_1, <- sqrt_mult by (pose proof PI_RGT_0; lra). pose proof PI_4'. rewrite <- (sqrt_pow2 3) by lra. apply sqrt_le_1_alt. simpl. lra. }
  apply (Rmult_lt_reg_r (nrm 1)); [lra|]. unfold Rdiv. rewrite Rmult_assoc, Rinv_l by lra. rewrite Rmult_1_r. nra.
Qed.
(** three degrees of freedom or more: small for small x *)
Lemma density_small k x : (3 <= k)%nat -> 0 < x -> x <= 1 -> 2 * chi2_density k x <= sqrt x.
Proof.
  intros Hk P L. rewrite density_nrm. assert (D : 2 <= nrm k) by (apply nrm_low; lia). assert (K : 3 <= INR k) by (replace 3 with (INR 3) by (simpl; lra); apply le_INR; exact Hk).
  assert (R : Rpower x (INR k / 2 - 1) <= sqrt x).
  { rewrite <- Rpower_sqrt by exact P. unfold Rpower. assert (LN : ln x <= 0) by (rewrite <- ln_1; now apply ln_le). destruct (Req_EM_T ((INR k / 2 - 1) * ln x) (/ 2 * ln x)) as [-> |N]; [lra|]. left. apply exp_increasing. nra. }
  assert (E : exp (- x / 2) <= 1) by (rewrite <- exp_0; destruct (Req_EM_T (- x / 2) 0) as [-> |]; [lra|]; left; apply exp_increasing; lra). pose proof (exp_pos (- x / 2)). pose proof (sqrt_lt_R0 x P).
  assert (0 < Rpower x (INR k / 2 - 1)) by apply exp_pos. apply (Rmult_le_reg_r (nrm k)); [lra|]. unfold Rdiv. rewrite !Rmult_assoc, Rinv_l by lra. rewrite Rmult_1_r. nra.
Qed.
(** the mode is at k - 2 *)
Lemma log_rise s x y : 0 < x -> x < y -> y <= 2 * s -> s * ln x - x / 2 < s * ln y - y / 2.
Proof.
  intros P L B. assert (ln (x / y) < x / y - 1). { apply ln_lt_sub; [apply div_pos; lra|]. intros E. apply (Rmult_eq_compat_r y) in E. unfold Rdiv in E. rewrite Rmult_assoc, Rinv_l in E by lra. lra. }
  rewrite ln_div in H by lra. assert (s * (ln x - ln y) < s * (x / y - 1)) by (apply Rmult_lt_compat_l; lra).
  assert (s * (x / y - 1) <= (x - y) / 2). { apply (Rmult_le_reg_r y); [lra|]. replace (s * (x / y - 1) * y) with (s * (x - y)) by (field; lra). nra. } lra.
Qed.
Lemma log_fall s x y : 0 < s -> 0 < x -> x < y -> 2 * s <= x -> s * ln y - y / 2 < s * ln x - x / 2.
Proof.
  intros Hs P L B. assert (ln (y / x) < y / x - 1). { apply ln_lt_sub; [apply div_pos; lra|]. intros E. apply (Rmult_eq_compat_r x) in E. unfold Rdiv in E. rewrite Rmult_assoc, Rinv_l in E by lra. lra. }
  rewrite ln_div in H by lra. assert (s * (ln y - ln x) < s * (y / x - 1)) by (apply Rmult_lt_compat_l; lra).
  assert (s * (y / x - 1) <= (y - x) / 2). { apply (Rmult_le_reg_r x); [lra|]. replace (s * (y / x - 1) * x) with (s * (y - x)) by (field; lra). nra. } lra.
Qed.
Lemma density_exp k x : chi2_density k x = exp ((INR k / 2 - 1) * ln x - x / 2) / nrm k.
Proof. rewrite density_nrm. unfold Rpower. rewrite <- exp_plus. do 2 f_equal. lra. Qed.
Lemma density_rise k x y : (3 <= k)%nat -> 0 < x -> x < y -> y <= INR k - 2 -> chi2_density k x < chi2_density k y.
Proof.
  intros Hk P L B. rewrite !density_exp. apply Rmult_lt_compat_r; [apply Rinv_0_lt_compat, nrm_pos; lia|]. apply exp_increasing. apply log_rise; lra.
Qed.
Lemma density_fall k x y : (3 <= k)%nat -> INR k - 2 <= x -> x < y -> chi2_density k y < chi2_density k x.
Proof.
  intros Hk B L. assert (3 <= INR k) by (replace 3 with (INR 3) by (simpl; lra); apply le_INR; exact Hk).
  rewrite !density_exp. apply Rmult_lt_compat_r; [apply Rinv_0_lt_compat, nrm_pos; lia|]. apply exp_increasing. apply log_fall; lra.
Qed.
(** the maximum *)
Definition peak (k : nat) : R := chi2_density k (INR k - 2).
Lemma density_peak k x : (3 <= k)%nat -> 0 < x -> chi2_density k x <= peak k.
Proof.
  intros Hk P. unfold peak. assert (3 <= INR k) by (replace 3 with (INR 3) by (simpl; lra); apply le_INR; exact Hk). destruct (Rtotal_order x (INR k - 2)) as [L|[-> |L]]; [left; apply density_rise; lra || assumption|lra|left; apply density_fall; lra || assumption].
Qed.
Lemma peak_step k : (3 <= k)%nat -> peak (S (S k)) <= peak k.
Proof.
  intros Hk. unfold peak. rewrite !density_exp, nrm_step by lia. rewrite !S_INR. assert (K : 3 <= INR k) by (replace 3 with (INR 3) by (simpl; lra); apply le_INR; exact Hk).
  replace (INR k + 1 + 1 - 2) with (INR k) by lra. replace ((INR k + 1 + 1) / 2 - 1) with (INR k / 2) by lra. set (n := INR k) in *. assert (D : 0 < nrm k) by (apply nrm_pos; lia).
  replace (exp (n / 2 * ln n - n / 2) / (n * nrm k)) with (exp ((n / 2 - 1) * ln n - n / 2) / nrm k).
  - apply Rmult_le_compat_r; [left; now apply Rinv_0_lt_compat|]. assert (H : (n / 2 - 1) * ln n - n / 2 <= (n / 2 - 1) * ln (n - 2) - (n - 2) / 2).
    { assert (ln (n / (n - 2)) <= n / (n - 2) - 1) by (apply ln_le_sub, div_pos; lra). rewrite ln_div in H by lra.
      assert ((n / 2 - 1) * (ln n - ln (n - 2)) <= (n / 2 - 1) * (n / (n - 2) - 1)) by (apply Rmult_le_compat_l; lra).
      replace ((n / 2 - 1) * (n / (n - 2) - 1)) with 1 in H0 by (field; lra). lra. }
    destruct H as [H| ->]; [left; now apply exp_increasing|lra].
  - replace (n / 2 * ln n - n / 2) with (((n / 2 - 1) * ln n - n / 2) + ln n) by lra. rewrite exp_plus, exp_ln by lra. field. lra.
Qed.
(** e is at least 2.718 *)
Lemma exp_quadratic h : 0 < h -> 1 + h + h * h / 2 <= exp h.
Proof.
  intros H. set (f := fun x => exp x - (1 + x + x * x / 2)). assert (D : forall c, 0 <= c <= h -> derivable_pt_lim f c (exp c - (1 + c))).
  { intros c _. unfold f. apply derivable_pt_lim_minus; [apply derivable_pt_lim_exp|]. replace (1 + c) with ((0 + 1) + (1 * c + c * 1) / 2) by lra. 
    apply (derivable_pt_lim_plus (fun x => 1 + x) (fun x => x * x / 2)); [apply (derivable_pt_lim_plus (fun _ => 1) (fun x => x)); [apply derivable_pt_lim_const|apply derivable_pt_lim_id]|].
    replace ((1 * c + c * 1) / 2) with ((1 * c + c * 1) * / 2 + c * c * 0) by lra. apply (derivable_pt_lim_mult (fun x => x * x) (fun _ => / 2)); [apply (derivable_pt_lim_mult (fun x => x) (fun x => x)); apply derivable_pt_lim_id|apply derivable_pt_lim_const]. }
  destruct (MVT_cor2 f (fun c => exp c - (1 + c)) 0 h H D) as (c & E & Hc). pose proof (exp_ineq1_le c). unfold f in E. rewrite exp_0 in E. nra.
Qed.
Lemma e_low : 2718 / 1000 <= exp 1.
Proof.
  assert (E : exp 1 = exp (/ 64) ^ 64). { rewrite <- Rpower_pow by apply exp_pos. unfold Rpower. rewrite ln_exp. f_equal. rewrite INR_IZR_INZ. change (Z.of_nat 64) with 64%Z. lra. }
  rewrite E. pose proof (exp_quadratic (/ 64)) as H. apply Rle_trans with ((8321 / 8192) ^ 64); [|apply pow_incr; lra]. unfold Rdiv. rewrite Rpow_mult_distr, pow_inv.
  apply (Rmult_le_reg_r (8192 ^ 64 * 1000)); [apply Rmult_lt_0_compat; [apply pow_lt; lra|lra]|]. replace (8321 ^ 64 * / 8192 ^ 64 * (8192 ^ 64 * 1000)) with (8321 ^ 64 * 1000) by (field; apply pow_nonzero; lra).
  replace (2718 * / 1000 * (8192 ^ 64 * 1000)) with (2718 * 8192 ^ 64) by (field). rewrite !pow_IZR, <- !mult_IZR. apply IZR_le. vm_compute. discriminate.
Qed.
Lemma exp_nat n : exp (INR n) = exp 1 ^ n.
Proof. rewrite <- Rpower_pow by apply exp_pos. unfold Rpower. rewrite ln_exp. f_equal. lra. Qed.
(** products of every second number *)
Fixpoint dfact (m : nat) (b : Z) : Z := match m with O => 1%Z | S m' => ((b + 2 * Z.of_nat m') * dfact m' b)%Z end.
Lemma nrm_odd m : nrm (2 * m + 1) = IZR (dfact m 1) * nrm 1.
Proof.
  induction m as [|m IH]; [cbn [Nat.mul Nat.add dfact]; lra|]. replace (2 * S m + 1)%nat with (S (S (2 * m + 1))) by lia. rewrite nrm_step, IH by lia. cbn [dfact]. rewrite mult_IZR, INR_IZR_INZ.
  replace (Z.of_nat (2 * m + 1)) with (1 + 2 * Z.of_nat m)%Z by lia. ring.
Qed.
Lemma nrm_even m : nrm (2 * m + 2) = IZR (dfact m 2) * 2.
Proof.
  induction m as [|m IH]; [cbn [Nat.mul Nat.add dfact]; rewrite nrm_2; lra|]. replace (2 * S m + 2)%nat with (S (S (2 * m + 2))) by lia. rewrite nrm_step, IH by lia. cbn [dfact]. rewrite mult_IZR, INR_IZR_INZ.
  replace (Z.of_nat (2 * m + 2)) with (2 + 2 * Z.of_nat m)%Z by lia. ring.
Qed.
Lemma nat_IZR n : INR n = IZR (Z.of_nat n).
Proof. apply INR_IZR_INZ. Qed.
Lemma fr1 A B C F : 0 < B -> 0 < C -> 0 < F -> 2 * (A * / (B * / C) * / (F * 2)) = A * C / (B * F).
Proof. intros. field. lra. Qed.
Lemma fr2 A B C F : 0 < B -> 0 < C -> 0 < F -> 4 * (A * / (B * / C)) * / (F * F * 6) = 4 * A * C / (B * (F * F * 6)).
Proof. intros. field. lra. Qed.
Lemma lt_frac x y c d : 0 < y -> 0 < d -> x * d < c * y -> x / y < c * / d.
Proof.
  intros Hy Hd H. apply (Rmult_lt_reg_r (y * d)); [now apply Rmult_lt_0_compat|]. replace (x / y * (y * d)) with (x * d) by (field; lra). replace (c * / d * (y * d)) with (c * y) by (field; lra). exact H.
Qed.
Lemma fr3 g f d : 0 < f -> 0 < d -> 2 * (g / (f * d)) * (2 * (g / (f * d))) = 4 * (g * g) / (f * f * (d * d)).
Proof. intros. field. lra. Qed.
Lemma peak_140 : 2 * peak 140 < 4994 / 100000.
Proof.
  unfold peak. rewrite density_exp. replace (INR 140) with 140 by (rewrite nat_IZR; reflexivity). replace (140 / 2 - 1) with 69 by lra. replace (140 - 2) with 138 by lra. replace (138 / 2) with 69 by lra.
  change 140%nat with (2 * 69 + 2)%nat. rewrite nrm_even. set (F := dfact 69 2). assert (Fp : (0 < F)%Z) by (vm_compute; reflexivity). apply IZR_lt in Fp.
  unfold Rminus. rewrite exp_plus, exp_Ropp. replace 69 with (INR 69) at 1 2 by (rewrite nat_IZR; reflexivity).
  replace (exp (INR 69 * ln 138)) with (138 ^ 69) by (rewrite <- Rpower_pow by lra; reflexivity). rewrite exp_nat.
  apply Rle_lt_trans with (2 * (138 ^ 69 * / ((2718 / 1000) ^ 69) / (IZR F * 2))).
  - apply Rmult_le_compat_l; [lra|]. apply Rmult_le_compat_r; [left; apply Rinv_0_lt_compat; lra|]. apply Rmult_le_compat_l; [apply pow_le; lra|]. apply Rinv_le_contravar; [apply pow_lt; lra|]. apply pow_incr. pose proof e_low. lra.
  - unfold Rdiv. rewrite Rpow_mult_distr, pow_inv. assert (0 < 2718 ^ 69) by (apply pow_lt; lra). assert (0 < 1000 ^ 69) by (apply pow_lt; lra).
    rewrite fr1 by assumption. apply lt_frac; [now apply Rmult_lt_0_compat|lra|]. rewrite !pow_IZR, <- !mult_IZR. apply IZR_lt. vm_compute. reflexivity.
Qed.
Lemma peak_141 : 2 * peak 141 < 4994 / 100000.
Proof.
  unfold peak. rewrite density_exp. replace (INR 141) with 141 by (rewrite nat_IZR; reflexivity). replace (141 / 2 - 1) with (139 / 2) by lra. replace (141 - 2) with 139 by lra.
  change 141%nat with (2 * 70 + 1)%nat. rewrite nrm_odd. set (F := dfact 70 1). assert (Fp : (0 < F)%Z) by (vm_compute; reflexivity). apply IZR_lt in Fp.
  set (p := 2 * _). pose proof nrm_1_low as D. assert (P : 0 < p) by (unfold p; apply Rmult_lt_0_compat; [lra|]; apply div_pos; [apply exp_pos|apply Rmult_lt_0_compat; lra]).
  assert (Q : p * p < 4994 / 100000 * (4994 / 100000)); [|nra].
  assert (E : p * p = 4 * (139 ^ 139 * / exp 1 ^ 139) / (IZR F * IZR F * (2 * PI))).
  { unfold p. rewrite <- nrm_1_sqr. replace (139 ^ 139 * / exp 1 ^ 139) with (exp (139 / 2 * ln 139 - 139 / 2) * exp (139 / 2 * ln 139 - 139 / 2)); [apply fr3; [exact Fp|lra]|].
    rewrite <- exp_plus. replace (139 / 2 * ln 139 - 139 / 2 + (139 / 2 * ln 139 - 139 / 2)) with (139 * ln 139 + Ropp 139) by lra. rewrite exp_plus, exp_Ropp.
    replace (exp (139 * ln 139)) with (139 ^ 139) by (rewrite <- Rpower_pow by lra; unfold Rpower; f_equal; f_equal; rewrite nat_IZR; reflexivity). rewrite <- exp_nat. do 3 f_equal. rewrite nat_IZR. reflexivity. }
  rewrite E. clear E P. clear p. pose proof pi_low. pose proof PI_RGT_0. assert (FF : 0 < IZR F * IZR F) by (apply Rmult_lt_0_compat; exact Fp). set (f2 := IZR F * IZR F) in *.
  apply Rle_lt_trans with (4 * (139 ^ 139 * / ((2718 / 1000) ^ 139)) / (f2 * 6)).
  - unfold Rdiv. apply Rmult_le_compat.
    + apply Rmult_le_pos; [lra|]. apply Rmult_le_pos; [apply pow_le; lra|]. left. apply Rinv_0_lt_compat, pow_lt, exp_pos.
    + left. apply Rinv_0_lt_compat. apply Rmult_lt_0_compat; lra.
    + apply Rmult_le_compat_l; [lra|]. apply Rmult_le_compat_l; [apply pow_le; lra|]. apply Rinv_le_contravar; [apply pow_lt; lra|]. apply pow_incr. pose proof e_low. lra.
    + apply Rinv_le_contravar; [apply Rmult_lt_0_compat; lra|]. apply Rmult_le_compat_l; lra.
  - unfold Rdiv. rewrite Rpow_mult_distr, pow_inv. assert (0 < 2718 ^ 139) by (apply pow_lt; lra). assert (0 < 1000 ^ 139) by (apply pow_lt; lra).
    unfold f2. rewrite fr2 by assumption. replace (4994 * / 100000 * (4994 * / 100000)) with (4994 * 4994 * / (100000 * 100000)) by lra. apply lt_frac; [apply Rmult_lt_0_compat; [assumption|apply Rmult_lt_0_compat; [exact FF|lra]]|lra|].
    rewrite !pow_IZR, <- !mult_IZR. apply IZR_lt. vm_compute. reflexivity.
Qed.
Lemma peak_many k : (140 <= k)%nat -> 2 * peak k < 4994 / 100000.
Proof.
  induction k as [k IH] using lt_wf_ind. intros H. destruct (Nat.eq_dec k 140) as [-> |]; [apply peak_140|]. destruct (Nat.eq_dec k 141) as [-> |]; [apply peak_141|].
  destruct k as [|[|k]]; [lia..|]. assert (2 * peak k < 4994 / 100000) by (apply IH; lia). pose proof (peak_step k ltac:(lia)). lra.
Qed.
