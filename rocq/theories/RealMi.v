(** RealMi.v -- facts about the smoothed mutual information of two and three columns. *)
From Verif Require Import Py Num Data SpecLearn SpecData DataUtils DataFacts HistFacts SpecReal MiReal RealFacts RealTable.
From Coq Require Import Reals Lra Lia.
Open Scope R_scope.

Lemma flen {A} (p : A -> bool) l : (length (filter p l) <= length l)%nat.
Proof. induction l as [|x l IH]; [reflexivity|]. cbn [filter]. destruct (p x); cbn [length]; lia. Qed.
Section Two.
Variables (t : table) (x y : name) (ax ay : nat * nat).
Hypotheses (W : table_ok t) (NE : t_rows t <> []) (Cx : consecutive t x ax) (Cy : consecutive t y ay).
Let N := length (t_rows t).
Lemma N_pos : 0 < INR N.
Proof. unfold N. apply lt_0_INR. destruct (t_rows t); [congruence|simpl; lia]. Qed.
Lemma freq_swap u v q : freq t (u :: v :: q) = freq t (v :: u :: q).
Proof. unfold freq, rows_with. f_equal. f_equal. f_equal. apply filter_ext. intros r. cbn [forallb]. destruct (entryb r u), (entryb r v); reflexivity. Qed.
Lemma sum_x : rsum (snd ax) (fun i => freq t [(x, lvl ax i)]) = 1.
Proof. etransitivity; [apply (freq_sum t x ax [] [] W Cx)|]. now apply freq_total. Qed.
Lemma sum_y : rsum (snd ay) (fun j => freq t [(y, lvl ay j)]) = 1.
Proof. etransitivity; [apply (freq_sum t y ay [] [] W Cy)|]. now apply freq_total. Qed.
Lemma sum_xy : rsum (snd ax) (fun i => rsum (snd ay) (fun j => freq t [(x, lvl ax i); (y, lvl ay j)])) = 1.
Proof. rewrite <- sum_x. apply rsum_ext. intros i _. apply (freq_sum t y ay [(x, lvl ax i)] [] W Cy). Qed.
Lemma sum_prod : rsum (snd ax) (fun i => rsum (snd ay) (fun j => freq t [(x, lvl ax i)] * freq t [(y, lvl ay j)])) = 1.
Proof. rewrite <- sum_x. apply rsum_ext. intros i _. rewrite rsum_scal, sum_y. lra. Qed.
Lemma sum_eps a b (f : nat -> nat -> R) e : rsum a (fun i => rsum b (fun j => f i j + e)) = rsum a (fun i => rsum b (fun j => f i j)) + INR a * (INR b * e).
Proof. rewrite (rsum_ext a _ (fun i => rsum b (fun j => f i j) + INR b * e)) by (intros; now rewrite rsum_plus, rsum_const). now rewrite rsum_plus, rsum_const. Qed.
Lemma smoothed_gibbs e : 0 < e -> 0 <= smoothed_mi e t x y ax ay /\
  (smoothed_mi e t x y ax ay = 0 <-> forall i j, (i < snd ax)%nat -> (j < snd ay)%nat -> freq t [(x, lvl ax i); (y, lvl ay j)] = freq t [(x, lvl ax i)] * freq t [(y, lvl ay j)]).
Proof.
  intros He. unfold smoothed_mi. cbn zeta.
  destruct (gibbs_sum (snd ax) (snd ay) (fun i j => freq t [(x, lvl ax i); (y, lvl ay j)] + e) (fun i j => freq t [(x, lvl ax i)] * freq t [(y, lvl ay j)] + e)) as [P Q].
  - intros i j _ _. pose proof (freq_nonneg t [(x, lvl ax i); (y, lvl ay j)]). pose proof (Rmult_le_pos _ _ (freq_nonneg t [(x, lvl ax i)]) (freq_nonneg t [(y, lvl ay j)])). lra.
  - rewrite !sum_eps. now rewrite sum_xy, sum_prod.
  - split; [exact P|]. rewrite Q. split; intros H i j Hi Hj; specialize (H i j Hi Hj); lra.
Qed.
(** a value that is not a level does not occur *)
Lemma not_level v av u q : consecutive t v av -> (forall i, (i < snd av)%nat -> u <> lvl av i) -> rows_with t ((v, u) :: q) = 0%nat.
Proof.
  intros (c & -> & Hc & H) D. unfold rows_with. destruct (filter _ (t_rows t)) as [|r l] eqn:E; [reflexivity|exfalso].
  assert (Hr : In r (filter (fun r => forallb (entryb r) ((NInt c, u) :: q)) (t_rows t))) by (rewrite E; now left). apply filter_In in Hr as [Hr B].
  cbn [forallb] in B. apply andb_prop in B as [B _]. unfold entryb in B. cbn [fst snd] in B. destruct (nth_error r c) as [z|] eqn:Ez; [|discriminate].
  destruct (name_eqb_spec z u) as [-> |]; [|discriminate]. destruct (In_nth_error _ _ Hr) as [k Hk].
  destruct (proj1 (H u)) as (n & -> & L); [exists k; unfold cell; now rewrite Hk|]. apply (D (n - fst av)%nat); [lia|]. unfold lvl. f_equal. lia.
Qed.
Lemma rows_swap u v q : rows_with t (u :: v :: q) = rows_with t (v :: u :: q).
Proof. unfold rows_with. f_equal. apply filter_ext. intros r. cbn [forallb]. destruct (entryb r u), (entryb r v); reflexivity. Qed.
Lemma is_level (ak : nat * nat) u : (exists i, (i < snd ak)%nat /\ u = lvl ak i) \/ forall i, (i < snd ak)%nat -> u <> lvl ak i.
Proof.
  destruct u as [n|s]; [|right; intros i _; discriminate]. destruct (le_lt_dec (fst ak) n) as [L|L].
  - destruct (lt_dec n (fst ak + snd ak)) as [M|M]; [left; exists (n - fst ak)%nat; split; [lia|unfold lvl; f_equal; lia]|right; intros i Hi E; injection E; lia].
  - right. intros i Hi E. injection E. lia.
Qed.
Lemma independent_freq : exactly_independent t x y <-> forall i j, (i < snd ax)%nat -> (j < snd ay)%nat -> freq t [(x, lvl ax i); (y, lvl ay j)] = freq t [(x, lvl ax i)] * freq t [(y, lvl ay j)].
Proof.
  pose proof N_pos as HN. assert (K : forall u v, (N * rows_with t [(x, u); (y, v)] = rows_with t [(x, u)] * rows_with t [(y, v)])%nat <-> freq t [(x, u); (y, v)] = freq t [(x, u)] * freq t [(y, v)]).
  { intros u v. unfold freq. fold N. split; intros E.
    - apply (f_equal INR) in E. rewrite !mult_INR in E. field_simplify_eq; [|lra]. lra.
    - apply INR_eq. rewrite !mult_INR. field_simplify_eq in E; [|lra]. lra. }
  unfold exactly_independent. fold N. split; [intros H i j _ _; apply K, H|]. intros H u v. apply K.
  destruct (is_level ax u) as [(i & Hi & ->)|Hu]; [destruct (is_level ay v) as [(j & Hj & ->)|Hv]; [now apply H|]|].
  - unfold freq. rewrite rows_swap. rewrite !(not_level y ay v) by assumption. simpl. lra.
  - unfold freq. rewrite !(not_level x ax u) by assumption. simpl. lra.
Qed.
Lemma smoothed_sym e : smoothed_mi e t y x ay ax = smoothed_mi e t x y ax ay.
Proof.
  unfold smoothed_mi. cbn zeta. rewrite rsum_swap. apply rsum_ext. intros i _. apply rsum_ext. intros j _. rewrite (freq_swap (y, lvl ay j) (x, lvl ax i)).
  now rewrite (Rmult_comm (freq t [(y, lvl ay j)])).
Qed.
(** distance to the unsmoothed mutual information *)
Lemma freq_one q : freq t q <= 1.
Proof. unfold freq. fold N. pose proof N_pos. apply (Rmult_le_reg_r (INR N)); [assumption|]. unfold Rdiv. rewrite Rmult_assoc, Rinv_l by lra. rewrite Rmult_1_r, Rmult_1_l. apply le_INR. unfold rows_with, N. apply flen. Qed.
Lemma freq_low q : freq t q <> 0 -> / INR N <= freq t q.
Proof.
  unfold freq. fold N. pose proof N_pos. intros D. assert (rows_with t q <> 0%nat) by (intros E; apply D; rewrite E; simpl; lra).
  apply (Rmult_le_reg_r (INR N)); [assumption|]. unfold Rdiv. rewrite Rmult_assoc, Rinv_l by lra. rewrite Rmult_1_r. change 1 with (INR 1). apply le_INR. lia.
Qed.
Lemma freq_sub u q : freq t (u :: q) <= freq t q.
Proof.
  unfold freq. fold N. pose proof N_pos. apply Rmult_le_compat_r; [left; now apply Rinv_0_lt_compat|]. apply le_INR. unfold rows_with. cbn [forallb].
  rewrite filter_and. apply flen.
Qed.
End Two.
Lemma big17 : ln 10000001 <= 17.
Proof.
  rewrite <- (ln_exp 17). apply ln_le; [lra|]. assert (H : 17 / 16 <= exp (/ 16)) by (pose proof (exp_ineq1_le (/ 16)); lra).
  assert (E : exp 17 = exp (/ 16) ^ 272). { rewrite <- Rpower_pow by apply exp_pos. unfold Rpower. rewrite ln_exp. f_equal. rewrite INR_IZR_INZ. change (Z.of_nat 272) with 272%Z. lra. }
  rewrite E. apply Rle_trans with ((17 / 16) ^ 272); [|apply pow_incr; split; [lra|exact H]]. unfold Rdiv. rewrite Rpow_mult_distr, pow_inv.
  apply (Rmult_le_reg_r (16 ^ 272)); [apply pow_lt; lra|]. rewrite Rmult_assoc, Rinv_l by (apply pow_nonzero; lra). rewrite Rmult_1_r. rewrite !pow_IZR, <- mult_IZR. apply IZR_le. vm_compute. discriminate.
Qed.
Lemma ln_ratio_bound p q : 0 <= p <= 1 -> 0 <= q <= 1 -> Rabs (ln ((p + eps) / (q + eps))) <= 17.
Proof.
  intros Hp Hq. pose proof eps_pos. rewrite ln_div by lra. assert (B : forall r, 0 <= r <= 1 -> ln eps <= ln (r + eps) <= ln eps + 17).
  { intros r Hr. split; [apply ln_le; lra|]. apply Rle_trans with (ln (eps * 10000001)); [apply ln_le; [lra|unfold eps; lra]|]. rewrite ln_mult by lra. pose proof big17. lra. }
  pose proof (B p Hp). pose proof (B q Hq). apply Rabs_le. lra.
Qed.
Lemma term_error p fx fy n : 1 <= n -> 0 <= p -> p <= fx <= 1 -> p <= fy <= 1 -> (p <> 0 -> / n <= p) ->
  Rabs ((p + eps) * ln ((p + eps) / (fx * fy + eps)) - p * ln (p / (fx * fy))) <= eps * (n + 17).
Proof.
  intros Hn Hp Hx Hy Low. pose proof eps_pos as He. assert (Hq : 0 <= fx * fy <= 1) by nra.
  pose proof (abs_le_inv _ _ (ln_ratio_bound p (fx * fy) ltac:(lra) Hq)) as B. destruct (Req_EM_T p 0) as [-> |D].
  - rewrite Rmult_0_l, Rplus_0_l, Rminus_0_r in *. rewrite Rabs_mult, (Rabs_pos_eq eps) by lra. apply Rmult_le_compat_l; [lra|]. apply Rabs_le. lra.
  - assert (P : 0 < p) by lra. assert (Q : 0 < fx * fy) by nra. set (q := fx * fy) in *.
    assert (E : (p + eps) * ln ((p + eps) / (q + eps)) - p * ln (p / q) = p * ln (1 + eps / p) - p * ln (1 + eps / q) + eps * ln ((p + eps) / (q + eps))).
    { replace (1 + eps / p) with ((p + eps) / p) by (field; lra). replace (1 + eps / q) with ((q + eps) / q) by (field; lra). rewrite !ln_div by lra. ring. }
    rewrite E. assert (L1 : 0 <= p * ln (1 + eps / p) <= eps).
    { assert (0 < eps / p) by (apply div_pos; lra). split; [apply Rmult_le_pos; [lra|]; rewrite <- ln_1; apply ln_le; lra|].
      apply Rle_trans with (p * (eps / p)); [apply Rmult_le_compat_l; [lra|]; pose proof (ln_le_sub (1 + eps / p)); lra|]. right. field. lra. }
    assert (L2 : 0 <= p * ln (1 + eps / q) <= eps * n).
    { assert (0 < eps / q) by (apply div_pos; lra). split; [apply Rmult_le_pos; [lra|]; rewrite <- ln_1; apply ln_le; lra|].
      apply Rle_trans with (p * (eps / q)); [apply Rmult_le_compat_l; [lra|]; pose proof (ln_le_sub (1 + eps / q)); lra|].
      replace (p * (eps / q)) with (eps * (p / q)) by (field; lra). apply Rmult_le_compat_l; [lra|]. unfold Rdiv. apply (Rmult_le_reg_r q); [lra|]. rewrite Rmult_assoc, Rinv_l by lra. rewrite Rmult_1_r.
      specialize (Low D). assert (1 <= n * p) by (apply (Rmult_le_reg_l (/ n)); [apply Rinv_0_lt_compat; lra|]; rewrite <- Rmult_assoc, Rinv_l by lra; lra). unfold q. assert (p * 1 <= fx * (n * fy)) by (apply Rmult_le_compat; nra). nra. }
    assert (L3 : - (17 * eps) <= eps * ln ((p + eps) / (q + eps)) <= 17 * eps) by nra. apply Rabs_le. nra.
Qed.
Lemma accuracy t x y ax ay : table_ok t -> t_rows t <> [] -> consecutive t x ax -> consecutive t y ay ->
  Rabs (smoothed_mi eps t x y ax ay - plugin_mi t x y ax ay) <= INR (snd ax) * INR (snd ay) * (eps * (INR (length (t_rows t)) + 17)).
Proof.
  intros W NE Cx Cy. unfold smoothed_mi, plugin_mi. cbn zeta. rewrite <- rsum_minus. eapply Rle_trans; [apply rsum_abs|]. rewrite Rmult_assoc, <- rsum_const. apply rsum_le. intros i Hi.
  rewrite <- rsum_minus. eapply Rle_trans; [apply rsum_abs|]. rewrite <- rsum_const. apply rsum_le. intros j Hj.
  assert (1 <= INR (length (t_rows t))) by (change 1 with (INR 1); apply le_INR; destruct (t_rows t); [congruence|simpl; lia]).
  apply term_error; [assumption|apply freq_nonneg| | |].
  - split; [rewrite freq_swap; now apply freq_sub|now apply freq_one].
  - split; [now apply freq_sub|now apply freq_one].
  - now apply freq_low.
Qed.

(** three columns *)
Lemma freq_swap3 t u v w q : freq t (u :: v :: w :: q) = freq t (v :: u :: w :: q).
Proof. apply freq_swap. Qed.
Lemma cmi_sym e t x y z ax ay az : smoothed_cmi e t y x z ay ax az = smoothed_cmi e t x y z ax ay az.
Proof.
  unfold smoothed_cmi. cbn zeta. rewrite rsum_swap. apply rsum_ext. intros i _. apply rsum_ext. intros j _. apply rsum_ext. intros k _. rewrite (freq_swap t (y, lvl ay j) (x, lvl ax i)).
  now rewrite (Rmult_comm (freq t [(y, lvl ay j); (z, lvl az k)] / _)).
Qed.
Lemma level_freq t z az k : table_ok t -> t_rows t <> [] -> consecutive t z az -> (k < snd az)%nat -> / INR (length (t_rows t)) <= freq t [(z, lvl az k)].
Proof.
  intros W NE (c & -> & Hc & H) Hk. apply freq_low; [exact NE|]. unfold freq. intros E. assert (0 < INR (length (t_rows t))) by now apply N_pos.
  assert (Z : rows_with t [(NInt c, lvl az k)] = 0%nat). { apply INR_eq. simpl. apply (Rmult_eq_reg_r (/ INR (length (t_rows t)))); [unfold Rdiv in E; lra|apply Rinv_neq_0_compat; lra]. }
  destruct (proj2 (H (lvl az k))) as [r Hr]; [exists (fst az + k)%nat; split; [reflexivity|lia]|]. unfold cell in Hr. destruct (nth_error (t_rows t) r) as [row|] eqn:Er; [|discriminate].
  apply nth_error_In in Er. unfold rows_with in Z. assert (I : In row (filter (fun r => forallb (entryb r) [(NInt c, lvl az k)]) (t_rows t))).
  { apply filter_In. split; [exact Er|]. cbn [forallb]. unfold entryb. cbn [fst snd]. rewrite Hr. destruct (name_eqb_spec (lvl az k) (lvl az k)); [reflexivity|congruence]. }
  destruct (filter _ _); [destruct I|discriminate].
Qed.
Lemma given_freq t x y z u v w : t_rows t <> [] -> exactly_independent_given t x y z ->
  freq t [(z, w)] * freq t [(x, u); (y, v); (z, w)] = freq t [(x, u); (z, w)] * freq t [(y, v); (z, w)].
Proof.
  intros NE H. specialize (H u v w). apply (f_equal INR) in H. rewrite !mult_INR in H. unfold freq. pose proof (N_pos t NE).
  replace (INR (rows_with t [(z, w)]) / INR (length (t_rows t)) * (INR (rows_with t [(x, u); (y, v); (z, w)]) / INR (length (t_rows t)))) with (INR (rows_with t [(z, w)]) * INR (rows_with t [(x, u); (y, v); (z, w)]) / (INR (length (t_rows t)) * INR (length (t_rows t)))) by (field; lra).
  rewrite H. field. lra.
Qed.
Lemma cond_term e f g fx fy n : 0 < e -> 0 < n -> 0 <= f -> / n <= g -> g * f = fx * fy ->
  0 <= (f + e) * ln ((f / (g + e) + e) / (fx / (g + e) * (fy / (g + e)) + e)) <= (f + e) * (e / g).
Proof.
  intros He Hn Hf Hg E. assert (G : 0 < g) by (pose proof (Rinv_0_lt_compat n Hn); lra). set (w := g + e). assert (Hw : 0 < w) by (unfold w; lra).
  replace (fx / w * (fy / w)) with (g * f / (w * w)) by (rewrite E; field; lra). set (p := f / w + e). set (q := g * f / (w * w) + e).
  assert (F : 0 <= f / w) by (apply Rmult_le_pos; [lra|left; now apply Rinv_0_lt_compat]).
  assert (Eq : g * f / (w * w) = f / w * (g / w)) by (field; lra). assert (Gw : 0 < g / w <= 1). { split; [now apply div_pos|]. apply (Rmult_le_reg_r w); [exact Hw|]. unfold Rdiv. rewrite Rmult_assoc, Rinv_l by lra. unfold w. lra. }
  assert (P : 0 < p) by (unfold p; lra). assert (Q : 0 < q) by (unfold q; rewrite Eq; nra). assert (QP : q <= p) by (unfold p, q; rewrite Eq; nra).
  assert (PQ : p * (g / w) <= q). { unfold p, q. rewrite Eq. nra. }
  assert (L : 0 <= ln (p / q) <= e / g).
  { split.
    - rewrite ln_div by assumption. assert (ln q <= ln p) by now apply ln_le. lra.
    - apply Rle_trans with (ln (w / g)).
      + apply ln_le; [now apply div_pos|]. apply (Rmult_le_reg_r (q * (g / w))); [apply Rmult_lt_0_compat; lra|]. replace (p / q * (q * (g / w))) with (p * (g / w)) by (field; lra). replace (w / g * (q * (g / w))) with q by (field; lra). exact PQ.
      + assert (w / g = 1 + e / g) by (unfold w; field; lra). rewrite H. assert (0 < e / g) by now apply div_pos. pose proof (ln_le_sub (1 + e / g)). lra. }
  split; [apply Rmult_le_pos; lra|apply Rmult_le_compat_l; lra].
Qed.
Lemma rsum_swap3 a b c f : rsum a (fun i => rsum b (fun j => rsum c (fun k => f i j k))) = rsum c (fun k => rsum a (fun i => rsum b (fun j => f i j k))).
Proof. rewrite (rsum_ext a _ (fun i => rsum c (fun k => rsum b (fun j => f i j k)))) by (intros; apply rsum_swap). apply (rsum_swap a c (fun i k => rsum b (fun j => f i j k))). Qed.
Lemma cmi_independent e t x y z ax ay az : 0 < e -> table_ok t -> t_rows t <> [] -> consecutive t x ax -> consecutive t y ay -> consecutive t z az -> exactly_independent_given t x y z ->
  0 <= smoothed_cmi e t x y z ax ay az <= INR (snd az) * e * (1 + INR (snd ax) * INR (snd ay) * e * INR (length (t_rows t))).
Proof.
  intros He W NE Cx Cy Cz H. pose proof (N_pos t NE) as HN. set (n := INR (length (t_rows t))) in *. unfold smoothed_cmi. cbn zeta.
  assert (T : forall i j k, (k < snd az)%nat -> 0 <= (freq t [(x, lvl ax i); (y, lvl ay j); (z, lvl az k)] + e) * ln ((freq t [(x, lvl ax i); (y, lvl ay j); (z, lvl az k)] / (freq t [(z, lvl az k)] + e) + e) / (freq t [(x, lvl ax i); (z, lvl az k)] / (freq t [(z, lvl az k)] + e) * (freq t [(y, lvl ay j); (z, lvl az k)] / (freq t [(z, lvl az k)] + e)) + e)) <= (freq t [(x, lvl ax i); (y, lvl ay j); (z, lvl az k)] + e) * (e / freq t [(z, lvl az k)])).
  { intros i j k Hk. apply (cond_term e _ _ _ _ n); [exact He|exact HN|apply freq_nonneg|now apply level_freq|now apply given_freq]. }
  split; [apply rsum_nonneg; intros i _; apply rsum_nonneg; intros j _; apply rsum_nonneg; intros k Hk; now apply T|].
  apply Rle_trans with (rsum (snd ax) (fun i => rsum (snd ay) (fun j => rsum (snd az) (fun k => (freq t [(x, lvl ax i); (y, lvl ay j); (z, lvl az k)] + e) * (e / freq t [(z, lvl az k)]))))).
  { apply rsum_le; intros i _; apply rsum_le; intros j _; apply rsum_le; intros k Hk; now apply T. }
  rewrite rsum_swap3. rewrite Rmult_assoc, <- rsum_const. apply rsum_le. intros k Hk. set (g := freq t [(z, lvl az k)]).
  assert (Hg : / n <= g) by now apply level_freq. assert (G : 0 < g) by (pose proof (Rinv_0_lt_compat n HN); lra).
  assert (E : rsum (snd ax) (fun i => rsum (snd ay) (fun j => (freq t [(x, lvl ax i); (y, lvl ay j); (z, lvl az k)] + e) * (e / g))) = (g + INR (snd ax) * (INR (snd ay) * e)) * (e / g)).
  { rewrite (rsum_ext _ _ (fun i => rsum (snd ay) (fun j => freq t [(x, lvl ax i); (y, lvl ay j); (z, lvl az k)] + e) * (e / g))) by (intros; apply rsum_scal_r).
    rewrite rsum_scal_r. f_equal. rewrite sum_eps. f_equal. rewrite (rsum_ext _ _ (fun i => freq t ([] ++ (x, lvl ax i) :: [(z, lvl az k)]))) by (intros i _; apply (freq_sum t y ay [(x, lvl ax i)] [(z, lvl az k)] W Cy)).
    apply (freq_sum t x ax [] [(z, lvl az k)] W Cx). }
  rewrite E. replace ((g + INR (snd ax) * (INR (snd ay) * e)) * (e / g)) with (e * (1 + INR (snd ax) * INR (snd ay) * e * (/ g))) by (field; lra).
  apply Rmult_le_compat_l; [lra|]. apply Rplus_le_compat_l. apply Rmult_le_compat_l; [repeat apply Rmult_le_pos; try apply pos_INR; lra|]. rewrite <- (Rinv_inv n). apply Rinv_le_contravar; [now apply Rinv_0_lt_compat|exact Hg].
Qed.
