(** Properties_Real.v -- theorems C98 to C101: the numbers computed by the independence tests, over the reals.
    Specification: SpecReal.v, SpecData.v. *)
From Verif Require Import Py Num Data SpecLearn SpecConstraint SpecData DataUtils DataFacts HistFacts MiFacts SpecReal MiReal RealFacts RealTable RealMi RealChi RealSym Properties_Data.
From Coq Require Import Reals Lra Lia.
Open Scope R_scope.

(** ** C98 *)
(** with levels a, .., a+k-1: the reported number is a number m rounded to four decimals; m is never negative,
    is 0 exactly for columns that are exactly independent, and is close to the mutual information *)
Theorem C98_mutual_information : forall t x y ax ay, table_ok t -> t_rows t <> [] -> consecutive t x ax -> consecutive t y ay ->
  let m := smoothed_mi (/ 10 ^ 7) t x y ax ay in
  exists r, mi_test mi_rounded t [x; y] = Ok r /\ mutual_information mi_score t [x; y] = Ok (Fin r) /\
    Rabs (qr r - m) <= / 20000 /\ 0 <= m /\ (m = 0 <-> exactly_independent t x y) /\
    Rabs (m - plugin_mi t x y ax ay) <= / 10 ^ 7 * (INR (snd ax) * INR (snd ay) * (INR (length (t_rows t)) + 17)).
Proof.
  intros t x y ax ay W NE Cx Cy. assert (Ee : / 10 ^ 7 = eps) by (unfold eps; f_equal; lra). cbn zeta. rewrite Ee. exists (round4 (smoothed_mi eps t x y ax ay)).
  assert (F : Forall2 (consecutive t) [x; y] [ax; ay]) by (constructor; [exact Cx|constructor; [exact Cy|constructor]]).
  split; [rewrite (C53_mi_test _ mi_rounded t [x; y] [ax; ay] W NE F) by (cbn; lia); unfold mi_rounded; cbn [map mi_number]; now rewrite mi2_freq|].
  split; [rewrite (C53_mutual_information _ mi_score t [x; y] [ax; ay] W NE F) by (cbn; lia); unfold mi_score; cbn [map]; now rewrite hsum_contingency2, mi2_freq|].
  split; [apply round4_spec|]. destruct (smoothed_gibbs t x y ax ay W NE Cx Cy eps eps_pos) as [P Q]. split; [exact P|].
  split; [rewrite Q; symmetry; now apply independent_freq|]. pose proof (accuracy t x y ax ay W NE Cx Cy). lra.
Qed.
Print Assumptions C98_mutual_information.
(** given a third column: exactly conditionally independent columns have a value between 0 and 1e-7 times
    (a little more than) the number of levels of the third column *)
Theorem C98_conditional : forall t x y z ax ay az, table_ok t -> t_rows t <> [] -> consecutive t x ax -> consecutive t y ay -> consecutive t z az ->
  let m := smoothed_cmi (/ 10 ^ 7) t x y z ax ay az in
  exists r, mi_test mi_rounded t [x; y; z] = Ok r /\ Rabs (qr r - m) <= / 20000 /\
    (exactly_independent_given t x y z -> 0 <= m <= INR (snd az) * / 10 ^ 7 * (1 + INR (snd ax) * INR (snd ay) * / 10 ^ 7 * INR (length (t_rows t)))).
Proof.
  intros t x y z ax ay az W NE Cx Cy Cz. assert (Ee : / 10 ^ 7 = eps) by (unfold eps; f_equal; lra). cbn zeta. rewrite Ee. exists (round4 (smoothed_cmi eps t x y z ax ay az)).
  assert (F : Forall2 (consecutive t) [x; y; z] [ax; ay; az]) by (constructor; [exact Cx|constructor; [exact Cy|constructor; [exact Cz|constructor]]]).
  split; [rewrite (C53_mi_test _ mi_rounded t [x; y; z] [ax; ay; az] W NE F) by (cbn; lia); unfold mi_rounded; cbn [map mi_number]; now rewrite mi3_freq|].
  split; [apply round4_spec|]. intros I. now apply cmi_independent; [apply eps_pos|..].
Qed.
Print Assumptions C98_conditional.
(** the value and the p-value do not depend on the order of the two tested columns, for integer columns with any
    levels and any number of conditioning columns *)
Theorem C98_symmetric : forall t x y rest, table_ok t -> (forall v, In v (x :: y :: rest) -> coded t v) ->
  mi_test mi_rounded t (y :: x :: rest) = mi_test mi_rounded t (x :: y :: rest) /\ mi_test p_rounded t (y :: x :: rest) = mi_test p_rounded t (x :: y :: rest).
Proof.
  assert (S : symmetric_number mi_number) by (split; [exact mi2_sym|exact mi3_sym]). destruct S as [S2 S3].
  intros t x y rest W C. split; apply mi_test_sym; try assumption; split.
  - intros a b h h' N H. unfold mi_rounded. f_equal. now apply S2.
  - intros a b c h h' N H. unfold mi_rounded. f_equal. now apply S3.
  - intros a b h h' N H. unfold p_rounded, p_raw. rewrite (S2 a b h h' N H). cbn [ddof]. now rewrite (Nat.mul_comm (b - 1)).
  - intros a b c h h' N H. unfold p_rounded, p_raw. rewrite (S3 a b c h h' N H). cbn [ddof]. now rewrite (Nat.mul_comm (b - 1)).
Qed.
Print Assumptions C98_symmetric.
Example C98_nonvacuous : table_ok exBits /\ t_rows exBits <> [] /\ consecutive exBits (NInt 0) (0%nat, 2%nat) /\ consecutive exBits (NInt 1) (0%nat, 2%nat) /\ consecutive exBits (NInt 2) (0%nat, 2%nat) /\ ~ exactly_independent exBits (NInt 0) (NInt 1).
Proof.
  split; [apply exBits_ok|]. split; [discriminate|]. split; [apply exBits_consecutive; lia|]. split; [apply exBits_consecutive; lia|]. split; [apply exBits_consecutive; lia|].
  intros H. specialize (H (NInt 0) (NInt 0)). vm_compute in H. discriminate.
Qed.

(** ** C99 *)
Lemma p_value2 t x y ax ay : table_ok t -> t_rows t <> [] -> consecutive t x ax -> consecutive t y ay ->
  mi_test p_rounded t [x; y] = Ok (num_map round4 (num_map (fun d => 2 * d) (chi2_pdf (2 * INR (length (t_rows t)) * smoothed_mi eps t x y ax ay) ((snd ax - 1) * (snd ay - 1))))).
Proof.
  intros W NE Cx Cy. assert (F : Forall2 (consecutive t) [x; y] [ax; ay]) by (constructor; [exact Cx|constructor; [exact Cy|constructor]]).
  rewrite (C53_mi_test _ p_rounded t [x; y] [ax; ay] W NE F) by (cbn; lia). unfold p_rounded, p_raw. cbn [map mi_number ddof]. now rewrite mi2_freq.
Qed.
Lemma p_value3 t x y z ax ay az : table_ok t -> t_rows t <> [] -> consecutive t x ax -> consecutive t y ay -> consecutive t z az ->
  mi_test p_rounded t [x; y; z] = Ok (num_map round4 (num_map (fun d => 2 * d) (chi2_pdf (2 * INR (length (t_rows t)) * smoothed_cmi eps t x y z ax ay az) ((snd ax - 1) * (snd ay - 1) * snd az)))).
Proof.
  intros W NE Cx Cy Cz. assert (F : Forall2 (consecutive t) [x; y; z] [ax; ay; az]) by (constructor; [exact Cx|constructor; [exact Cy|constructor; [exact Cz|constructor]]]).
  rewrite (C53_mi_test _ p_rounded t [x; y; z] [ax; ay; az] W NE F) by (cbn; lia). unfold p_rounded, p_raw. cbn [map mi_number ddof]. now rewrite mi3_freq.
Qed.
Lemma round4_0 : round4 (2 * 0) = 0%Qc.
Proof. replace (2 * 0) with (IZR 0 / 10000) by lra. rewrite round4_frac. apply Qc_is_canon. reflexivity. Qed.
(** exactly independent columns: the p-value is nan, inf, 1 or 0, according to the degrees of freedom *)
Theorem C99_independent : forall t x y ax ay, table_ok t -> t_rows t <> [] -> consecutive t x ax -> consecutive t y ay -> exactly_independent t x y ->
  mi_test p_rounded t [x; y] = Ok (match (snd ax - 1) * (snd ay - 1) with 0 => NaN | 1 => Inf | 2 => Fin 1%Qc | _ => Fin 0%Qc end)%nat.
Proof.
  intros t x y ax ay W NE Cx Cy I. rewrite (p_value2 t x y ax ay) by assumption. f_equal.
  replace (smoothed_mi eps t x y ax ay) with 0 by (symmetry; apply (smoothed_gibbs t x y ax ay W NE Cx Cy eps eps_pos); now apply (independent_freq t x y ax ay)). rewrite Rmult_0_r.
  destruct ((snd ax - 1) * (snd ay - 1))%nat as [|[|[|k]]]; cbn [chi2_pdf]; [reflexivity|..]; (destruct (Rlt_dec 0 0); [lra|]; destruct (Req_EM_T 0 0); [|lra]); cbn [num_map].
  - reflexivity.
  - f_equal. replace (2 * / 2) with (IZR 10000 / 10000) by lra. rewrite round4_frac. apply Qc_is_canon. reflexivity.
  - f_equal. apply round4_0.
Qed.
Print Assumptions C99_independent.
(** two degrees of freedom: exp (-x/2), the right p-value *)
Theorem C99_two_degrees : forall t x y ax ay, table_ok t -> t_rows t <> [] -> consecutive t x ax -> consecutive t y ay -> ((snd ax - 1) * (snd ay - 1) = 2)%nat ->
  exists p, mi_test p_rounded t [x; y] = Ok (Fin p) /\ Rabs (qr p - exp (- (2 * INR (length (t_rows t)) * smoothed_mi (/ 10 ^ 7) t x y ax ay) / 2)) <= / 20000.
Proof.
  intros t x y ax ay W NE Cx Cy K. assert (Ee : / 10 ^ 7 = eps) by (unfold eps; f_equal; lra). rewrite Ee. rewrite (p_value2 t x y ax ay) by assumption. rewrite K. cbn [chi2_pdf].
  destruct (smoothed_gibbs t x y ax ay W NE Cx Cy eps eps_pos) as [P _]. pose proof (N_pos t NE) as HN. set (s := 2 * INR (length (t_rows t)) * smoothed_mi eps t x y ax ay). assert (0 <= s) by (unfold s; nra).
  destruct (Rlt_dec s 0); [lra|]. destruct (Req_EM_T s 0) as [Z|Z]; cbn [num_map]; (eexists; split; [reflexivity|]).
  - replace (exp (- s / 2)) with (2 * / 2) by (rewrite Z; replace (- 0 / 2) with 0 by lra; rewrite exp_0; lra). apply round4_spec.
  - rewrite density_2 by lra. replace (2 * (exp (- s / 2) / 2)) with (exp (- s / 2)) by lra. apply round4_spec.
Qed.
Print Assumptions C99_two_degrees.
(** one degree of freedom: a "p-value" above 1 for every dependent pair whose statistic is at most 1/4 *)
Theorem C99_above_one : forall t x y ax ay, table_ok t -> t_rows t <> [] -> consecutive t x ax -> consecutive t y ay -> snd ax = 2%nat -> snd ay = 2%nat ->
  ~ exactly_independent t x y -> 2 * INR (length (t_rows t)) * smoothed_mi (/ 10 ^ 7) t x y ax ay <= / 4 ->
  exists p, mi_test p_rounded t [x; y] = Ok (Fin p) /\ (1 <= p)%Qc.
Proof.
  intros t x y ax ay W NE Cx Cy Ka Kb D. assert (Ee : / 10 ^ 7 = eps) by (unfold eps; f_equal; lra). rewrite Ee. intros L. rewrite (p_value2 t x y ax ay) by assumption. rewrite Ka, Kb. cbn [Nat.sub Nat.mul Nat.add chi2_pdf].
  destruct (smoothed_gibbs t x y ax ay W NE Cx Cy eps eps_pos) as [P Q]. pose proof (N_pos t NE) as HN.
  assert (0 < smoothed_mi eps t x y ax ay). { destruct P as [P|P]; [exact P|]. exfalso. apply D. apply (independent_freq t x y ax ay); try assumption. apply Q. lra. }
  set (s := 2 * INR (length (t_rows t)) * smoothed_mi eps t x y ax ay) in *. assert (0 < s) by (unfold s; nra).
  destruct (Rlt_dec s 0); [lra|]. destruct (Req_EM_T s 0); [lra|]. cbn [num_map]. eexists. split; [reflexivity|].
  replace 1%Qc with (round4 (IZR 10000 / 10000)) by (rewrite round4_frac; apply Qc_is_canon; reflexivity). apply round4_mono. pose proof (density_1 s). lra.
Qed.
Print Assumptions C99_above_one.
Lemma below_05 p : p < 4995 / 100000 -> (round4 p < Q2Qc (5 # 100))%Qc.
Proof.
  intros H. apply qr_lt. rewrite qr_frac. unfold round4. rewrite qr_frac. assert (B : (round_int (p * 10000) <= 499)%Z).
  { pose proof (round_int_spec (p * 10000)) as B. apply abs_le_inv in B. assert (IZR (round_int (p * 10000)) < IZR 500) by (apply Rle_lt_trans with (p * 10000 + / 2); [lra|]; lra). apply lt_IZR in H0. lia. }
  apply IZR_le in B. lra.
Qed.
(** three degrees of freedom or more: columns that are exactly independent given a third one are declared dependent *)
Theorem C99_conditionally_independent : forall t x y z ax ay az, table_ok t -> t_rows t <> [] -> consecutive t x ax -> consecutive t y ay -> consecutive t z az -> exactly_independent_given t x y z ->
  (3 <= (snd ax - 1) * (snd ay - 1) * snd az)%nat -> INR (length (t_rows t)) * INR (snd az) <= 10000 -> INR (snd ax) * INR (snd ay) * INR (length (t_rows t)) <= 1000000 ->
  exists p, mi_test p_rounded t [x; y; z] = Ok (Fin p) /\ (p < Q2Qc (5 # 100))%Qc.
Proof.
  intros t x y z ax ay az W NE Cx Cy Cz I K B1 B2. rewrite (p_value3 t x y z ax ay az) by assumption. set (k := ((snd ax - 1) * (snd ay - 1) * snd az)%nat) in *.
  destruct (cmi_independent eps t x y z ax ay az eps_pos W NE Cx Cy Cz I) as [P U]. pose proof (N_pos t NE) as HN.
  set (n := INR (length (t_rows t))) in *. set (c := INR (snd az)) in *. set (a := INR (snd ax)) in *. set (b := INR (snd ay)) in *.
  set (s := 2 * n * smoothed_cmi eps t x y z ax ay az). assert (S0 : 0 <= s) by (unfold s; nra).
  assert (S1 : s <= 22 / 10000).
  { assert (c * eps * (1 + a * b * eps * n) <= c * eps * (11 / 10)). { apply Rmult_le_compat_l; [apply Rmult_le_pos; [apply pos_INR|apply Rlt_le, eps_pos]|]. unfold eps. lra. }
    unfold s. apply Rle_trans with (2 * n * (c * eps * (11 / 10))); [apply Rmult_le_compat_l; lra|]. unfold eps. lra. }
  destruct k as [|[|[|k]]]; try lia. cbn [chi2_pdf]. destruct (Rlt_dec s 0); [lra|]. destruct (Req_EM_T s 0) as [Z|Z]; cbn [num_map]; (eexists; split; [reflexivity|]); apply below_05.
  - lra.
  - apply Rle_lt_trans with (sqrt s); [apply density_small; lia || lra|]. rewrite <- (sqrt_pow2 (4995 / 100000)) by lra. apply sqrt_lt_1_alt. split; [lra|]. apply Rle_lt_trans with (22 / 10000); [exact S1|]. unfold pow. lra.
Qed.
Print Assumptions C99_conditionally_independent.
Lemma div_le x y c : 0 < y -> x <= c * y -> x / y <= c.
Proof. intros P H. apply (Rmult_le_reg_r y); [exact P|]. unfold Rdiv. rewrite Rmult_assoc, Rinv_l by lra. lra. Qed.
(** 2 x 4 levels, 8 rows: in the first table the columns are independent, in the second they are not *)
Definition exFree : table := mkT 2 (map (map NInt) [[0; 0]; [0; 1]; [0; 2]; [0; 3]; [1; 0]; [1; 1]; [1; 2]; [1; 3]])%nat.
Definition exTied : table := mkT 2 (map (map NInt) [[0; 0]; [0; 0]; [0; 1]; [0; 2]; [1; 1]; [1; 2]; [1; 3]; [1; 3]])%nat.
Lemma ex_ok t : t = exFree \/ t = exTied -> table_ok t.
Proof. intros [-> | ->] r H; cbn in H; repeat (destruct H as [<-|H]; [reflexivity|]); destruct H. Qed.
Lemma ex_cells t r : t = exFree \/ t = exTied -> (r < 8)%nat -> exists a b, cell t r 0 = Some (NInt a) /\ (a < 2)%nat /\ cell t r 1 = Some (NInt b) /\ (b < 4)%nat.
Proof.
  intros [-> | ->] H; destruct r as [|[|[|[|[|[|[|[|r]]]]]]]]; try lia; do 2 eexists; (split; [reflexivity|]); (split; [lia|]); (split; [reflexivity|lia]).
Qed.
Lemma ex_rows t r i x : t = exFree \/ t = exTied -> cell t r i = Some x -> (r < 8)%nat.
Proof. intros H E. unfold cell in E. destruct (nth_error (t_rows t) r) eqn:Er; [|discriminate]. assert (r < length (t_rows t))%nat by (apply nth_error_Some; congruence). destruct H as [-> | ->]; exact H0. Qed.
Lemma ex_consecutive t : t = exFree \/ t = exTied -> consecutive t (NInt 0) (0, 2)%nat /\ consecutive t (NInt 1) (0, 4)%nat.
Proof.
  intros H. split.
  - exists 0%nat. split; [reflexivity|]. split; [destruct H as [-> | ->]; cbn; lia|]. intros x. cbn [fst snd]. split.
    + intros [r Hr]. destruct (ex_cells t r H (ex_rows t r _ _ H Hr)) as (a & b & E & L & _). rewrite Hr in E. injection E as ->. exists a. split; [reflexivity|lia].
    + intros (n & -> & L). destruct n as [|[|n]]; [exists 0%nat|exists 4%nat|lia]; destruct H as [-> | ->]; reflexivity.
  - exists 1%nat. split; [reflexivity|]. split; [destruct H as [-> | ->]; cbn; lia|]. intros x. cbn [fst snd]. split.
    + intros [r Hr]. destruct (ex_cells t r H (ex_rows t r _ _ H Hr)) as (a & b & _ & _ & E & L). rewrite Hr in E. injection E as ->. exists b. split; [reflexivity|lia].
    + intros (n & -> & L). destruct n as [|[|[|[|n]]]]; [exists 0%nat|destruct H as [-> | ->]; [exists 1%nat|exists 2%nat]; reflexivity|destruct H as [-> | ->]; [exists 2%nat|exists 3%nat]; reflexivity|exists 7%nat|lia]; destruct H as [-> | ->]; reflexivity.
Qed.
Lemma tied_mi : smoothed_mi eps exTied (NInt 0) (NInt 1) (0, 2)%nat (0, 4)%nat = 2 * ((/ 4 + eps) * ln ((/ 4 + eps) / (/ 8 + eps))) + 2 * (eps * ln (eps / (/ 8 + eps))).
Proof.
  destruct (ex_consecutive exTied (or_intror eq_refl)) as [C0 C1]. rewrite <- mi2_freq; [|apply ex_ok; auto|discriminate|exact C0|exact C1].
  change (contingency exTied [NInt 0; NInt 1] [(0, 2)%nat; (0, 4)%nat]) with [2; 1; 1; 0; 0; 1; 1; 2]%nat. cbn [snd].
  set (p := fun i j => at2 4 [2; 1; 1; 0; 0; 1; 1; 2]%nat i j / INR 8).
  assert (X : forall i, (i < 2)%nat -> rsum 4 (fun j => p i j) = / 2) by (intros i Hi; unfold p, at2, rsum; destruct i as [|[|i]]; [| |lia]; cbn; lra).
  assert (Y : forall j, (j < 4)%nat -> rsum 2 (fun i => p i j) = / 4) by (intros j Hj; unfold p, at2, rsum; destruct j as [|[|[|[|j]]]]; [| | | |lia]; cbn; lra).
  unfold mi2. cbn zeta. change (length (t_rows exTied)) with 8%nat.
  rewrite (rsum_ext 2 _ (fun i => rsum 4 (fun j => (p i j + eps) * ln ((p i j + eps) / (/ 8 + eps))))).
  2:{ intros i Hi. apply rsum_ext. intros j Hj. fold (p i j). change (rsum 4 (fun j0 => at2 4 [2; 1; 1; 0; 0; 1; 1; 2]%nat i j0 / INR 8)) with (rsum 4 (fun j0 => p i j0)). change (rsum 2 (fun i0 => at2 4 [2; 1; 1; 0; 0; 1; 1; 2]%nat i0 j / INR 8)) with (rsum 2 (fun i0 => p i0 j)).
      rewrite X, Y by assumption. replace (/ 2 * / 4) with (/ 8) by lra. reflexivity. }
  unfold rsum. cbn [seq map fold_right]. assert (P : p 0%nat 0%nat = / 4 /\ p 0%nat 1%nat = / 8 /\ p 0%nat 2%nat = / 8 /\ p 0%nat 3%nat = 0 /\ p 1%nat 0%nat = 0 /\ p 1%nat 1%nat = / 8 /\ p 1%nat 2%nat = / 8 /\ p 1%nat 3%nat = / 4) by (unfold p, at2; cbn; repeat split; lra).
  destruct P as (-> & -> & -> & -> & -> & -> & -> & ->). pose proof eps_pos. replace ((/ 8 + eps) / (/ 8 + eps)) with 1 by (field; lra). rewrite ln_1, Rplus_0_l. ring.
Qed.
Theorem C99_reversed_refuted : exactly_independent exFree (NInt 0) (NInt 1) /\ ~ exactly_independent exTied (NInt 0) (NInt 1) /\
  (exists p, mi_test p_rounded exFree [NInt 0; NInt 1] = Ok (Fin p) /\ (p < Q2Qc (5 # 100))%Qc) /\
  (exists p, mi_test p_rounded exTied [NInt 0; NInt 1] = Ok (Fin p) /\ (Q2Qc (5 # 100) < p)%Qc).
Proof.
  destruct (ex_consecutive exTied (or_intror eq_refl)) as [C0 C1]. destruct (ex_consecutive exFree (or_introl eq_refl)) as [D0 D1].
  assert (I : exactly_independent exFree (NInt 0) (NInt 1)).
  { apply (independent_freq exFree (NInt 0) (NInt 1) (0, 2)%nat (0, 4)%nat); [discriminate|exact D0|exact D1|]. cbn [snd]. intros i j Hi Hj. unfold freq. change (length (t_rows exFree)) with 8%nat.
    destruct i as [|[|i]]; [| |lia]; (destruct j as [|[|[|[|j]]]]; [| | | |lia]); cbv [lvl fst Nat.add]; 
    repeat match goal with |- context [rows_with exFree ?q] => let v := eval vm_compute in (rows_with exFree q) in change (rows_with exFree q) with v end; cbn; lra. }
  split; [exact I|]. split; [intros H; specialize (H (NInt 0) (NInt 0)); vm_compute in H; discriminate|]. split.
  - rewrite (C99_independent exFree (NInt 0) (NInt 1) (0, 2)%nat (0, 4)%nat); [|apply ex_ok; auto|discriminate|exact D0|exact D1|exact I]. exists 0%Qc. split; [reflexivity|reflexivity].
  - rewrite (p_value2 exTied (NInt 0) (NInt 1) (0, 2)%nat (0, 4)%nat); [|apply ex_ok; auto|discriminate|exact C0|exact C1]. cbn [snd Nat.sub Nat.mul Nat.add]. rewrite tied_mi. change (length (t_rows exTied)) with 8%nat.
    replace (INR 8) with 8 by (cbn; lra). pose proof eps_pos as He. assert (Es : eps = / 10000000) by reflexivity.
    set (l := ln ((/ 4 + eps) / (/ 8 + eps))). set (m := ln (eps / (/ 8 + eps))).
    assert (L : 49 / 100 <= l <= 7 / 10).
    { unfold l. split.
      - pose proof (ln_le_sub ((/ 8 + eps) / (/ 4 + eps)) ltac:(apply div_pos; lra)) as B. rewrite ln_div in * by lra. assert ((/ 8 + eps) / (/ 4 + eps) <= 51 / 100). { apply div_le; lra. } lra.
      - apply Rle_trans with (ln 2); [apply ln_le; [apply div_pos; lra|]; apply div_le; lra|].
        rewrite <- (ln_exp (7 / 10)). apply ln_le; [lra|]. pose proof (exp_quadratic (7 / 40) ltac:(lra)) as Q. replace (7 / 10) with ((7 / 40 + 7 / 40) + (7 / 40 + 7 / 40)) by lra. rewrite !exp_plus. set (g := exp (7 / 40)) in *. assert (1416 / 1000 <= g * g) by nra. nra. }
    assert (M : - 17 <= m <= 0).
    { unfold m. pose proof (ln_ratio_bound 0 (/ 8) ltac:(lra) ltac:(lra)) as B. rewrite Rplus_0_l in B. apply abs_le_inv in B. split; [lra|]. rewrite <- ln_1. apply ln_le; [apply div_pos; lra|]. apply div_le; lra. }
    set (s := 2 * 8 * (2 * ((/ 4 + eps) * l) + 2 * (eps * m))). assert (S1 : 39 / 10 <= s <= 57 / 10) by (unfold s; rewrite Es in *; lra || nra).
    cbn [chi2_pdf]. destruct (Rlt_dec s 0); [lra|]. destruct (Req_EM_T s 0); [lra|]. cbn [num_map]. eexists. split; [reflexivity|].
    apply qr_lt. rewrite qr_frac. pose proof (round4_spec (2 * chi2_density 3 s)) as R4. apply abs_le_inv in R4.
    assert (B : 51 / 1000 <= 2 * chi2_density 3 s); [|lra].
    rewrite density_nrm. replace (INR 3 / 2 - 1) with (/ 2) by (cbn; lra). rewrite Rpower_sqrt by lra.
    assert (Q : 19 / 10 <= sqrt s). { rewrite <- (sqrt_pow2 (19 / 10)) by lra. apply sqrt_le_1_alt. unfold pow. lra. }
    assert (N3 : 0 < nrm 3 <= 3). { split; [apply nrm_pos; lia|]. rewrite (nrm_step 1) by lia. cbn [INR]. rewrite Rmult_1_l, nrm_1, <- sqrt_mult by (pose proof PI_RGT_0; lra). pose proof PI_4'. rewrite <- (sqrt_pow2 3) by lra. apply sqrt_le_1_alt. unfold pow. lra. }
    assert (X : 41 / 1000 <= exp (- s / 2)).
    { assert (E8 : exp (- s / 2) = exp (- s / 32) ^ 16) by (rewrite <- Rpower_pow by apply exp_pos; unfold Rpower; rewrite ln_exp; f_equal; rewrite INR_IZR_INZ; change (Z.of_nat 16) with 16%Z; lra). rewrite E8.
      apply Rle_trans with ((82 / 100) ^ 16); [|apply pow_incr; pose proof (exp_ineq1_le (- s / 32)); lra]. unfold pow. lra. }
    apply (Rmult_le_reg_r (nrm 3)); [lra|]. unfold Rdiv. rewrite !Rmult_assoc, Rinv_l by lra. rewrite Rmult_1_r. pose proof (exp_pos (- s / 2)). nra.
Qed.
Print Assumptions C99_reversed_refuted.
(** the hypotheses of C99_two_degrees: 2 x 3 levels; of C99_conditionally_independent: two bits given a column with
    three levels, every combination once *)
Definition exGrid : table := mkT 3 (flat_map (fun z => [[NInt 0; NInt 0; NInt z]; [NInt 0; NInt 1; NInt z]; [NInt 1; NInt 0; NInt z]; [NInt 1; NInt 1; NInt z]]) [0; 1; 2])%nat.
Lemma exGrid_ok : table_ok exGrid.
Proof. intros r H; cbn in H; repeat (destruct H as [<-|H]; [reflexivity|]); destruct H. Qed.
Lemma exGrid_consecutive i : (i < 3)%nat -> consecutive exGrid (NInt i) (0, if i =? 2 then 3 else 2)%nat.
Proof.
  intros Hi. exists i. split; [reflexivity|]. split; [exact Hi|]. intros x. cbn [fst snd]. split.
  - intros [r Hr]. unfold cell in Hr. assert (L : (r < 12)%nat) by (change 12%nat with (length (t_rows exGrid)); apply nth_error_Some; destruct (nth_error (t_rows exGrid) r); discriminate).
    do 12 (destruct r as [|r]; [destruct i as [|[|[|i]]]; [| | |lia]; cbn in Hr; injection Hr as <-; eexists; (split; [reflexivity|cbn; lia])|]). lia.
  - intros (n & -> & L). destruct i as [|[|[|i]]]; [| | |lia]; (destruct n as [|[|[|n]]]; cbn in L; try lia); try (exists 0%nat; reflexivity); try (exists 1%nat; reflexivity); try (exists 2%nat; reflexivity); try (exists 4%nat; reflexivity); exists 8%nat; reflexivity.
Qed.
Lemma rows_with_out t c u q : (forall r x, cell t r c = Some x -> x <> u) -> rows_with t ((NInt c, u) :: q) = 0%nat.
Proof.
  intros D. unfold rows_with. destruct (filter _ (t_rows t)) as [|r l] eqn:E; [reflexivity|exfalso].
  assert (Hr : In r (filter (fun r => forallb (entryb r) ((NInt c, u) :: q)) (t_rows t))) by (rewrite E; now left). apply filter_In in Hr as [Hr B].
  cbn [forallb] in B. apply andb_prop in B as [B _]. unfold entryb in B. cbn [fst snd] in B. destruct (nth_error r c) as [z|] eqn:Ez; [|discriminate].
  destruct (name_eqb_spec z u) as [-> |]; [|discriminate]. destruct (In_nth_error _ _ Hr) as [k Hk]. apply (D k u); [|reflexivity]. unfold cell. now rewrite Hk.
Qed.
Example C99_nonvacuous : table_ok exGrid /\ consecutive exGrid (NInt 0) (0, 2)%nat /\ consecutive exGrid (NInt 1) (0, 2)%nat /\ consecutive exGrid (NInt 2) (0, 3)%nat /\ exactly_independent_given exGrid (NInt 0) (NInt 1) (NInt 2) /\
  INR (length (t_rows exGrid)) * INR 3 <= 10000 /\ INR 2 * INR 2 * INR (length (t_rows exGrid)) <= 1000000.
Proof.
  split; [apply exGrid_ok|]. split; [apply (exGrid_consecutive 0); lia|]. split; [apply (exGrid_consecutive 1); lia|]. split; [apply (exGrid_consecutive 2); lia|]. split.
  - intros u v w.
    assert (A : forall c u q, ~ (exists n, u = NInt n /\ (n < if c =? 2 then 3 else 2)%nat) -> (c < 3)%nat -> rows_with exGrid ((NInt c, u) :: q) = 0%nat).
    { intros c u' q D Hc. apply rows_with_out. intros r x Hx ->. destruct (exGrid_consecutive c Hc) as (i & Ei & _ & H). injection Ei as <-. destruct (proj1 (H u')) as (n & -> & L); [now exists r|]. apply D. exists n. split; [reflexivity|]. cbn [fst snd] in L. lia. }
    assert (Dec : forall (u : name) k, (exists n, u = NInt n /\ (n < k)%nat) \/ ~ (exists n, u = NInt n /\ (n < k)%nat)).
    { intros [n|st] k; [destruct (lt_dec n k); [left; eauto|right; intros (m & E & L); injection E; lia]|right; intros (m & E & _); discriminate]. }
    destruct (Dec w 3%nat) as [(c & -> & Lc)|Dw].
    2:{ rewrite (rows_swap exGrid (NInt 0, u) (NInt 2, w)). rewrite (A 2%nat w) by (assumption || lia). rewrite (A 2%nat w) by (assumption || lia). reflexivity. }
    destruct (Dec u 2%nat) as [(a & -> & La)|Du].
    2:{ rewrite (A 0%nat u) by (assumption || lia). rewrite (A 0%nat u) by (assumption || lia). lia. }
    destruct (Dec v 2%nat) as [(b & -> & Lb)|Dv].
    2:{ rewrite (rows_swap exGrid (NInt 0, NInt a) (NInt 1, v)). rewrite (A 1%nat v) by (assumption || lia). rewrite (A 1%nat v) by (assumption || lia). lia. }
    destruct a as [|[|a]]; [| |lia]; (destruct b as [|[|b]]; [| |lia]); (destruct c as [|[|[|c]]]; [| | |lia]); reflexivity.
  - split; cbn; lra.
Qed.

(** ** C100 *)
(** 140 degrees of freedom or more: every pair of columns is declared dependent, whatever the data *)
Lemma p_small_many k s : (140 <= k)%nat -> exists p, num_map round4 (num_map (fun d => 2 * d) (chi2_pdf s k)) = Fin p /\ (p < Q2Qc (5 # 100))%Qc.
Proof.
  intros K. destruct k as [|[|[|k]]]; try lia. cbn [chi2_pdf]. destruct (Rlt_dec s 0); [|destruct (Req_EM_T s 0)]; cbn [num_map]; (eexists; split; [reflexivity|]); apply below_05.
  - lra.
  - lra.
  - pose proof (density_peak (S (S (S k))) s ltac:(lia) ltac:(lra)). pose proof (peak_many (S (S (S k))) K). lra.
Qed.
Theorem C100_two : forall t x y ax ay, table_ok t -> t_rows t <> [] -> consecutive t x ax -> consecutive t y ay -> (140 <= (snd ax - 1) * (snd ay - 1))%nat ->
  exists p, mi_test p_rounded t [x; y] = Ok (Fin p) /\ (p < Q2Qc (5 # 100))%Qc.
Proof. intros t x y ax ay W NE Cx Cy K. rewrite (p_value2 t x y ax ay) by assumption. destruct (p_small_many _ (2 * INR (length (t_rows t)) * smoothed_mi eps t x y ax ay) K) as (p & -> & L). eauto. Qed.
Print Assumptions C100_two.
Theorem C100_three : forall t x y z ax ay az, table_ok t -> t_rows t <> [] -> consecutive t x ax -> consecutive t y ay -> consecutive t z az -> (140 <= (snd ax - 1) * (snd ay - 1) * snd az)%nat ->
  exists p, mi_test p_rounded t [x; y; z] = Ok (Fin p) /\ (p < Q2Qc (5 # 100))%Qc.
Proof. intros t x y z ax ay az W NE Cx Cy Cz K. rewrite (p_value3 t x y z ax ay az) by assumption. destruct (p_small_many _ (2 * INR (length (t_rows t)) * smoothed_cmi eps t x y z ax ay az) K) as (p & -> & L). eauto. Qed.
Print Assumptions C100_three.
(** 13 x 13 levels, every combination once *)
Definition exWide : table := mkT 2 (flat_map (fun i => map (fun j => [NInt i; NInt j]) (seq 0 13)) (seq 0 13)).
Example C100_nonvacuous : table_ok exWide /\ t_rows exWide <> [] /\ consecutive exWide (NInt 0) (0, 13)%nat /\ consecutive exWide (NInt 1) (0, 13)%nat /\ (140 <= (13 - 1) * (13 - 1))%nat.
Proof.
  assert (I : forall r, In r (t_rows exWide) <-> exists i j, (i < 13)%nat /\ (j < 13)%nat /\ r = [NInt i; NInt j]).
  { intros r. unfold exWide. cbn [t_rows]. rewrite in_flat_map. split.
    - intros (i & Hi & H). apply in_map_iff in H as (j & <- & Hj). apply in_seq in Hi, Hj. exists i, j. split; [lia|]. split; [lia|reflexivity].
    - intros (i & j & Hi & Hj & ->). exists i. split; [apply in_seq; lia|]. apply in_map_iff. exists j. split; [reflexivity|apply in_seq; lia]. }
  assert (C : forall c, (c < 2)%nat -> consecutive exWide (NInt c) (0, 13)%nat).
  { intros c Hc. exists c. split; [reflexivity|]. split; [exact Hc|]. intros x. cbn [fst snd]. split.
    - intros [r Hr]. unfold cell in Hr. destruct (nth_error (t_rows exWide) r) as [row|] eqn:Er; [|discriminate]. apply nth_error_In, I in Er as (i & j & Hi & Hj & ->). destruct c as [|[|c]]; [| |lia]; cbn in Hr; injection Hr as <-; eexists; (split; [reflexivity|lia]).
    - intros (n & -> & L). assert (J : In [NInt n; NInt n] (t_rows exWide)) by (apply I; exists n, n; split; [lia|]; split; [lia|reflexivity]). apply In_nth_error in J as [r Hr]. exists r. unfold cell. rewrite Hr. destruct c as [|[|c]]; [reflexivity|reflexivity|lia]. }
  split; [intros r Hr; apply I in Hr as (i & j & _ & _ & ->); reflexivity|]. split; [discriminate|]. split; [apply C; lia|]. split; [apply C; lia|]. cbn. lia.
Qed.

(** ** C101 *)
(** for dependent columns the p-value is twice the chi-square density at 2 N m *)
Definition statistic (t : table) (x y : name) (ax ay : nat * nat) : R := 2 * INR (length (t_rows t)) * smoothed_mi (/ 10 ^ 7) t x y ax ay.
Theorem C101_value : forall t x y ax ay, table_ok t -> t_rows t <> [] -> consecutive t x ax -> consecutive t y ay -> (1 <= (snd ax - 1) * (snd ay - 1))%nat -> ~ exactly_independent t x y ->
  0 < statistic t x y ax ay /\ exists p, mi_test p_rounded t [x; y] = Ok (Fin p) /\ Rabs (qr p - 2 * chi2_density ((snd ax - 1) * (snd ay - 1)) (statistic t x y ax ay)) <= / 20000.
Proof.
  intros t x y ax ay W NE Cx Cy K D. unfold statistic. assert (Ee : / 10 ^ 7 = eps) by (unfold eps; f_equal; lra). rewrite Ee. rewrite (p_value2 t x y ax ay) by assumption.
  destruct (smoothed_gibbs t x y ax ay W NE Cx Cy eps eps_pos) as [P Q]. pose proof (N_pos t NE) as HN.
  assert (0 < smoothed_mi eps t x y ax ay). { destruct P as [P|P]; [exact P|]. exfalso. apply D. apply (independent_freq t x y ax ay); try assumption. apply Q. lra. }
  set (s := 2 * INR (length (t_rows t)) * smoothed_mi eps t x y ax ay). assert (S : 0 < s) by (unfold s; nra). split; [exact S|]. destruct ((snd ax - 1) * (snd ay - 1))%nat as [|k]; [lia|]. cbn [chi2_pdf].
  destruct (Rlt_dec s 0); [lra|]. destruct (Req_EM_T s 0); [lra|]. cbn [num_map]. eexists. split; [reflexivity|]. apply round4_spec.
Qed.
Print Assumptions C101_value.
(** three degrees of freedom or more: below k - 2 a larger statistic has a larger p-value, from k - 2 on a smaller one *)
Theorem C101_unimodal : forall t x y ax ay t' x' y' ax' ay' k, table_ok t -> t_rows t <> [] -> consecutive t x ax -> consecutive t y ay -> table_ok t' -> t_rows t' <> [] -> consecutive t' x' ax' -> consecutive t' y' ay' ->
  ((snd ax - 1) * (snd ay - 1) = k)%nat -> ((snd ax' - 1) * (snd ay' - 1) = k)%nat -> (3 <= k)%nat -> statistic t x y ax ay < statistic t' x' y' ax' ay' ->
  exists p p', mi_test p_rounded t [x; y] = Ok (Fin p) /\ mi_test p_rounded t' [x'; y'] = Ok (Fin p') /\
    (statistic t' x' y' ax' ay' <= INR k - 2 -> (p <= p')%Qc) /\ (INR k - 2 <= statistic t x y ax ay -> (p' <= p)%Qc).
Proof.
  intros t x y ax ay t' x' y' ax' ay' k W NE Cx Cy W' NE' Cx' Cy' K K' L3. unfold statistic. assert (Ee : / 10 ^ 7 = eps) by (unfold eps; f_equal; lra). rewrite Ee. rewrite (p_value2 t x y ax ay), (p_value2 t' x' y' ax' ay') by assumption. rewrite K, K'.
  destruct (smoothed_gibbs t x y ax ay W NE Cx Cy eps eps_pos) as [P _]. pose proof (N_pos t NE) as HN. set (s := 2 * INR (length (t_rows t)) * smoothed_mi eps t x y ax ay). set (s' := 2 * INR (length (t_rows t')) * smoothed_mi eps t' x' y' ax' ay').
  assert (S0 : 0 <= s) by (unfold s; nra). intros LS. clearbody s s'. assert (K3 : 3 <= INR k) by (replace 3 with (INR 3) by (cbn; lra); now apply le_INR).
  assert (V : forall s, 0 <= s -> chi2_pdf s k = Fin (if Req_EM_T s 0 then 0 else chi2_density k s)). { intros u Hu. destruct k as [|[|[|k]]]; try lia. cbn [chi2_pdf]. destruct (Rlt_dec u 0); [lra|]. destruct (Req_EM_T u 0); reflexivity. }
  rewrite (V s S0), (V s') by lra. cbn [num_map]. set (d := if Req_EM_T s 0 then 0 else chi2_density k s). set (d' := if Req_EM_T s' 0 then 0 else chi2_density k s').
  exists (round4 (2 * d)), (round4 (2 * d')). split; [reflexivity|]. split; [reflexivity|].
  assert (D : (s' <= INR k - 2 -> d < d') /\ (INR k - 2 <= s -> d' < d)).
  { unfold d, d'. destruct (Req_EM_T s' 0); [lra|]. destruct (Req_EM_T s 0) as [-> |]; split; intros B.
    - apply density_pos. lia.
    - lra.
    - apply density_rise; lra || assumption.
    - apply density_fall; lra || assumption. }
  split; intros B; apply round4_mono; destruct D as [D1 D2]; (specialize (D1 B) || specialize (D2 B)); lra.
Qed.
Print Assumptions C101_unimodal.
Example C101_nonvacuous : exists s s', s = statistic exFree (NInt 0) (NInt 1) (0, 2)%nat (0, 4)%nat /\ s' = statistic exTied (NInt 0) (NInt 1) (0, 2)%nat (0, 4)%nat /\ s < s'.
Proof.
  exists (statistic exFree (NInt 0) (NInt 1) (0, 2)%nat (0, 4)%nat), (statistic exTied (NInt 0) (NInt 1) (0, 2)%nat (0, 4)%nat). split; [reflexivity|]. split; [reflexivity|]. unfold statistic.
  assert (Ee : / 10 ^ 7 = eps) by (unfold eps; f_equal; lra). rewrite Ee. destruct C99_reversed_refuted as (I & D & _).
  destruct (ex_consecutive exTied (or_intror eq_refl)) as [C0 C1]. destruct (ex_consecutive exFree (or_introl eq_refl)) as [D0 D1].
  replace (smoothed_mi eps exFree (NInt 0) (NInt 1) (0, 2)%nat (0, 4)%nat) with 0.
  2:{ symmetry. apply (smoothed_gibbs exFree (NInt 0) (NInt 1) (0, 2)%nat (0, 4)%nat); [apply ex_ok; auto|discriminate|exact D0|exact D1|apply eps_pos|]. apply (independent_freq exFree (NInt 0) (NInt 1)); [discriminate|exact D0|exact D1|exact I]. }
  destruct (smoothed_gibbs exTied (NInt 0) (NInt 1) (0, 2)%nat (0, 4)%nat (ex_ok _ (or_intror eq_refl)) ltac:(discriminate) C0 C1 eps eps_pos) as [P Q]. 
  assert (0 < smoothed_mi eps exTied (NInt 0) (NInt 1) (0, 2)%nat (0, 4)%nat). { destruct P as [P|P]; [exact P|]. exfalso. apply D. apply (independent_freq exTied (NInt 0) (NInt 1) (0, 2)%nat (0, 4)%nat); [discriminate|exact C0|exact C1|]. apply Q. lra. }
  change (length (t_rows exTied)) with 8%nat. cbn [INR]. lra.
Qed.
