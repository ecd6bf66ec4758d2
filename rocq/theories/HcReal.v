(** HcReal.v -- hill climbing on data: the searches of StructScore.v with the numbers of MiReal.v. *)
From Coq Require Import Reals.
From Verif Require Import Py Num BayesNet SpecFactor Graph SpecGraph GraphTheory GraphNet Data SpecLearn SpecConstraint ParamLearn SpecScore StructScore StructFacts SpecClimb StructClimb
  SpecData DataUtils DataFacts HistFacts MiFacts SpecReal MiReal RealFacts RealTable RealMi RealSym RealScore RealEnt.
From Coq Require Import Lra Lia.
Open Scope nat_scope.

(** hill_climbing.py:142-144, 161-163, 180-188: the score the searches use is
    [mutual_information(data[:,cols])] (independence_tests.py:31-101), a number or nan *)
Definition data_score (t : table) : score :=
  mutual_information (fun bins h => match mi_score bins h with Fin q => Some q | _ => None end) t.

Lemma mi_Fin t cols q : mutual_information mi_score t cols = Ok (Fin q) -> data_score t cols = Ok (Some q).
Proof.
  unfold data_score, mutual_information. destruct (select t cols) as [cs|e]; cbn [bind]; [|discriminate].
  destruct cs as [|c1 [|c2 [|c3 cs]]]; [discriminate| | |].
  - destruct (hist _ _ _) as [h|e]; cbn [bind]; [|discriminate]. intros E. match type of E with Ok ?a = Ok ?b => assert (Q : a = b) by congruence; clear E; now rewrite Q end.
  - destruct (hist _ _ _) as [h|e]; cbn [bind]; [|discriminate]. intros E. match type of E with Ok ?a = Ok ?b => assert (Q : a = b) by congruence; clear E; now rewrite Q end.
  - destruct (merge _ _) as [m|e]; cbn [bind]; [|discriminate]. destruct (hist _ _ _) as [h|e]; cbn [bind]; [|discriminate]. intros E. match type of E with Ok ?a = Ok ?b => assert (Q : a = b) by congruence; clear E; now rewrite Q end.
Qed.
Lemma nunique_pos l : l <> [] -> 0 < nunique l.
Proof.
  intros N. unfold nunique. destruct l as [|x l]; [now destruct N|]. assert (I : In x (nodup Nat.eq_dec (x :: l))) by (apply nodup_In; now left).
  destruct (nodup Nat.eq_dec (x :: l)); [destruct I|cbn [length]; lia].
Qed.
(** columns of one-digit integers never make it raise *)
Lemma data_score_safe t : table_ok t -> t_rows t <> [] -> (forall i, i < t_ncols t -> one_digit t (NInt i)) -> safe (col_nodes t) (data_score t).
Proof.
  intros W NE OD cols NC IC.
  assert (OC : forall v, In v cols -> one_digit t v).
  { intros v Hv. apply IC in Hv. unfold col_nodes in Hv. apply in_map_iff in Hv as (i & <- & Hi). apply in_seq in Hi. apply OD. lia. }
  unfold data_score, mutual_information. rewrite (select_ok t cols W) by (intros v Hv; now apply one_digit_coded, OC). cbn [bind].
  assert (NI : forall v, In v cols -> ints t v <> [] /\ length (ints t v) = length (t_rows t) /\ forall x, In x (ints t v) -> x < 10).
  { intros v Hv. destruct (ints_ok t v W (one_digit_coded t v (OC v Hv))) as (_ & L & _). split; [|split; [exact L|]].
    - intros Z. rewrite Z in L. destruct (t_rows t); [now destruct NE|discriminate].
    - intros x Hx. apply (In_ints t v x W (one_digit_coded t v (OC v Hv))) in Hx as (i & -> & (r & Hr)). destruct (OC _ Hv) as (j & Ej & _ & D). injection Ej as <-. destruct (D r _ Hr) as (n & En & Ln). injection En as <-. exact Ln. }
  destruct cols as [|c1 [|c2 [|c3 cols]]]; [now destruct NC| | |]; cbn [map].
  - destruct (hist_succeeds (length (t_rows t)) [nunique (ints t c1)] [ints t c1]) as (h & ->); [|cbn [bind]; eauto].
    destruct (NI c1 (or_introl eq_refl)) as (N1 & _). apply nunique_pos in N1. cbn [existsb]. destruct (nunique (ints t c1)); [lia|reflexivity].
  - destruct (hist_succeeds (length (t_rows t)) [nunique (ints t c1); nunique (ints t c2)] [ints t c1; ints t c2]) as (h & ->); [|cbn [bind]; eauto].
    destruct (NI c1 (or_introl eq_refl)) as (N1 & _). destruct (NI c2 (or_intror (or_introl eq_refl))) as (N2 & _). apply nunique_pos in N1, N2.
    cbn [existsb]. destruct (nunique (ints t c1)); [lia|]. destruct (nunique (ints t c2)); [lia|reflexivity].
  - destruct (merge_ok (length (t_rows t)) (ints t c2 :: ints t c3 :: map (ints t) cols)) as (m & Em & _); [discriminate| |].
    + intros c Hc. change (In c (map (ints t) (c2 :: c3 :: cols))) in Hc. apply in_map_iff in Hc as (v & <- & Hv). destruct (NI v (or_intror Hv)) as (_ & L & D). auto.
    + rewrite Em. cbn [bind firstn]. destruct (hist_succeeds (length (t_rows t)) [nunique (ints t c1); nunique (ints t c2)] [ints t c1; m]) as (h & ->); [|cbn [bind]; eauto].
      destruct (NI c1 (or_introl eq_refl)) as (N1 & _). destruct (NI c2 (or_intror (or_introl eq_refl))) as (N2 & _). apply nunique_pos in N1, N2.
      cbn [existsb]. destruct (nunique (ints t c1)); [lia|]. destruct (nunique (ints t c2)); [lia|reflexivity].
Qed.

(** ** numerics: ln 3 *)
Open Scope R_scope.
Lemma exp_double_le x r r' : exp x <= r -> r * r <= r' -> exp (x + x) <= r'.
Proof. intros H L. rewrite exp_plus. pose proof (exp_pos x). nra. Qed.
Lemma exp_double_ge x r r' : 0 <= r -> r <= exp x -> r' <= r * r -> r' <= exp (x + x).
Proof. intros P H L. rewrite exp_plus. pose proof (exp_pos x). nra. Qed.
Lemma exp_109857 : exp (109857 / 100000) <= 3.
Proof.
  assert (H0 : exp (109857 / 6553600000) <= (10000167631288982 / 10000000000000000)).
  { pose proof (exp_ineq1_le (- (109857 / 6553600000))) as E. rewrite exp_Ropp in E. pose proof (exp_pos (109857 / 6553600000)) as P.
    set (g := exp (109857 / 6553600000)) in *. assert (Q : g * (1 - 109857 / 6553600000) <= 1) by (apply Rle_trans with (g * / g); [apply Rmult_le_compat_l; lra|rewrite Rinv_r; lra]). lra. }
  assert (H1 : exp (109857 / 3276800000) <= (10000335265387989 / 10000000000000000)) by (replace (109857 / 3276800000) with (109857 / 6553600000 + 109857 / 6553600000) by lra; apply (exp_double_le _ _ _ H0); lra).
  assert (H2 : exp (109857 / 1638400000) <= (10000670542016267 / 10000000000000000)) by (replace (109857 / 1638400000) with (109857 / 3276800000 + 109857 / 3276800000) by lra; apply (exp_double_le _ _ _ H1); lra).
  assert (H3 : exp (109857 / 819200000) <= (10001341128995194 / 10000000000000000)) by (replace (109857 / 819200000) with (109857 / 1638400000 + 109857 / 1638400000) by lra; apply (exp_double_le _ _ _ H2); lra).
  assert (H4 : exp (109857 / 409600000) <= (10002682437853087 / 10000000000000000)) by (replace (109857 / 409600000) with (109857 / 819200000 + 109857 / 819200000) by lra; apply (exp_double_le _ _ _ H3); lra).
  assert (H5 : exp (109857 / 204800000) <= (10005365595253458 / 10000000000000000)) by (replace (109857 / 204800000) with (109857 / 409600000 + 109857 / 409600000) by lra; apply (exp_double_le _ _ _ H4); lra).
  assert (H6 : exp (109857 / 102400000) <= (10010734069468159 / 10000000000000000)) by (replace (109857 / 102400000) with (109857 / 204800000 + 109857 / 204800000) by lra; apply (exp_double_le _ _ _ H5); lra).
  assert (H7 : exp (109857 / 51200000) <= (10021479660961053 / 10000000000000000)) by (replace (109857 / 51200000) with (109857 / 102400000 + 109857 / 102400000) by lra; apply (exp_double_le _ _ _ H6); lra).
  assert (H8 : exp (109857 / 25600000) <= (10043005459505607 / 10000000000000000)) by (replace (109857 / 25600000) with (109857 / 51200000 + 109857 / 51200000) by lra; apply (exp_double_le _ _ _ H7); lra).
  assert (H9 : exp (109857 / 12800000) <= (10086195865965943 / 10000000000000000)) by (replace (109857 / 12800000) with (109857 / 25600000 + 109857 / 25600000) by lra; apply (exp_double_le _ _ _ H8); lra).
  assert (H10 : exp (109857 / 6400000) <= (10173134704662848 / 10000000000000000)) by (replace (109857 / 6400000) with (109857 / 12800000 + 109857 / 12800000) by lra; apply (exp_double_le _ _ _ H9); lra).
  assert (H11 : exp (109857 / 3200000) <= (10349266971921566 / 10000000000000000)) by (replace (109857 / 3200000) with (109857 / 6400000 + 109857 / 6400000) by lra; apply (exp_double_le _ _ _ H10); lra).
  assert (H12 : exp (109857 / 1600000) <= (10710732685610658 / 10000000000000000)) by (replace (109857 / 1600000) with (109857 / 3200000 + 109857 / 3200000) by lra; apply (exp_double_le _ _ _ H11); lra).
  assert (H13 : exp (109857 / 800000) <= (11471979466260850 / 10000000000000000)) by (replace (109857 / 800000) with (109857 / 1600000 + 109857 / 1600000) by lra; apply (exp_double_le _ _ _ H12); lra).
  assert (H14 : exp (109857 / 400000) <= (13160631287431058 / 10000000000000000)) by (replace (109857 / 400000) with (109857 / 800000 + 109857 / 800000) by lra; apply (exp_double_le _ _ _ H13); lra).
  assert (H15 : exp (109857 / 200000) <= (17320221588370927 / 10000000000000000)) by (replace (109857 / 200000) with (109857 / 400000 + 109857 / 400000) by lra; apply (exp_double_le _ _ _ H14); lra).
  assert (H16 : exp (109857 / 100000) <= (29999007587027032 / 10000000000000000)) by (replace (109857 / 100000) with (109857 / 200000 + 109857 / 200000) by lra; apply (exp_double_le _ _ _ H15); lra).
  lra.
Qed.
Lemma exp_109863 : 3 <= exp (109863 / 100000).
Proof.
  assert (H0 : (10000167637634277 / 10000000000000000) <= exp (109863 / 6553600000)).
  { pose proof (exp_ineq1_le (109863 / 6553600000)) as E. lra. }
  assert (H1 : (10000335278078791 / 10000000000000000) <= exp (109863 / 3276800000)) by (replace (109863 / 3276800000) with (109863 / 6553600000 + 109863 / 6553600000) by lra; apply (exp_double_ge _ (10000167637634277 / 10000000000000000)); [lra|exact H0|lra]).
  assert (H2 : (10000670567398721 / 10000000000000000) <= exp (109863 / 1638400000)) by (replace (109863 / 1638400000) with (109863 / 3276800000 + 109863 / 3276800000) by lra; apply (exp_double_ge _ (10000335278078791 / 10000000000000000)); [lra|exact H1|lra]).
  assert (H3 : (10001341179763505 / 10000000000000000) <= exp (109863 / 819200000)) by (replace (109863 / 819200000) with (109863 / 1638400000 + 109863 / 1638400000) by lra; apply (exp_double_ge _ (10000670567398721 / 10000000000000000)); [lra|exact H2|lra]).
  assert (H4 : (10002682539403325 / 10000000000000000) <= exp (109863 / 409600000)) by (replace (109863 / 409600000) with (109863 / 819200000 + 109863 / 819200000) by lra; apply (exp_double_ge _ (10001341179763505 / 10000000000000000)); [lra|exact H3|lra]).
  assert (H5 : (10005365798408415 / 10000000000000000) <= exp (109863 / 204800000)) by (replace (109863 / 204800000) with (109863 / 409600000 + 109863 / 409600000) by lra; apply (exp_double_ge _ (10002682539403325 / 10000000000000000)); [lra|exact H4|lra]).
  assert (H6 : (10010734475996085 / 10000000000000000) <= exp (109863 / 102400000)) by (replace (109863 / 102400000) with (109863 / 204800000 + 109863 / 204800000) by lra; apply (exp_double_ge _ (10005365798408415 / 10000000000000000)); [lra|exact H5|lra]).
  assert (H7 : (10021480474889661 / 10000000000000000) <= exp (109863 / 51200000)) by (replace (109863 / 51200000) with (109863 / 102400000 + 109863 / 102400000) by lra; apply (exp_double_ge _ (10010734475996085 / 10000000000000000)); [lra|exact H6|lra]).
  assert (H8 : (10043007090859470 / 10000000000000000) <= exp (109863 / 25600000)) by (replace (109863 / 25600000) with (109863 / 51200000 + 109863 / 51200000) by lra; apply (exp_double_ge _ (10021480474889661 / 10000000000000000)); [lra|exact H7|lra]).
  assert (H9 : (10086199142705359 / 10000000000000000) <= exp (109863 / 12800000)) by (replace (109863 / 12800000) with (109863 / 25600000 + 109863 / 25600000) by lra; apply (exp_double_ge _ (10043007090859470 / 10000000000000000)); [lra|exact H8|lra]).
  assert (H10 : (10173141314631031 / 10000000000000000) <= exp (109863 / 6400000)) by (replace (109863 / 6400000) with (109863 / 12800000 + 109863 / 12800000) by lra; apply (exp_double_ge _ (10086199142705359 / 10000000000000000)); [lra|exact H9|lra]).
  assert (H11 : (10349280420745278 / 10000000000000000) <= exp (109863 / 3200000)) by (replace (109863 / 3200000) with (109863 / 6400000 + 109863 / 6400000) by lra; apply (exp_double_ge _ (10173141314631031 / 10000000000000000)); [lra|exact H10|lra]).
  assert (H12 : (10710760522722155 / 10000000000000000) <= exp (109863 / 1600000)) by (replace (109863 / 1600000) with (109863 / 3200000 + 109863 / 3200000) by lra; apply (exp_double_ge _ (10349280420745278 / 10000000000000000)); [lra|exact H11|lra]).
  assert (H13 : (11472039097510337 / 10000000000000000) <= exp (109863 / 800000)) by (replace (109863 / 800000) with (109863 / 1600000 + 109863 / 1600000) by lra; apply (exp_double_ge _ (10710760522722155 / 10000000000000000)); [lra|exact H12|lra]).
  assert (H14 : (13160768105480578 / 10000000000000000) <= exp (109863 / 400000)) by (replace (109863 / 400000) with (109863 / 800000 + 109863 / 800000) by lra; apply (exp_double_ge _ (11472039097510337 / 10000000000000000)); [lra|exact H13|lra]).
  assert (H15 : (17320581712623484 / 10000000000000000) <= exp (109863 / 200000)) by (replace (109863 / 200000) with (109863 / 400000 + 109863 / 400000) by lra; apply (exp_double_ge _ (13160768105480578 / 10000000000000000)); [lra|exact H14|lra]).
  assert (H16 : (30000255086366706 / 10000000000000000) <= exp (109863 / 100000)) by (replace (109863 / 100000) with (109863 / 200000 + 109863 / 200000) by lra; apply (exp_double_ge _ (17320581712623484 / 10000000000000000)); [lra|exact H15|lra]).
  lra.
Qed.
Lemma ln3_bounds : 109857 / 100000 <= ln 3 <= 109863 / 100000.
Proof.
  split.
  - rewrite <- (ln_exp (109857 / 100000)). apply ln_le; [apply exp_pos|apply exp_109857].
  - rewrite <- (ln_exp (109863 / 100000)). apply ln_le; [lra|apply exp_109863].
Qed.
Lemma round4_near x z : Rabs (x * 10000 - IZR z) < / 2 -> round4 x = Q2Qc (z # 10000).
Proof.
  intros H. unfold round4. do 2 f_equal. pose proof (round_int_spec (x * 10000)) as S. apply abs_le_inv in S. apply Rabs_def2 in H.
  assert (-1 < IZR (round_int (x * 10000) - z) < 1) as [A B] by (rewrite minus_IZR; lra). apply lt_IZR in A, B. lia.
Qed.
