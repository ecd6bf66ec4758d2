(** Properties_Real5.v -- theorems C128: which edges hill climbing finds in data, over the reals.
    Specification: SpecReal.v (entropy, exact independence), SpecScore.v, SpecGraph.v. *)
From Coq Require Import Reals.
From Verif Require Import Py Num BayesNet SpecFactor Graph SpecGraph GraphTheory GraphNet GraphCheck Data SpecLearn SpecConstraint ParamLearn SpecScore StructScore StructFacts SpecClimb StructClimb
  SpecData DataUtils DataFacts HistFacts MiFacts SpecReal MiReal RealFacts RealTable RealMi RealSym RealScore RealEnt HcReal Examples
  Properties_Score Properties_Data Properties_Data2 Properties_Real Properties_Real3 Properties_Climb.
From Coq Require Import Lra Lia.
Open Scope nat_scope.

(** ** C128 *)
(** any score: if giving v a first parent u lowers it, the network returned has an edge *)
Theorem C128_an_edge : forall o t mi metric max_iter r u v x y bn, good o -> table_ok t -> t_rows t <> [] ->
  In u (map NInt (seq 0 (t_ncols t))) -> In v (map NInt (seq 0 (t_ncols t))) -> u <> v -> allowed r u v ->
  mi [v] = Ok (Some x) -> mi [v; u] = Ok (Some y) -> (y < x)%Qc ->
  hc o t mi metric max_iter false r = Ok bn -> exists a b, edge (bn_E bn) a b.
Proof.
  intros o t mi metric max_iter r u v x y bn G T NR Hu Hv N Al Ex Ey L E. unfold hc, hc_run in E.
  destruct (fit_edgeless_ok o t metric G T NR) as (bn0 & E0 & N0). rewrite E0 in E. cbn [bind] in E. rewrite N0 in E.
  destruct (hc_loop (S max_iter) mi (length (t_rows t)) false r (col_nodes t) (start t)) as [[log g]|e] eqn:El; cbn [bind snd] in E; [|discriminate].
  assert (SG : search_graph (col_nodes t) g).
  { pose proof (hc_loop_ok mi (length (t_rows t)) false r (col_nodes t) (S max_iter) (start t) (search_start t)) as H. rewrite El in H. apply H. }
  destruct (result_ok _ _ SG) as (bn' & Eb & _ & Ee & _). assert (bn' = bn) as -> by congruence. rewrite Ee.
  apply (hc_loop_nonempty mi (length (t_rows t)) r t max_iter log g u v x y); auto.
  destruct (t_rows t); [now destruct NR|cbn [length]; lia].
Qed.
Print Assumptions C128_an_edge.
(** hc on data of one-digit integers always returns a network *)
Theorem C128_returns : forall o t metric max_iter debug r, good o -> table_ok t -> t_rows t <> [] ->
  (forall i, i < t_ncols t -> one_digit t (NInt i)) -> exists bn, hc o t (data_score t) metric max_iter debug r = Ok bn.
Proof.
  intros o t metric max_iter debug r G T NR OD. destruct (C36_hc o t (data_score t) metric max_iter debug r G T NR) as [(e & cols & E & _)|(bn & _ & _ & E & _)]; [exfalso|eauto].
  unfold hc, hc_run in E. destruct (fit_edgeless_ok o t metric G T NR) as (bn0 & E0 & N0). rewrite E0 in E. cbn [bind] in E. rewrite N0 in E.
  destruct (hc_loop_safe (data_score t) (length (t_rows t)) debug r (col_nodes t) (data_score_safe t T NR OD) (S max_iter) (start t) (search_start t)) as ([log g] & El).
  rewrite El in E. cbn [bind snd] in E. pose proof (hc_loop_ok (data_score t) (length (t_rows t)) debug r (col_nodes t) (S max_iter) (start t) (search_start t)) as H. rewrite El in H.
  destruct (result_ok _ _ (proj1 H)) as (bn' & Eb & _). congruence.
Qed.
Print Assumptions C128_returns.
Lemma score1 t v av L : table_ok t -> t_rows t <> [] -> consecutive t v av -> column_levels t v L ->
  exists q, data_score t [v] = Ok (Some q) /\ (Rabs (qr q - plugin_entropy t v L) <= / 20000)%R.
Proof.
  intros T NR C CL. destruct (C104_entropy t v L T NR (consecutive_coded _ _ _ C) CL) as (r & _ & E & [->|(q & -> & B)] & _ & K).
  - destruct K; [left; eauto|reflexivity].
  - exists q. split; [now apply mi_Fin|exact B].
Qed.
Lemma round4_0 : round4 0 = 0%Qc.
Proof. replace 0%R with (IZR 0 / 10000)%R by lra. rewrite round4_frac. apply Qc_is_canon. reflexivity. Qed.
Lemma score2 t v u av au : table_ok t -> t_rows t <> [] -> consecutive t v av -> consecutive t u au ->
  data_score t [v; u] = Ok (Some (round4 (smoothed_mi eps t v u av au))).
Proof.
  intros T NR Cv Cu. apply mi_Fin. assert (F : Forall2 (consecutive t) [v; u] [av; au]) by (constructor; [exact Cv|constructor; [exact Cu|constructor]]).
  rewrite (C53_mutual_information _ mi_score t [v; u] [av; au] T NR F) by (cbn; lia). unfold mi_score. cbn [map]. now rewrite hsum_contingency2, mi2_freq.
Qed.
(** if some column v is exactly independent of some other column u in the data and not (nearly) constant, hc returns a
    network with an edge: unrelated columns are joined *)
Theorem C128_unrelated_columns_joined_refuted : forall o t metric max_iter u v au av L, good o -> table_ok t -> t_rows t <> [] ->
  (forall i, i < t_ncols t -> one_digit t (NInt i)) ->
  consecutive t u au -> consecutive t v av -> u <> v -> exactly_independent t v u -> column_levels t v L -> (/ 20000 < plugin_entropy t v L)%R ->
  exists bn, hc o t (data_score t) metric max_iter false None = Ok bn /\ exists a b, edge (bn_E bn) a b.
Proof.
  intros o t metric max_iter u v au av L G T NR OD Cu Cv N I CL H. destruct (C128_returns o t metric max_iter false None G T NR OD) as (bn & E). exists bn. split; [exact E|].
  destruct (score1 t v av L T NR Cv CL) as (q & Eq & B). pose proof (score2 t v u av au T NR Cv Cu) as E2.
  assert (Z : smoothed_mi eps t v u av au = 0%R).
  { destruct (smoothed_gibbs t v u av au T NR Cv Cu eps eps_pos) as [_ Q]. apply Q. now apply independent_freq. }
  rewrite Z, round4_0 in E2.
  assert (col : forall w aw, consecutive t w aw -> In w (map NInt (seq 0 (t_ncols t)))) by (intros w aw (i & -> & Hi & _); apply in_map, in_seq; lia).
  apply (C128_an_edge o t (data_score t) metric max_iter None u v q 0%Qc bn G T NR (col u au Cu) (col v av Cv) N Logic.I Eq E2); [|exact E].
  apply qr_lt. rewrite qr_0. apply abs_le_inv in B. lra.
Qed.
Print Assumptions C128_unrelated_columns_joined_refuted.
(** the first edge u -> v: no other parent of v has a smaller mutual information with v *)
Theorem C128_weakest_parent_refuted : forall o t metric max_iter debug g0 k u v log g, good o -> table_ok t -> t_rows t <> [] ->
  hc_run o t (data_score t) metric max_iter debug None = Ok ((g0, (k, (u, v))) :: log, g) ->
  k = Addition /\ u <> v /\
  forall w ru rw, In w (map NInt (seq 0 (t_ncols t))) -> w <> v -> mutual_information mi_score t [v; u] = Ok (Fin ru) -> mutual_information mi_score t [v; w] = Ok (Fin rw) -> (ru <= rw)%Qc.
Proof.
  intros o t metric max_iter debug g0 k u v log g G T NR E. pose proof (hc_run_ok o t (data_score t) metric max_iter debug None G T NR) as H. rewrite E in H. destruct H as [_ C].
  inversion C; subst. match goal with X : hc_chosen _ _ _ _ _ _ |- _ => destruct X as (Lg & d & Vd & Pd & Best) end.
  assert (K : k = Addition).
  { destruct k; [reflexivity| |]; destruct Lg as (_ & _ & Lg); [apply edgeless_edge in Lg; destruct Lg|destruct Lg as [Lg _]; apply edgeless_edge in Lg; destruct Lg]. }
  subst k. split; [reflexivity|]. destruct Lg as (Hu & Hv & Nuv & _). split; [exact Nuv|]. intros w ru rw Hw Nw Eu Ew.
  inversion Vd; subst. rewrite (start_parents t v Hv) in *. match goal with X : Some [] = Some pv |- _ => injection X as <- end. cbn [app] in *.
  apply mi_Fin in Eu, Ew. assert (y = ru) as -> by congruence.
  assert (Gw : gains (data_score t) (length (t_rows t)) (g_p (start t)) (Addition, (w, v)) (nQc (length (t_rows t)) * (x - rw))%Qc) by (apply gains_add with []; [now apply start_parents|assumption|exact Ew]).
  pose proof (Best _ _ (first_legal t None w v Hw Hv Nw Logic.I) Gw) as B.
  assert (P : (0 < nQc (length (t_rows t)))%Qc) by (apply nQc_pos; destruct (t_rows t); [now destruct NR|cbn [length]; lia]).
  revert B P. generalize (nQc (length (t_rows t))). intros n B P. destruct (Qclt_le_dec rw ru) as [Lt|Le]; [exfalso|exact Le]. qcnra.
Qed.
Print Assumptions C128_weakest_parent_refuted.
(** in particular, when some column is exactly independent of v, so is (up to 1e-4) the parent that v gets first *)
Theorem C128_prefers_unrelated_refuted : forall o t metric max_iter debug g0 k u v log g w au av aw, good o -> table_ok t -> t_rows t <> [] ->
  hc_run o t (data_score t) metric max_iter debug None = Ok ((g0, (k, (u, v))) :: log, g) ->
  consecutive t u au -> consecutive t v av -> consecutive t w aw -> w <> v -> exactly_independent t v w ->
  (smoothed_mi (/ 10 ^ 7) t v u av au <= / 20000)%R.
Proof.
  intros o t metric max_iter debug g0 k u v log g w au av aw G T NR E Cu Cv Cw N I.
  destruct (C128_weakest_parent_refuted o t metric max_iter debug g0 k u v log g G T NR E) as (_ & _ & B).
  destruct (C98_mutual_information t v u av au T NR Cv Cu) as (ru & _ & Eu & Bu & Pu & _). destruct (C98_mutual_information t v w av aw T NR Cv Cw) as (rw & _ & Ew & Bw & _ & Zw & _).
  assert (Iw : In w (map NInt (seq 0 (t_ncols t)))) by (destruct Cw as (i & -> & Hi & _); apply in_map, in_seq; lia).
  pose proof (B w ru rw Iw N Eu Ew) as L. assert (W0 : smoothed_mi (/ 10 ^ 7) t v w av aw = 0%R) by now apply Zw.
  assert (rw = 0%Qc) as ->.
  { pose proof (score2 t v w av aw T NR Cv Cw) as S. apply mi_Fin in Ew. assert (Ee : (/ 10 ^ 7)%R = eps) by (unfold eps; f_equal; lra). rewrite Ee in W0. rewrite W0, round4_0 in S. congruence. }
  apply qr_le in L. rewrite qr_0 in L. apply abs_le_inv in Bu. lra.
Qed.
Print Assumptions C128_prefers_unrelated_refuted.

(** the hypotheses: two bits, every combination once *)
Definition exIndep : table := mkT 2 (map (map NInt) [[0; 0]; [0; 1]; [1; 0]; [1; 1]]).
Lemma exIndep_ok : table_ok exIndep.
Proof. intros r H; cbn in H; repeat (destruct H as [<-|H]; [reflexivity|]); destruct H. Qed.
Lemma exIndep_cell r i x : i < 2 -> cell exIndep r i = Some x -> x = NInt 0 \/ x = NInt 1.
Proof. intros Hi. unfold cell. destruct i as [|[|i]]; [| |lia]; (destruct r as [|[|[|[|r]]]]; cbn; [intros [= <-]; auto..|destruct r; discriminate]). Qed.
Lemma exIndep_consecutive i : i < 2 -> consecutive exIndep (NInt i) (0, 2).
Proof.
  intros Hi. exists i. split; [reflexivity|]. split; [exact Hi|]. intros x. split.
  - intros [r Hr]. destruct (exIndep_cell r i x Hi Hr) as [-> | ->]; eexists; (split; [reflexivity|]); simpl; lia.
  - intros (n & -> & L). simpl in L. destruct n as [|[|n]]; [exists 0|exists 3|lia]; destruct i as [|[|i]]; try lia; reflexivity.
Qed.
Lemma exIndep_independent : exactly_independent exIndep (NInt 1) (NInt 0).
Proof.
  apply (independent_freq exIndep (NInt 1) (NInt 0) (0, 2) (0, 2)); [discriminate|apply exIndep_consecutive; lia|apply exIndep_consecutive; lia|]. cbn [snd]. intros i j Hi Hj. unfold freq. change (length (t_rows exIndep)) with 4.
  destruct i as [|[|i]]; [| |lia]; (destruct j as [|[|j]]; [| |lia]); cbv [lvl fst Nat.add];
  repeat match goal with |- context [rows_with exIndep ?q] => let v := eval vm_compute in (rows_with exIndep q) in change (rows_with exIndep q) with v end; cbn; lra.
Qed.
Example C128_nonvacuous : table_ok exIndep /\ t_rows exIndep <> [] /\ (forall i, i < 2 -> one_digit exIndep (NInt i)) /\ consecutive exIndep (NInt 0) (0, 2) /\ consecutive exIndep (NInt 1) (0, 2) /\
  exactly_independent exIndep (NInt 1) (NInt 0) /\ column_levels exIndep (NInt 1) [NInt 0; NInt 1] /\ (/ 20000 < plugin_entropy exIndep (NInt 1) [NInt 0; NInt 1])%R.
Proof.
  split; [apply exIndep_ok|]. split; [discriminate|]. split.
  { intros i Hi. exists i. split; [reflexivity|]. split; [exact Hi|]. intros r x Hx. destruct (exIndep_cell r i x Hi Hx) as [-> | ->]; eexists; (split; [reflexivity|lia]). }
  split; [apply exIndep_consecutive; lia|]. split; [apply exIndep_consecutive; lia|]. split; [apply exIndep_independent|]. split.
  - exists 1. split; [reflexivity|]. split; [repeat constructor; cbn; intuition congruence|]. intros u. destruct (exIndep_consecutive 1 ltac:(lia)) as (i & Ei & _ & C). injection Ei as <-. rewrite C. cbn [In fst snd]. split.
    + intros [<-|[<-|[]]]; eexists; (split; [reflexivity|lia]).
    + intros (n & -> & L). destruct n as [|[|n]]; [now left|right; now left|lia].
  - unfold plugin_entropy, freq. change (length (t_rows exIndep)) with 4. cbn [map fold_right].
    change (rows_with exIndep [(NInt 1, NInt 0)]) with 2. change (rows_with exIndep [(NInt 1, NInt 1)]) with 2.
    replace (INR 2 / INR 4)%R with (/ 2)%R by (cbn; lra). pose proof (ln_Rinv 2 ltac:(lra)) as E. rewrite E.
    assert (0 < ln 2)%R by (rewrite <- ln_1; apply ln_increasing; lra).
    assert (B : (/ 1000 <= ln 2)%R). { rewrite <- (ln_exp (/ 1000)). apply ln_le; [apply exp_pos|]. apply Rle_trans with (exp 0 + 1)%R; [|rewrite exp_0; lra]. rewrite exp_0. pose proof (exp_ineq1_le (- / 1000)) as X. rewrite exp_Ropp in X. pose proof (exp_pos (/ 1000)) as P. set (z := exp (/ 1000)) in *.
      assert (z * (1 - / 1000) <= 1)%R by (apply Rle_trans with (z * / z)%R; [apply Rmult_le_compat_l; lra|rewrite Rinv_r; lra]). lra. }
    lra.
Qed.
(** two copies of a column are not joined *)
Definition exCopy : table := mkT 2 (map (map NInt) [[0; 0]; [1; 1]; [2; 2]]).
Lemma exCopy_ok : table_ok exCopy.
Proof. intros r H; cbn in H; repeat (destruct H as [<-|H]; [reflexivity|]); destruct H. Qed.
Lemma exCopy_cell r i x : i < 2 -> cell exCopy r i = Some x -> r < 3 /\ x = NInt r.
Proof. intros Hi. unfold cell. destruct i as [|[|i]]; [| |lia]; (destruct r as [|[|[|r]]]; cbn; [intros [= <-]; split; [lia|reflexivity]..|destruct r; discriminate]). Qed.
Lemma exCopy_consecutive i : i < 2 -> consecutive exCopy (NInt i) (0, 3).
Proof.
  intros Hi. exists i. split; [reflexivity|]. split; [exact Hi|]. intros x. split.
  - intros [r Hr]. destruct (exCopy_cell r i x Hi Hr) as [L ->]. exists r. split; [reflexivity|simpl; lia].
  - intros (n & -> & L). simpl in L. exists n. unfold cell. destruct n as [|[|[|n]]]; [| | |lia]; destruct i as [|[|i]]; try lia; reflexivity.
Qed.
Lemma exCopy_levels i : i < 2 -> column_levels exCopy (NInt i) [NInt 0; NInt 1; NInt 2].
Proof.
  intros Hi. exists i. split; [reflexivity|]. split; [repeat constructor; cbn; intuition congruence|]. intros u. destruct (exCopy_consecutive i Hi) as (j & Ej & _ & C). injection Ej as <-. rewrite C. cbn [In fst snd]. split.
  - intros [<-|[<-|[<-|[]]]]; eexists; (split; [reflexivity|lia]).
  - intros (n & -> & L). destruct n as [|[|[|n]]]; [now left|right; now left|right; right; now left|lia].
Qed.
Lemma exCopy_entropy i : i < 2 -> plugin_entropy exCopy (NInt i) [NInt 0; NInt 1; NInt 2] = ln 3.
Proof.
  intros Hi. unfold plugin_entropy, freq. change (length (t_rows exCopy)) with 3. cbn [map fold_right].
  assert (F : forall k, k < 3 -> rows_with exCopy [(NInt i, NInt k)] = 1) by (intros k Hk; destruct i as [|[|i]]; [| |lia]; destruct k as [|[|[|k]]]; try lia; reflexivity).
  rewrite !F by lia. replace (INR 1 / INR 3)%R with (/ 3)%R by (cbn; lra). rewrite ln_Rinv by lra. lra.
Qed.
Lemma exCopy_mi i j : i < 2 -> j < 2 -> i <> j -> plugin_mi exCopy (NInt i) (NInt j) (0, 3) (0, 3) = ln 3.
Proof.
  intros Hi Hj N. unfold plugin_mi, freq. change (length (t_rows exCopy)) with 3. cbv [rsum snd seq map fold_right lvl fst Nat.add].
  assert (F : forall c k, c < 2 -> k < 3 -> rows_with exCopy [(NInt c, NInt k)] = 1) by (intros c k Hc Hk; destruct c as [|[|c]]; [| |lia]; destruct k as [|[|[|k]]]; try lia; reflexivity).
  assert (F2 : forall k l, k < 3 -> l < 3 -> rows_with exCopy [(NInt i, NInt k); (NInt j, NInt l)] = if k =? l then 1 else 0).
  { intros k l Hk Hl. assert (O : (i = 0 /\ j = 1) \/ (i = 1 /\ j = 0)) by lia. destruct O as [[-> ->]|[-> ->]]; destruct k as [|[|[|k]]]; try lia; destruct l as [|[|[|l]]]; try lia; reflexivity. }
  rewrite !F by lia. rewrite !F2 by lia. cbn [Nat.eqb]. replace (INR 0 / INR 3)%R with 0%R by (cbn; lra).
  replace (INR 1 / INR 3 / (INR 1 / INR 3 * (INR 1 / INR 3)))%R with 3%R by (cbn; field). replace (INR 1 / INR 3)%R with (/ 3)%R by (cbn; lra). lra.
Qed.
Theorem C128_copies_not_joined_refuted : exists t, table_ok t /\ t_rows t <> [] /\ t_ncols t = 2 /\ (forall r, cell t r 0 = cell t r 1) /\ (exists r s, cell t r 0 <> cell t s 0) /\
  forall o metric max_iter debug, good o -> exists bn, hc o t (data_score t) metric max_iter debug None = Ok bn /\ forall a b, ~ edge (bn_E bn) a b.
Proof.
  exists exCopy. split; [apply exCopy_ok|]. split; [discriminate|]. split; [reflexivity|].
  split; [intros r; destruct r as [|[|[|r]]]; try reflexivity; unfold cell; cbn; destruct r; reflexivity|]. split; [exists 0, 1; discriminate|].
  intros o metric max_iter debug G. pose proof ln3_bounds as B3.
  assert (S1 : forall i, i < 2 -> data_score exCopy [NInt i] = Ok (Some (Q2Qc (10986 # 10000)))).
  { intros i Hi. apply mi_Fin. destruct (ent1_cases exCopy i _ exCopy_ok ltac:(discriminate) (consecutive_coded _ _ _ (exCopy_consecutive i Hi)) (exCopy_levels i Hi)) as (h & Eh & _ & _ & _ & HF).
    unfold mutual_information. assert (Es : select exCopy [NInt i] = Ok [ints exCopy (NInt i)]) by (apply (select_ok exCopy [NInt i] exCopy_ok); intros v [<-|[]]; apply (consecutive_coded _ _ _ (exCopy_consecutive i Hi))).
    rewrite Es. cbn [bind map]. rewrite Eh. cbn [bind mi_score].
    rewrite HF. 2:{ intros x y Hx Hy E. pose proof (consecutive_ints exCopy (NInt i) (0, 3) exCopy_ok (exCopy_consecutive i Hi)) as H. rewrite (bin_consecutive _ _ _ _ H Hx), (bin_consecutive _ _ _ _ H Hy) in E. apply H in Hx, Hy. lia. }
    cbn [num_map]. rewrite (exCopy_entropy i Hi). do 2 f_equal. apply round4_near. apply Rabs_def1; lra. }
  assert (S2 : forall i j, i < 2 -> j < 2 -> i <> j -> data_score exCopy [NInt i; NInt j] = Ok (Some (Q2Qc (10986 # 10000)))).
  { intros i j Hi Hj N. rewrite (score2 exCopy (NInt i) (NInt j) (0, 3) (0, 3)); [|apply exCopy_ok|discriminate|now apply exCopy_consecutive|now apply exCopy_consecutive].
    do 2 f_equal. apply round4_near. pose proof (accuracy exCopy (NInt i) (NInt j) (0, 3) (0, 3) exCopy_ok ltac:(discriminate) (exCopy_consecutive i Hi) (exCopy_consecutive j Hj)) as A.
    rewrite (exCopy_mi i j Hi Hj N) in A. cbn [snd] in A. change (length (t_rows exCopy)) with 3 in A. set (sm := smoothed_mi eps exCopy _ _ _ _) in *. unfold eps in A. replace (INR 3) with 3%R in A by (cbn; lra). apply abs_le_inv in A.
    apply Rabs_def1; lra. }
  assert (Fin0 : none_better (legal (col_nodes exCopy) None (edge (g_c (start exCopy)))) (gains (data_score exCopy) 3 (g_p (start exCopy)))).
  { intros [k [u v]] d (Hu & Hv & Lg) Gn. destruct k; [|apply edgeless_edge in Lg; destruct Lg|destruct Lg as [Lg _]; apply edgeless_edge in Lg; destruct Lg].
    destruct Lg as (N & _). apply in_map_iff in Hu as (i & <- & Hi). apply in_map_iff in Hv as (j & <- & Hj). apply in_seq in Hi, Hj. change (t_ncols exCopy) with 2 in *.
    inversion Gn; subst. rewrite (start_parents exCopy (NInt j)) in * by (apply in_map, in_seq; cbn; lia). match goal with X : Some [] = Some pv |- _ => injection X as <- end. cbn [app] in *.
    rewrite S1 in * by lia. rewrite S2 in * by (try lia; intros ->; now destruct N). 
    repeat match goal with X : Ok (Some _) = Ok (Some _) |- _ => injection X as <- end. match goal with |- (?a <= 0)%Qc => assert (a = 0%Qc) as -> by ring end. apply Qcle_refl. }
  unfold hc, hc_run. destruct (fit_edgeless_ok o exCopy metric G exCopy_ok ltac:(discriminate)) as (bn0 & E0 & N0). rewrite E0. cbn [bind]. rewrite N0.
  assert (Sc : scan (data_score exCopy) 3 (fun _ => true) None (col_nodes exCopy) (start exCopy) = Ok None).
  { destruct (scan_safe (data_score exCopy) 3 (fun _ => true) None (col_nodes exCopy) (start exCopy) (search_start exCopy)) as (b & Eb).
    - apply data_score_safe; [apply exCopy_ok|discriminate|]. intros i Hi. exists i. split; [reflexivity|]. split; [exact Hi|]. intros r x Hx. destruct (exCopy_cell r i x Hi Hx) as [L ->]. exists r. split; [reflexivity|lia].
    - pose proof (scan_ok (data_score exCopy) 3 (fun _ => true) None (col_nodes exCopy) (start exCopy) (search_start exCopy)) as H. rewrite Eb in H. apply good_best_true in H. rewrite Eb. destruct b as [[d m]|]; [exfalso|reflexivity].
      destruct H as (Lm & Vm & Pm & _). apply (Qclt_not_le _ _ Pm). now apply (Fin0 m). }
  change (length (t_rows exCopy)) with 3. cbn [hc_loop]. rewrite Sc. cbn [bind snd].
  destruct (result_ok _ _ (search_start exCopy)) as (bn & Eb & _ & Ee & _). exists bn. split; [exact Eb|]. rewrite Ee. intros a b. apply edgeless_edge.
Qed.
Print Assumptions C128_copies_not_joined_refuted.
