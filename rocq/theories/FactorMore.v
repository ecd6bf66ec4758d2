(** FactorMore.v -- lists of operations, sumover_var, normalize, histories. *)
From Verif Require Import Py Num BayesNet Factor SpecFactor Radix SumOver FactorMul FactorOut.
Open Scope nat_scope.

Lemma repr_to_val cd f phi : repr cd f phi -> forall a, valid cd (f_scope f) a -> phi a = val f a.
Proof. intros R a V. apply (repr_unique cd f); [assumption|apply repr_val, R|assumption]. Qed.

Lemma sumout_list_ok cd vs : forall o f phi, repr cd f phi -> NoDup vs -> incl vs (f_scope f) ->
  exists f', sumout_var_list o f vs = Ok f' /\ repr cd f' (sum_over cd vs phi) /\
    f_scope f' = fold_left (fun s v => remove1 v s) vs (f_scope f) /\ f_bn f' = f_bn f /\
    (forall v, In v (f_scope f') <-> In v (f_scope f) /\ ~ In v vs).
Proof.
  induction vs as [|v r IH]; intros o f phi R ND I.
  - exists f. simpl. repeat split; try apply R; tauto.
  - inversion ND as [|? ? Hn Hr]; subst.
    destruct (sumout_ok cd (sub o 0) f phi v R (I v (or_introl eq_refl))) as (f1 & E1 & R1 & S1 & B1).
    assert (NDs : NoDup (f_scope f)) by apply R.
    destruct (IH (sub o 1) f1 _ R1 Hr) as (f' & E' & R' & S' & B' & In').
    { intros w Hw. rewrite S1. apply In_remove1; [assumption|]. split; [apply I; now right|congruence]. }
    exists f'. cbn [sumout_var_list]. rewrite E1. cbn [bind]. split; [assumption|].
    assert (InS : forall w, In w (f_scope f') <-> In w (f_scope f) /\ ~ In w (v :: r)).
    { intros w. rewrite In', S1, In_remove1 by assumption. simpl. intuition congruence. }
    split; [|split; [cbn [fold_left]; now rewrite <- S1|split; [congruence|assumption]]].
    apply (repr_congr cd f' _ _ R').
    intros a Va.
    assert (VV : forall b, (forall w, ~ In w (v :: r) -> b w = a w) -> valid cd (v :: r) b -> valid cd (f_scope f) b).
    { intros b Hb Vb w Hw. destruct (in_dec name_eq_dec w (v :: r)) as [J|J]; [now apply Vb|].
      rewrite Hb by assumption. apply Va, InS. auto. }
    transitivity (sum_over cd r (sum_values cd v (val f)) a).
    + apply sum_over_congr. intros b Hb Vb. apply sum_values_congr. intros x Hx. apply (repr_to_val cd f phi R).
      apply VV.
      * intros w Hw. rewrite upd_other by (intros ->; apply Hw; now left). apply Hb. intros J; apply Hw; now right.
      * apply valid_cons. rewrite upd_same. split; [assumption|]. specialize (Vb Hr).
        intros w Hw. rewrite upd_other by congruence. now apply Vb.
    + rewrite sum_over_swap by (assumption || apply val_ext). change (sum_values cd v (sum_over cd r (val f)) a) with (sum_over cd (v :: r) (val f) a).
      apply sum_over_congr. intros b Hb Vb. symmetry. apply (repr_to_val cd f phi R). apply VV; auto.
Qed.

(** the function obtained does not depend on the order of the list *)
Lemma sum_over_perm_repr cd f phi vs ws a : repr cd f phi -> NoDup vs -> Permutation vs ws ->
  (forall v, In v (f_scope f) -> ~ In v vs -> a v < cd v) ->
  sum_over cd vs phi a = sum_over cd ws phi a.
Proof.
  intros R ND P V.
  assert (NDw : NoDup ws) by now apply (Permutation_NoDup P).
  assert (VV : forall us b, Permutation vs us -> (forall w, ~ In w us -> b w = a w) -> (NoDup us -> valid cd us b) -> valid cd (f_scope f) b).
  { intros us b Pu Hb Vb w Hw. destruct (in_dec name_eq_dec w us) as [J|J].
    - apply Vb; [now apply (Permutation_NoDup Pu)|assumption].
    - rewrite Hb by assumption. apply V; [assumption|]. intros K. apply J. now apply (Permutation_in _ Pu). }
  transitivity (sum_over cd vs (val f) a).
  - apply sum_over_congr. intros b Hb Vb. apply (repr_to_val cd f phi R). now apply (VV vs).
  - rewrite (sum_over_perm cd vs ws) by (assumption || apply val_ext).
    apply sum_over_congr. intros b Hb Vb. symmetry. apply (repr_to_val cd f phi R). now apply (VV ws).
Qed.

(** ** sumover_var *)
Lemma skipn_seq_map {A} (l : list A) (d : A) i n : i + n <= length l ->
  firstn n (skipn i l) = map (fun j => nth (i + j) l d) (seq 0 n).
Proof.
  revert i. induction n as [|n IH]; intros i H; [reflexivity|].
  destruct (skipn i l) as [|x r] eqn:E.
  - assert (length (skipn i l) = 0) by now rewrite E. rewrite skipn_length in *. lia.
  - simpl. f_equal.
    + rewrite Nat.add_0_r. rewrite <- (firstn_skipn i l), E. rewrite app_nth2; rewrite firstn_length_le by lia; [|lia].
      now rewrite Nat.sub_diag.
    + assert (skipn (S i) l = r) as <-.
      { clear - E. revert l E. induction i as [|i IH]; intros [|y l] E; simpl in *; try congruence.
        apply (IH l). assumption. }
      rewrite IH by lia. rewrite <- seq_shift, map_map. apply map_ext. intros j. f_equal. lia.
Qed.

Lemma sumover_loop_ok cpt c p : 0 < p -> 0 < c -> forall m fuel idx acc, m < fuel ->
  (forall q, idx + q * (c * p) < length cpt <-> q < m) ->
  (forall q, q < m -> idx + q * (c * p) + p <= length cpt) ->
  sumover_loop fuel cpt c p idx acc =
  Ok (acc + qsum (map (fun q => qsum (map (fun r => nth (idx + q * (c * p) + r) cpt 0%Qc) (seq 0%nat p))) (seq 0%nat m)))%Qc.
Proof.
  intros Pp Pc. induction m as [|m IH]; intros fuel idx acc Hf Hb Hl.
  - destruct fuel as [|fuel]; [lia|]. cbn [sumover_loop].
    destruct (Nat.ltb_spec idx (length cpt)) as [G|G].
    + exfalso. assert (0 < 0); [|lia]. apply (Hb 0). lia.
    + f_equal. simpl. ring.
  - destruct fuel as [|fuel]; [lia|]. cbn [sumover_loop].
    destruct (Nat.ltb_spec idx (length cpt)) as [G|G].
    2:{ exfalso. assert (idx + 0 * (c * p) < length cpt) by (apply Hb; lia). lia. }
    rewrite (IH fuel (idx + c * p)).
    + f_equal. cbn [seq map]. cbn [qsum fold_right]. fold (qsum). rewrite Qcplus_assoc. f_equal.
      * f_equal. unfold slice. replace (idx + p - idx) with p by lia.
        rewrite (skipn_seq_map cpt 0%Qc) by (specialize (Hl 0); lia).
        apply qsum_map_ext. intros r _. f_equal. lia.
      * rewrite <- seq_shift, map_map. apply qsum_map_ext. intros q _. apply qsum_map_ext. intros r _.
        f_equal. lia.
    + lia.
    + intros q. specialize (Hb (S q)). cbn [Nat.mul] in Hb. rewrite <- Nat.succ_lt_mono in Hb. rewrite <- Hb.
      rewrite Nat.add_assoc. reflexivity.
    + intros q Hq. specialize (Hl (S q)). cbn [Nat.mul] in Hl. lia.
Qed.

Lemma sumover_ok cd f phi rv : repr cd f phi -> In rv (f_scope f) ->
  exists f', sumover_var f rv = Ok f' /\ repr cd f' (sum_over cd (remove1 rv (f_scope f)) phi) /\
    f_scope f' = [rv] /\ f_var f' = rv /\ f_bn f' = f_bn f.
Proof.
  intros Rf Hrv. pose proof Rf as [W _].
  destruct (wf_split cd f rv W Hrv) as (pre & post & P & N1 & N2 & ND & R & R1 & R2 & R3 & Pos & HL).
  assert (Prv : 0 < cd rv) by (apply Pos; apply in_or_app; right; now left).
  assert (Pp : 0 < size cd pre) by (apply size_pos; intros w Hw; apply Pos, in_or_app; auto).
  assert (Pq : 0 < size cd post) by (apply size_pos; intros w Hw; apply Pos, in_or_app; right; now right).
  unfold sumover_var. unfold getitem at 1. rewrite (wf_card _ _ W rv Hrv). cbn [bind].
  unfold getitem at 1. rewrite R2. cbn [bind].
  set (p := size cd pre) in *. set (m := size cd post) in *.
  assert (HL' : length (f_cpt f) = cd rv * p * m) by (rewrite HL, size_app; fold p m; lia).
  set (g := fun i => qsum (map (fun q => qsum (map (fun r => nth (i * p + q * (cd rv * p) + r) (f_cpt f) 0%Qc) (seq 0 p))) (seq 0 m))).
  rewrite (mapM_ok _ g).
  2:{ intros i Hi. apply in_seq in Hi. rewrite (sumover_loop_ok (f_cpt f) (cd rv) p Pp Prv m).
      - f_equal. unfold g. ring.
      - rewrite HL'. pose proof (Nat.mul_le_mono 1 (cd rv * p) m m). nia.
      - intros q. rewrite HL'. assert (S i * p <= cd rv * p) by (apply Nat.mul_le_mono_r; lia). split; intros; nia.
      - intros q Hq. rewrite HL'. assert (S i * p <= cd rv * p) by (apply Nat.mul_le_mono_r; lia). nia. }
  cbn [bind]. eexists. split; [reflexivity|]. split; [|repeat split].
  assert (P' : Permutation (pre ++ post) (remove1 rv (f_scope f))).
  { rewrite <- (remove1_app_cons rv pre post) by assumption. now apply Permutation_remove1. }
  assert (NDpp : NoDup (pre ++ post)) by (eapply NoDup_remove_1; eassumption).
  split.
  - constructor; cbn [f_scope f_card f_stride f_cpt].
    + constructor; [intros []|constructor].
    + reflexivity.
    + reflexivity.
    + intros v [<-|[]]. simpl. now rewrite name_eqb_refl.
    + intros v [<-|[]]. assumption.
    + exists [rv]. split; [reflexivity|]. simpl. rewrite name_eqb_refl. auto.
    + rewrite map_length, seq_length. simpl. lia.
  - intros a V. assert (Va : a rv < cd rv) by (apply V; now left).
    unfold lookup, offset. cbn [f_scope f_stride f_cpt map nsum fold_right dget]. rewrite name_eqb_refl.
    replace (a rv * 1 + 0) with (a rv) by lia.
    rewrite (map_nth_error g (a rv) (seq 0 (cd rv)) (d := a rv)).
    2:{ rewrite nth_error_nth' with (d := 0) by (now rewrite seq_length). f_equal. now rewrite seq_nth. }
    f_equal.
    (* the semantic side: sum over pre++post of phi, as a sum over indices *)
    rewrite <- (sum_over_perm_repr cd f phi (pre ++ post) _ a Rf NDpp P').
    2:{ intros v Hv Hn. destruct (name_eqb_spec v rv) as [->|Ne]; [assumption|].
        exfalso. apply Hn. apply (Permutation_in _ (Permutation_sym P')). apply In_remove1; [apply W|auto]. }
    rewrite (sum_over_index cd (pre ++ post) phi
               (fun i => nth (kpos p (cd rv) i + p * a rv) (f_cpt f) 0%Qc) a NDpp).
    + rewrite size_app. fold p m. rewrite qsum_regroup. unfold g.
      rewrite qsum_swap. apply qsum_map_ext. intros r Hr. apply in_seq in Hr. apply qsum_map_ext. intros q Hq.
      f_equal. unfold kpos.
      assert (D : (r + p * q) / p = q) by (symmetry; apply Nat.div_unique with (r := r); lia).
      assert (M : (r + p * q) mod p = r) by (symmetry; apply Nat.mod_unique with (q := q); lia).
      rewrite D, M. nia.
    + intros b Hb Vb.
      assert (Eb : b rv = a rv) by (apply Hb; rewrite in_app_iff; tauto).
      pose proof (repr_cell cd f phi rv pre post b (b rv) Rf P R N1 N2 Pp Vb) as RC.
      rewrite Eb in RC. specialize (RC Va). fold p in RC.
      symmetry. rewrite (nth_error_nth _ _ _ RC). rewrite <- Eb.
      apply (repr_ext cd f phi _ _ Rf).
      * intros w Hw. destruct (name_eqb_spec w rv) as [->|Ne]; [rewrite upd_same; lia|].
        rewrite upd_other by assumption. apply Vb. apply (Permutation_in _ (Permutation_sym P')). apply In_remove1; [apply W|auto].
      * intros w _. apply upd_id.
Qed.

(** ** reduce_factor_by_list *)
Definition override (a : asg) (vs : list name) (b : asg) : asg := fun w => if mem w vs then b w else a w.

Lemma reduce_list_ok cd ev : forall o f phi (vi : name -> nat), repr cd f phi -> NoDup (map fst ev) -> incl (map fst ev) (f_scope f) ->
  (forall rv v, In (rv, v) ev -> vi rv < cd rv /\
     exists d, dget (bn_F (f_bn f)) rv = Some d /\ index_of v (f_values d) = Some (vi rv)) ->
  exists f', reduce_factor_by_list o f ev = Ok f' /\ repr cd f' (fun a => phi (override a (map fst ev) vi)) /\
    f_bn f' = f_bn f /\
    (forall v, In v (f_scope f') <-> In v (f_scope f) /\ ~ In v (map fst ev)).
Proof.
  induction ev as [|[rv v] r IH]; intros o f phi vi R ND I Hv.
  - exists f. simpl. repeat split; try apply R; try tauto.
  - simpl in ND, I. inversion ND as [|? ? Hn Hr]; subst.
    assert (NDs : NoDup (f_scope f)) by apply R.
    destruct (Hv rv v (or_introl eq_refl)) as (Hi & d & Hd & Hx).
    destruct (reduce_ok cd (sub o 0) f phi rv v (vi rv) R) as (f1 & E1 & R1 & S1 & B1).
    { apply I. now left. } { intros d' Hd'. congruence. } { congruence. } { assumption. }
    destruct (IH (sub o 1) f1 _ vi R1 Hr) as (f' & E' & R' & B' & In').
    { intros w Hw. rewrite S1. apply In_remove1; [assumption|]. split; [apply I; now right|congruence]. }
    { intros q u Hq. rewrite B1. apply Hv. now right. }
    exists f'. cbn [reduce_factor_by_list]. rewrite E1. cbn [bind]. split; [assumption|].
    assert (InS : forall w, In w (f_scope f') <-> In w (f_scope f) /\ ~ In w (rv :: map fst r)).
    { intros w. rewrite In', S1, In_remove1 by assumption. simpl. intuition congruence. }
    split; [|split; [congruence|assumption]].
    apply (repr_congr cd f' _ _ R'). intros a Va.
    apply (repr_ext cd f phi _ _ R).
    + intros w Hw. destruct (name_eqb_spec w rv) as [->|Ne]; [rewrite upd_same; assumption|].
      rewrite upd_other by assumption. unfold override. destruct (mem_spec w (map fst r)) as [M|M].
      * apply in_map_iff in M as ([q u] & <- & Hq). apply (Hv q u). now right.
      * apply Va, InS. split; [assumption|]. simpl. intuition congruence.
    + intros w _. unfold override, upd. simpl. destruct (name_eqb_spec w rv) as [->|Ne]; simpl; reflexivity.
Qed.

(** ** normalize *)
Lemma eps7_pos : (0 < eps7)%Qc.
Proof. reflexivity. Qed.

Lemma qsum_pos l : l <> [] -> (forall x, In x l -> 0 < x)%Qc -> (0 < qsum l)%Qc.
Proof.
  destruct l as [|x r]; [congruence|]. intros _ H. simpl.
  assert (0 < x)%Qc by (apply H; now left).
  assert (0 <= qsum r)%Qc. { apply qsum_nonneg. intros y Hy. apply Qclt_le_weak, H. now right. }
  qclra.
Qed.

Lemma normalize_groups_ok c : 0 < c -> forall m cpt fuel, m <= fuel -> length cpt = m * c ->
  (forall x, In x cpt -> 0 < x)%Qc ->
  exists l, normalize_groups fuel c cpt = Ok l /\ length l = m * c /\
    forall q r, q < m -> r < c ->
      nth_error l (r + c * q) =
      option_map (fun x => x / qsum (map (fun j => nth (j + c * q)%nat cpt 0%Qc) (seq 0 c)))%Qc (nth_error cpt (r + c * q)).
Proof.
  intros Pc. induction m as [|m IH]; intros cpt fuel Hf HL Hpos.
  - destruct cpt; [|simpl in HL; lia]. exists []. destruct fuel; simpl; repeat split; intros; lia.
  - destruct fuel as [|fuel]; [lia|].
    destruct cpt as [|x0 r0] eqn:Ecpt; [simpl in HL; lia|]. cbn [normalize_groups]. rewrite <- Ecpt in *. clear Ecpt x0 r0.
    assert (GL : length (firstn c cpt) = c) by (rewrite firstn_length; nia).
    rewrite GL, Nat.ltb_irrefl.
    assert (SP : (0 < qsum (firstn c cpt))%Qc).
    { apply qsum_pos; [intros E; rewrite E in GL; simpl in GL; lia|]. intros x Hx. apply Hpos.
      rewrite <- (firstn_skipn c cpt). apply in_or_app. auto. }
    set (s := qsum (firstn c cpt)) in *.
    rewrite (mapM_ok _ (fun x => x / s)%Qc).
    2:{ intros x _. unfold qdiv. destruct (Qc_eq_dec s 0) as [E|E]; [|reflexivity]. rewrite E in SP. discriminate. }
    cbn [bind].
    destruct (IH (skipn c cpt) fuel) as (l & El & Ll & HN); [lia|rewrite skipn_length; nia| |].
    { intros x Hx. apply Hpos. rewrite <- (firstn_skipn c cpt). apply in_or_app. auto. }
    rewrite El. cbn [bind]. eexists. split; [reflexivity|]. rewrite app_length, map_length, GL, Ll. split; [lia|].
    assert (SS : s = qsum (map (fun j => nth j cpt 0%Qc) (seq 0 c))).
    { unfold s. f_equal. apply (skipn_seq_map cpt 0%Qc 0 c). nia. }
    intros [|q] r Hq Hr.
    + rewrite Nat.mul_0_r, Nat.add_0_r. rewrite nth_error_app1 by (rewrite map_length; lia).
      assert (EQ : map (fun j => nth (j + 0) cpt 0%Qc) (seq 0 c) = map (fun j => nth j cpt 0%Qc) (seq 0 c))
        by (apply map_ext; intros j; f_equal; lia).
      rewrite EQ, <- SS.
      rewrite <- (firstn_skipn c cpt) at 2. rewrite nth_error_app1 by lia.
      rewrite nth_error_map. reflexivity.
    + rewrite nth_error_app2 by (rewrite map_length; nia). rewrite map_length, GL.
      replace (r + c * S q - c) with (r + c * q) by nia. rewrite HN by lia.
      rewrite nth_error_skipn. replace (c + (r + c * q)) with (r + c * S q) by nia.
      assert (EE : map (fun j => nth (j + c * q) (skipn c cpt) 0%Qc) (seq 0 c) = map (fun j => nth (j + c * S q) cpt 0%Qc) (seq 0 c)).
      { apply map_ext. intros j. rewrite <- (firstn_skipn c cpt) at 2. rewrite app_nth2 by nia. f_equal. nia. }
      now rewrite EE.
Qed.

Lemma normalize_ok cd o f phi : good o -> repr cd f phi -> f_scope f <> [] ->
  (forall a, valid cd (f_scope f) a -> 0 <= phi a)%Qc ->
  exists var f', normalize o f = Ok f' /\ In var (f_scope f) /\ dget (f_stride f) var = Some 1 /\
    f_scope f' = f_scope f /\ f_stride f' = f_stride f /\ f_bn f' = f_bn f /\
    repr cd f' (fun a => (phi a + eps7) / sum_values cd var (fun b => phi b + eps7) a)%Qc.
Proof.
  intros Go Rf NE Hpos. pose proof Rf as [W HL0].
  unfold normalize.
  set (cands := filter (fun k => stride_key (f_stride (perturb f)) k =? 1) (ask o (dkeys (f_stride (perturb f))))).
  assert (PK : forall v, In v (ask o (dkeys (f_stride f))) <-> In v (f_scope f)).
  { intros v. split; intros H.
    - apply (Permutation_in _ (wf_skeys _ _ W)). apply (Permutation_in _ (good_ask o _ Go)). assumption.
    - apply (Permutation_in _ (Permutation_sym (good_ask o _ Go))). apply (Permutation_in _ (Permutation_sym (wf_skeys _ _ W))). assumption. }
  assert (HC : forall v, In v cands -> In v (f_scope f) /\ dget (f_stride f) v = Some 1).
  { intros v Hv. unfold cands in Hv. apply filter_In in Hv as [H1 H2]. simpl in H1, H2. apply PK in H1. split; [assumption|].
    apply Nat.eqb_eq in H2. unfold stride_key in H2. destruct (dget (f_stride f) v); [congruence|lia]. }
  destruct cands as [|var rest] eqn:EC.
  { exfalso. destruct (wf_ord _ _ W) as (ord & P & R). destruct ord as [|v r].
    - apply Permutation_nil in P. congruence.
    - simpl in R. destruct R as [R _]. assert (In v cands) as K; [|rewrite EC in K; destruct K].
      unfold cands. apply filter_In. split; [apply PK; apply (Permutation_in _ P); now left|].
      simpl. unfold stride_key. rewrite R. reflexivity. }
  destruct (HC var (or_introl eq_refl)) as [Hvar Hs1].
  exists var.
  destruct (wf_split cd f var W Hvar) as (pre & post & P & N1 & N2 & ND & R & R1 & R2 & R3 & Pos & HL).
  assert (Prv : 0 < cd var) by (apply Pos; apply in_or_app; right; now left).
  assert (Sp : size cd pre = 1) by congruence.
  cbn [f_card perturb f_cpt f_stride f_bn f_scope f_var].
  unfold getitem. rewrite (wf_card _ _ W var Hvar). cbn [bind].
  destruct (Nat.eqb_spec (cd var) 0) as [Ez|Ez]; [lia|].
  rewrite size_app, Sp, Nat.mul_1_l in HL. rewrite map_length.
  set (cpt1 := map (fun x => (x + eps7)%Qc) (f_cpt f)).
  assert (Nth1 : forall a, valid cd (f_scope f) a -> nth_error cpt1 (offset f a) = Some (phi a + eps7)%Qc).
  { intros a V. unfold cpt1. rewrite nth_error_map. specialize (HL0 a V). unfold lookup in HL0. rewrite HL0. reflexivity. }
  assert (Len1 : length cpt1 = size cd post * cd var) by (unfold cpt1; rewrite map_length, HL; lia).
  destruct (normalize_groups_ok (cd var) Prv (size cd post) cpt1 (S (length (f_cpt f)))) as (l & El & Ll & HN).
  { rewrite HL. nia. }
  { assumption. }
  { intros x Hx. apply In_nth_error in Hx as [i Hi].
    assert (Hlt : i < length (f_cpt f)).
    { assert (nth_error cpt1 i <> None) by congruence. apply nth_error_Some in H. unfold cpt1 in H. now rewrite map_length in H. }
    destruct (wf_offset_surj cd f i W Hlt) as (a & V & <-). rewrite Nth1 in Hi by assumption. inversion Hi; subst.
    specialize (Hpos a V). pose proof eps7_pos. qclra. }
  rewrite El. cbn [bind]. eexists. split; [reflexivity|].
  split; [assumption|]. split; [assumption|]. split; [reflexivity|]. split; [reflexivity|]. split; [reflexivity|].
  assert (Off : forall a, valid cd (f_scope f) a -> offset f a = a var + cd var * radix cd post a).
  { intros a V. rewrite offset_dot, <- (dot_perm _ _ _ _ P), (running_dot _ _ _ _ _ R), Nat.mul_1_l.
    rewrite radix_app, Sp, Nat.mul_1_l. cbn [radix].
    assert (Vp : valid cd pre a).
    { intros w Hw. apply V. apply (Permutation_in _ P). apply in_or_app. auto. }
    pose proof (radix_lt cd pre a Vp). lia. }
  split.
  - destruct W as [w1 w2 w3 w4 w5 w6 w7]. constructor; cbn [f_scope f_card f_stride f_cpt]; try assumption.
    rewrite Ll, <- Len1. unfold cpt1. now rewrite map_length.
  - intros a V. cbn [f_scope] in V. unfold lookup. cbn [f_cpt].
    change (offset _ a) with (offset f a). rewrite Off by assumption.
    assert (Vpost : valid cd post a).
    { intros w Hw. apply V. apply (Permutation_in _ P). apply in_or_app. right. now right. }
    rewrite HN; [| now apply radix_lt | now apply V].
    rewrite <- Off by assumption. rewrite Nth1 by assumption. simpl. f_equal. f_equal.
    unfold sum_values. apply qsum_map_ext. intros x Hx. apply in_seq in Hx.
    assert (V' : valid cd (f_scope f) (upd a var x)) by (apply valid_upd'; [lia|assumption]).
    pose proof (Nth1 _ V') as Q. rewrite (Off _ V') in Q. rewrite upd_same in Q.
    rewrite (radix_ext cd post (upd a var x) a) in Q by (intros w Hw; apply upd_other; congruence).
    apply nth_error_nth with (d := 0%Qc) in Q. exact Q.
Qed.

(** consequences: each group sums to one and every entry is positive *)
Lemma normalize_sums cd var phi a : ext phi -> 0 < cd var ->
  (forall x, x < cd var -> (0 <= phi (upd a var x))%Qc) ->
  sum_values cd var (fun b => (phi b + eps7) / sum_values cd var (fun b => phi b + eps7) b)%Qc a = 1%Qc.
Proof.
  intros E Pc Hpos. unfold sum_values at 1.
  set (T := sum_values cd var (fun b => phi b + eps7)%Qc a).
  assert (TP : (0 < T)%Qc).
  { unfold T, sum_values. apply qsum_pos.
    - intros N. apply map_eq_nil in N. destruct (cd var); [lia|discriminate].
    - intros x Hx. apply in_map_iff in Hx as (y & <- & Hy). apply in_seq in Hy. specialize (Hpos y ltac:(lia)).
      pose proof eps7_pos. qclra. }
  transitivity (qsum (map (fun x => (phi (upd a var x) + eps7) * / T)%Qc (seq 0 (cd var)))).
  - apply qsum_map_ext. intros x _. unfold Qcdiv. f_equal. f_equal.
    unfold T, sum_values. apply qsum_map_ext. intros y _. f_equal. apply E. apply upd_twice.
  - rewrite qsum_map_mult_r. fold T. change (qsum (map (fun x => (phi (upd a var x) + eps7)%Qc) (seq 0 (cd var)))) with T.
    apply Qcmult_inv_r. intros Z. rewrite Z in TP. discriminate.
Qed.
