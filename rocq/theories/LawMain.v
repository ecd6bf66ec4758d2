(** LawMain.v -- the law of one sampled row, and of independent rows. *)
From Verif Require Import Py Num BayesNet Factor SpecFactor Radix SpecInference VE VETotal SpecSample SampleFacts SampleMain SampleLaws SumOver SpecLaw LawFacts ParamFacts GraphCheck Mst Properties_Sample.
Open Scope nat_scope.

Lemma sum_over_zero cd vs phi : forall a, (forall b, (forall w, ~ In w vs -> b w = a w) -> valid cd vs b -> phi b = 0%Qc) -> NoDup vs ->
  sum_over cd vs phi a = 0%Qc.
Proof.
  intros a H ND. rewrite (sum_over_congr cd vs phi (fun _ => 0%Qc) a); [|intros b B V; apply H; auto].
  clear. revert a. induction vs as [|v r IH]; intros a; [reflexivity|]. cbn [sum_over]. unfold sum_values. apply qsum_zero. intros x _. apply IH.
Qed.
Lemma sum_over_single cd vs phi s K : NoDup vs -> valid cd vs s -> forall a,
  (forall b, (forall w, ~ In w vs -> b w = a w) -> valid cd vs b -> (forall w, In w vs -> b w = s w) -> phi b = K) ->
  (forall b, (forall w, ~ In w vs -> b w = a w) -> valid cd vs b -> (exists w, In w vs /\ b w <> s w) -> phi b = 0%Qc) ->
  sum_over cd vs phi a = K.
Proof.
  induction vs as [|v r IH]; intros ND V a H1 H0.
  - cbn. apply H1; [auto|intros w []|intros w []].
  - inversion ND as [|? ? Nv ND']; subst. cbn [sum_over]. unfold sum_values.
    rewrite (qsum_map_ext _ (fun x => if s v =? x then K else 0%Qc)).
    + apply qsum_delta. apply V. now left.
    + intros x Hx. apply in_seq in Hx. assert (Bv : forall b, (forall w, ~ In w r -> b w = upd a v x w) -> b v = x) by (intros b B; rewrite B, upd_same by assumption; reflexivity).
      assert (Bo : forall b, (forall w, ~ In w r -> b w = upd a v x w) -> forall w, ~ In w (v :: r) -> b w = a w).
      { intros b B w Hw. rewrite B by (intros I; apply Hw; now right). apply upd_other. intros ->. apply Hw. now left. }
      assert (Bd : forall b, (forall w, ~ In w r -> b w = upd a v x w) -> valid cd r b -> valid cd (v :: r) b).
      { intros b B Vb w [<-|Hw]; [rewrite (Bv b B); lia|now apply Vb]. }
      destruct (Nat.eqb_spec (s v) x) as [E|E].
      * apply IH; [assumption|intros w Hw; apply V; now right| |].
        -- intros b B Vb Eb. apply H1; [now apply Bo|now apply Bd|]. intros w [<-|Hw]; [now rewrite (Bv b B)|auto].
        -- intros b B Vb (w & Hw & Ne). apply H0; [now apply Bo|now apply Bd|]. exists w. split; [now right|assumption].
      * apply sum_over_zero; [|assumption]. intros b B Vb. apply H0; [now apply Bo|now apply Bd|]. exists v. split; [now left|]. rewrite (Bv b B). auto.
Qed.
Lemma average_sum_over {A} (m : list A) cd vs (F : A -> asg -> Qc) : forall a,
  average m (fun c => sum_over cd vs (F c) a) = sum_over cd vs (fun b => average m (fun c => F c b)) a.
Proof.
  induction vs as [|v r IH]; intros a; [reflexivity|]. cbn [sum_over]. unfold sum_values. rewrite <- (qsum_map_ext (fun x => average m (fun c => sum_over cd r (F c) (upd a v x)))) by (intros x _; apply IH).
  unfold average. rewrite qsum_swap, qsum_div. reflexivity.
Qed.
Lemma sum_over_scale cd vs k phi : forall a, sum_over cd vs (fun b => k * phi b)%Qc a = (k * sum_over cd vs phi a)%Qc.
Proof. induction vs as [|v r IH]; intros a; [reflexivity|]. cbn [sum_over]. unfold sum_values. rewrite <- qsum_map_mult_l. apply qsum_map_ext. intros x _. apply IH. Qed.
Lemma sum_over_plus cd vs phi psi : forall a, sum_over cd vs (fun b => phi b + psi b)%Qc a = (sum_over cd vs phi a + sum_over cd vs psi a)%Qc.
Proof. induction vs as [|v r IH]; intros a; [reflexivity|]. cbn [sum_over]. unfold sum_values. rewrite <- qsum_map_plus. apply qsum_map_ext. intros x _. apply IH. Qed.

(** ** one cell *)
Definition inb (lo hi u : Qc) : bool := qleb lo u && qltb u hi.
Lemma inb_spec lo hi u : inb lo hi u = true <-> (lo <= u /\ u < hi)%Qc.
Proof. unfold inb. destruct (qleb_spec lo u), (qltb_spec u hi); cbn [andb]; split; auto; try discriminate; intros [? ?]; contradiction. Qed.
Lemma cell_in M c l h d : 0 < M -> (0 <= d /\ d < 1)%Qc ->
  inb (nQc l / nQc M) (nQc h / nQc M) ((nQc c + d) / nQc M)%Qc = ((l <=? c) && (c <? h)).
Proof.
  intros P [D0 D1]. assert (Mp := nQc_pos M P). assert (NZ := nQc_nz M P).
  assert (Le : forall x y, (x / nQc M <= y / nQc M)%Qc <-> (x <= y)%Qc).
  { intros x y. split; intros H; [|now apply div_le]. destruct (Qclt_le_dec y x) as [L|L]; [|assumption]. exfalso.
    assert (E : (x / nQc M * nQc M = x)%Qc) by (field; assumption). assert (F : (y / nQc M * nQc M = y)%Qc) by (field; assumption).
    rewrite <- E, <- F in L. revert L H Mp. generalize (x / nQc M)%Qc (y / nQc M)%Qc. intros; qcnra. }
  assert (C1 : nQc (c + 1) = (nQc c + 1)%Qc) by (rewrite nQc_plus; reflexivity).
  unfold inb. f_equal.
  - destruct (Nat.leb_spec l c) as [L|L]; destruct (qleb_spec (nQc l / nQc M) ((nQc c + d) / nQc M)) as [G|G]; auto; exfalso.
    + apply G. apply Le. assert (X := nQc_le _ _ L). revert X D0. generalize (nQc l) (nQc c). intros; qclra.
    + apply (proj1 (Le _ _)) in G. assert (X := nQc_le (c + 1) l ltac:(lia)). rewrite C1 in X. revert X G D1. generalize (nQc l) (nQc c). intros; qclra.
  - destruct (Nat.ltb_spec c h) as [L|L]; destruct (qltb_spec ((nQc c + d) / nQc M) (nQc h / nQc M)) as [G|G]; auto; exfalso.
    + apply G. apply Qcnot_le_lt. intros G'. apply (proj1 (Le _ _)) in G'. assert (X := nQc_le (c + 1) h ltac:(lia)). rewrite C1 in X. revert X G' D1. generalize (nQc h) (nQc c). intros; qclra.
    + apply Qclt_not_le in G. apply G. apply Le. assert (X := nQc_le _ _ L). revert X D0. generalize (nQc h) (nQc c). intros; qclra.
Qed.
Lemma count_range l h : forall M, l <= h <= M -> length (filter (fun c => (l <=? c) && (c <? h)) (seq 0 M)) = h - l.
Proof.
  intros M [A B]. replace M with (l + ((h - l) + (M - h))) by lia. rewrite !seq_app, !filter_app, !app_length.
  assert (Z : forall s n (p : nat -> bool), (forall x, s <= x < s + n -> p x = false) -> length (filter p (seq s n)) = 0).
  { intros s n p H. rewrite (filter_ext_in p (fun _ => false)) by (intros x Hx; apply in_seq in Hx; apply H; lia). clear. induction (seq s n); auto. }
  rewrite (Z 0 l), (Z (0 + l + (h - l)) (M - h)).
  - rewrite (filter_ext_in _ (fun _ => true)).
    + rewrite Nat.add_0_r. cbn [plus]. transitivity (length (seq l (h - l))); [|apply seq_length]. f_equal. clear. induction (seq l (h - l)) as [|x r IH]; [reflexivity|]. cbn. now rewrite IH.
    + intros x Hx. apply in_seq in Hx. destruct (Nat.leb_spec l x), (Nat.ltb_spec x h); auto; lia.
  - intros x Hx. destruct (Nat.ltb_spec x h); [lia|]. apply andb_false_r.
  - intros x Hx. destruct (Nat.leb_spec l x); [lia|]. reflexivity.
Qed.
Lemma cell_average M l h d : 0 < M -> l <= h <= M -> (0 <= d /\ d < 1)%Qc ->
  average (seq 0 M) (fun c => if inb (nQc l / nQc M) (nQc h / nQc M) ((nQc c + d) / nQc M) then 1 else 0)%Qc = (nQc h / nQc M - nQc l / nQc M)%Qc.
Proof.
  intros P L D. rewrite <- (fraction_average _ (fun c => inb (nQc l / nQc M) (nQc h / nQc M) ((nQc c + d) / nQc M))). unfold fraction.
  rewrite (filter_ext_in _ (fun c => (l <=? c) && (c <? h))) by (intros c _; now apply cell_in).
  rewrite count_range by assumption. rewrite seq_length. assert (E : nQc h = (nQc (h - l) + nQc l)%Qc) by (rewrite <- nQc_plus; f_equal; lia).
  rewrite E. field. now apply nQc_nz.
Qed.

(** ** one row *)
Section Row.
Variable bn : bayesnet.
Variable M : nat.
Variable ev : list (name * name).
Hypothesis W : wfnet bn.
Hypothesis NN : nonneg_net bn.
Hypothesis N : normalised bn.
Hypothesis Top : nodes_topological bn.
Hypothesis Den : denominator bn M.
Hypothesis GE : good_evidence bn ev.
Let k := length (bn_V bn).
Let nd j := nth j (bn_V bn) (NInt 0).
Let ob v := mem v (map fst ev).
Let lo (a : asg) j := if ob (nd j) then 0%Qc else cum bn (nd j) a (a (nd j)).
Let hi (a : asg) j := if ob (nd j) then 1%Qc else cum bn (nd j) a (S (a (nd j))).

Lemma near : nearly_normalised bn.
Proof.
  intros v a Hv V. assert (E : cum bn v a (ncard bn v) = 1%Qc) by (now apply N). rewrite E.
  split; unfold Qcle; vm_compute; discriminate.
Qed.
Lemma sm : samplable bn. Proof. exact (conj W (conj NN near)). Qed.
Lemma cum_grid v a m : In v (bn_V bn) -> exists z, cum bn v a m = (nQc z / nQc M)%Qc.
Proof.
  intros Hv. destruct Den as [Mp D]. induction m as [|m [z IH]].
  - exists 0. unfold cum. cbn. unfold Qcdiv. rewrite nQc_0. ring.
  - rewrite cum_S, IH. unfold cond_prob. destruct (nth_error (ncpt bn v) _) as [p|] eqn:E.
    + destruct (D v p Hv (nth_error_In _ _ E)) as [z' ->]. exists (z + z'). rewrite nQc_plus. cbn [getq]. unfold Qcdiv. ring.
    + exists z. cbn [getq]. ring.
Qed.
Lemma grid_le z z' : 0 < M -> (nQc z / nQc M <= nQc z' / nQc M)%Qc -> z <= z'.
Proof.
  intros P H. destruct (le_lt_dec z z') as [L|L]; [assumption|]. exfalso. assert (X := nQc_le (z' + 1) z ltac:(lia)). rewrite nQc_plus in X. change (nQc 1) with 1%Qc in X.
  assert (Mp := nQc_pos M P). assert (NZ := nQc_nz M P).
  assert (E : (nQc z / nQc M * nQc M = nQc z)%Qc) by (field; assumption). assert (F : (nQc z' / nQc M * nQc M = nQc z')%Qc) by (field; assumption).
  rewrite <- E, <- F in X. revert X H Mp. generalize (nQc z / nQc M)%Qc (nQc z' / nQc M)%Qc. intros; qcnra.
Qed.
Lemma bounds_grid a j : valid (ncard bn) (bn_V bn) a -> j < k ->
  exists l h, l <= h <= M /\ lo a j = (nQc l / nQc M)%Qc /\ hi a j = (nQc h / nQc M)%Qc.
Proof.
  intros V Hj. destruct Den as [Mp _]. assert (Hv : In (nd j) (bn_V bn)) by (now apply nth_In). unfold lo, hi. destruct (ob (nd j)).
  - exists 0, M. split; [lia|]. split; [rewrite nQc_0; unfold Qcdiv; ring|]. field. now apply nQc_nz.
  - destruct (cum_grid (nd j) a (a (nd j)) Hv) as [l El]. destruct (cum_grid (nd j) a (S (a (nd j))) Hv) as [h Eh]. exists l, h.
    split; [|now split]. split; apply grid_le; auto.
    + rewrite <- El, <- Eh. apply cum_mono; auto.
    + rewrite <- Eh. replace (nQc M / nQc M)%Qc with 1%Qc by (field; now apply nQc_nz). rewrite <- (N (nd j) a Hv V). apply cum_mono; auto. now apply V.
Qed.
(** cells [c] (with positions [d]) put every draw into the interval of [a] *)
Definition inbox (d : nat -> Qc) (c : list nat) (a : asg) : bool :=
  forallb (fun j => inb (lo a j) (hi a j) ((nQc (nth j c 0%nat) + d j) / nQc M)%Qc) (seq 0 k).
Definition urow (d : nat -> Qc) (c : list nat) : nat -> Qc := fun j => ((nQc (nth j c 0%nat) + d j) / nQc M)%Qc.

Lemma box_iff u a : (forall j, 0 <= u j /\ u j < 1)%Qc -> valid (ncard bn) (bn_V bn) a -> agrees bn ev a = true ->
  (weighted_sample bn ev u a <-> forall j, j < k -> inb (lo a j) (hi a j) (u j) = true).
Proof.
  intros U V Ag. assert (I : forall j, j < k -> In (nd j) (bn_V bn)) by (intros j Hj; now apply nth_In). split.
  - intros A j Hj. apply inb_spec. specialize (A j (nd j) ltac:(now apply nth_error_nth')). unfold lo, hi, ob. rewrite mem_keys. destruct (dget ev (nd j)); [apply U|].
    destruct A as (_ & B & C). rewrite cum_norm, div_1 in B, C by auto. now split.
  - intros H j v Hv. assert (Lj : j < k) by (apply nth_error_Some; congruence).
    assert (E : nd j = v) by (unfold nd; now apply nth_error_nth). specialize (H j Lj). apply inb_spec in H. unfold lo, hi in H. rewrite E in H. unfold ob in H. rewrite mem_keys in H.
    assert (Hv' : In v (bn_V bn)) by (rewrite <- E; auto). destruct (dget ev v) as [x|] eqn:D.
    + apply dget_in_list in D. unfold agrees in Ag. rewrite forallb_forall in Ag. specialize (Ag _ D). cbn [fst snd] in Ag.
      destruct (val_index bn v x) as [i|]; [|discriminate]. apply Nat.eqb_eq in Ag. now rewrite Ag.
    + split; [now apply V|]. rewrite cum_norm, !div_1 by auto. exact H.
Qed.
Lemma weighted_agrees u a : weighted_sample bn ev u a -> agrees bn ev a = true.
Proof.
  intros A. unfold agrees. apply forallb_forall. intros [v x] H. cbn [fst snd]. destruct GE as [ND G]. destruct (G v x H) as [Hv _].
  destruct (In_nth_error _ _ Hv) as [j Hj]. specialize (A j v Hj). rewrite (proj1 (In_dget_dict ev v x ND) H) in A. rewrite A. apply Nat.eqb_refl.
Qed.
Lemma weighted_ext u a b : (forall v, In v (bn_V bn) -> a v = b v) -> weighted_sample bn ev u a -> weighted_sample bn ev u b.
Proof.
  intros E A j v Hv. specialize (A j v Hv). assert (I := nth_error_In _ _ Hv). destruct (dget ev v) as [x|].
  - now rewrite <- (E v I).
  - apply (drawn_by_ext bn v a); [|assumption]. intros w [<-|Hw]; apply E; [assumption|]. now apply (wn_par _ W v I).
Qed.
Lemma volume a : (qprod (map (fun j => hi a j - lo a j) (seq 0 k)) * likelihood bn ev a = joint bn a)%Qc.
Proof.
  set (f := fun v => if ob v then 1%Qc else getq (cond_prob bn v a)).
  assert (E : map (fun j => (hi a j - lo a j)%Qc) (seq 0 k) = map (fun j => f (nth j (bn_V bn) (NInt 0))) (seq 0 k)).
  { apply map_ext. intros j. unfold f, hi, lo. fold (nd j). destruct (ob (nd j)); [ring|]. rewrite cum_S, cond_self. ring. }
  rewrite E. unfold k. rewrite qprod_map_nth. unfold joint, likelihood. fold ob. clear. induction (bn_V bn) as [|v r IH]; [reflexivity|].
  cbn [map filter qprod fold_right]. fold (qprod (map f r)). fold (qprod (map (fun v => getq (cond_prob bn v a)) r)). rewrite <- IH.
  unfold f at 1. destruct (ob v); cbn [map qprod fold_right]; fold (qprod (map (fun v => getq (cond_prob bn v a)) (filter ob r))); ring.
Qed.
Definition exton (g : asg -> Qc) : Prop := forall a b, (forall v, In v (bn_V bn) -> a v = b v) -> g a = g b.
(** the value of [g] at the row sampled with the cells [c] *)
Definition rowval (d : nat -> Qc) (g : asg -> Qc) (c : list nat) : Qc :=
  sum_over (ncard bn) (bn_V bn) (fun a => if agrees bn ev a && inbox d c a then g a else 0%Qc) (fun _ => 0).

Lemma row_unit (d : nat -> Qc) c : (forall j, 0 <= d j /\ d j < 1)%Qc -> In c (lists_of (seq 0 M) k) -> forall j, (0 <= urow d c j /\ urow d c j < 1)%Qc.
Proof.
  intros D H j. destruct (lists_of_In _ _ _ H) as [E I]. unfold urow. destruct Den as [Mp _].
  assert (L : nth j c 0 < M). { destruct (le_lt_dec (length c) j) as [G|G]; [rewrite nth_overflow by assumption; assumption|]. apply (nth_In c 0) in G. apply I, in_seq in G. lia. }
  assert (B := proj1 (inb_spec (nQc 0 / nQc M) (nQc M / nQc M) ((nQc (nth j c 0%nat) + d j) / nQc M)%Qc)).
  rewrite (cell_in M _ 0 M (d j) Mp (D j)) in B. destruct (Nat.ltb_spec (nth j c 0) M) as [_|]; [|lia]. specialize (B eq_refl).
  replace (nQc 0 / nQc M)%Qc with 0%Qc in B by (unfold Qcdiv; rewrite nQc_0; ring). replace (nQc M / nQc M)%Qc with 1%Qc in B by (field; now apply nQc_nz). exact B.
Qed.
Lemma rowval_ok d g c s : (forall j, 0 <= d j /\ d j < 1)%Qc -> In c (lists_of (seq 0 M) k) -> exton g -> valid (ncard bn) (bn_V bn) s ->
  weighted_sample bn ev (urow d c) s -> rowval d g c = g s.
Proof.
  intros D Hc Eg V A. unfold rowval. assert (U := row_unit d c D Hc). apply (sum_over_single _ _ _ s); [apply (wn_V _ W)|assumption| |].
  - intros b _ Vb Eb. assert (Ab : weighted_sample bn ev (urow d c) b) by (apply (weighted_ext _ s); auto; intros; symmetry; auto).
    assert (Ag := weighted_agrees _ _ Ab). rewrite Ag. cbn [andb]. replace (inbox d c b) with true; [now apply Eg|]. symmetry. apply forallb_forall. intros j Hj. apply in_seq in Hj.
    apply (proj1 (box_iff (urow d c) b U Vb Ag) Ab). lia.
  - intros b _ Vb (w & Hw & Ne). destruct (agrees bn ev b) eqn:Ag; [|reflexivity]. destruct (inbox d c b) eqn:Ib; [|reflexivity]. exfalso. apply Ne.
    apply (weighted_unique bn ev (urow d c)); [apply sm|assumption| |assumption|assumption|assumption].
    apply (box_iff (urow d c) b U Vb Ag). intros j Hj. unfold inbox in Ib. rewrite forallb_forall in Ib. apply Ib. apply in_seq. lia.
Qed.
Lemma row_exists d c : (forall j, 0 <= d j /\ d j < 1)%Qc -> In c (lists_of (seq 0 M) k) ->
  exists s, weighted_sample bn ev (urow d c) s /\ valid (ncard bn) (bn_V bn) s.
Proof.
  intros D Hc. assert (U := row_unit d c D Hc). destruct (lw_ok bn ev id_oracle (fun _ => urow d c) 1 sm Top GE (fun _ => U) ltac:(lia)) as (s & Hs & _).
  exists (s 0). apply Hs. lia.
Qed.
(** the law of a row *)
Lemma rowval_average d g : (forall j, 0 <= d j /\ d j < 1)%Qc ->
  average (lists_of (seq 0 M) k) (rowval d (fun a => likelihood bn ev a * g a)%Qc) =
  sum_over (ncard bn) (bn_V bn) (fun a => if agrees bn ev a then joint bn a * g a else 0)%Qc (fun _ => 0).
Proof.
  intros D. unfold rowval. rewrite average_sum_over. apply sum_over_congr. intros a _ V. specialize (V (wn_V _ W)). assert (Mp := proj1 Den).
  assert (NE : seq 0 M <> []) by (destruct M; [lia|discriminate]).
  destruct (agrees bn ev a) eqn:Ag; cbn [andb].
  - rewrite (average_ext _ _ (fun c => (likelihood bn ev a * g a) * qprod (map (fun j => if inb (lo a j) (hi a j) ((nQc (nth j c 0%nat) + d j) / nQc M) then 1 else 0) (seq 0 k)))%Qc).
    + rewrite average_scale.
      rewrite (average_prod nat (seq 0 M) NE 0 k (fun j x => if inb (lo a j) (hi a j) ((nQc x + d j) / nQc M) then 1 else 0)%Qc).
      rewrite (qprod_map_ext _ (fun j => hi a j - lo a j)%Qc).
      * rewrite <- (volume a). ring.
      * intros j Hj. apply in_seq in Hj. destruct (bounds_grid a j V ltac:(lia)) as (l & h & L & El & Eh). rewrite El, Eh. now apply cell_average.
    + intros c _. unfold inbox. generalize (seq 0 k). intros js. generalize (likelihood bn ev a * g a)%Qc. intros q. clear.
      induction js as [|j js IH]; [cbn; ring|]. cbn [forallb map qprod fold_right]. destruct (inb _ _ _); cbn [andb].
      * rewrite IH. unfold qprod. ring.
      * ring.
  - apply average_const. apply lists_ne. assumption.
Qed.
Lemma rowval_ext d g h c : (forall a, g a = h a) -> rowval d g c = rowval d h c.
Proof. intros E. unfold rowval. apply sum_over_congr. intros b _ _. now rewrite E. Qed.
End Row.
