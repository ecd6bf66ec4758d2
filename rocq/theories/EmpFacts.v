(** EmpFacts.v -- lemmas for C107. *)
From Verif Require Import Py Num BayesNet Data SpecConstraint SpecLearn SpecData DataUtils DataFacts HistFacts MiFacts Empirical.
Open Scope nat_scope.

Lemma F2_length {A B} (R : A -> B -> Prop) l m : Forall2 R l m -> length l = length m.
Proof. induction 1; cbn; congruence. Qed.
Lemma tuples_in bins : forall idx, In idx (tuples bins) <-> Forall2 (fun i n => i < n) idx bins.
Proof.
  induction bins as [|n bins IH]; intros idx; cbn [tuples].
  - split; [intros [<-|[]]; constructor|intros H; inversion H; now left].
  - rewrite in_flat_map. split.
    + intros (i & Hi & H). apply in_map_iff in H as (r & <- & H). apply in_seq in Hi. constructor; [lia|now apply IH].
    + intros H. inversion H as [|i n' r bins' Hi Hr]; subst. exists i. split; [apply in_seq; lia|]. apply in_map. now apply IH.
Qed.
Lemma tuples_nodup bins : NoDup (tuples bins).
Proof.
  induction bins as [|n bins IH]; cbn [tuples]; [repeat constructor; intros []|].
  assert (G : forall l, NoDup l -> NoDup (flat_map (fun i => map (cons i) (tuples bins)) l)).
  { induction l as [|i l IHl]; intros N; [constructor|]. inversion N as [|? ? N1 N2]; subst. cbn [flat_map]. apply NoDup_app_intro; [apply FinFun.Injective_map_NoDup; [intros a b E; now injection E|exact IH]|now apply IHl|].
    intros x Hx Hy. apply in_map_iff in Hx as (r & <- & _). apply in_flat_map in Hy as (j & Hj & Hy). apply in_map_iff in Hy as (r' & E & _). injection E as <- _. contradiction. }
  apply G, seq_NoDup.
Qed.
Lemma row_code t cols ranges : table_ok t -> Forall2 (consecutive t) cols ranges -> forall row, In row (t_rows t) ->
  exists code, In code (tuples (map snd ranges)) /\
    (forall idx, length idx = length cols -> forallb (entryb row) (combine cols (map (fun p => NInt (fst (fst p) + snd p)) (combine ranges idx))) = row_eqb code idx) /\
    forall i v ak k, nth_error cols i = Some v -> nth_error ranges i = Some ak -> entryb row (v, NInt (fst ak + k)) = (nth i code 0 =? k).
Proof.
  intros W F row Hrow. apply In_nth_error in Hrow as [r Hr]. induction F as [|v ak cols ranges C F (code & I & E & X)].
  - exists []. split; [now left|]. split; [intros [|] L; [reflexivity|discriminate]|]. intros [|i] v ak k H; discriminate.
  - destruct (ints_ok t v W (consecutive_coded _ _ _ C)) as (_ & L & j & Ej & Hn). assert (R : r < length (t_rows t)) by (apply nth_error_Some; congruence). specialize (Hn r R). unfold cell in Hn. rewrite Hr in Hn.
    set (x := nth r (ints t v) 0) in *. assert (Ix : In x (ints t v)) by (apply nth_In; lia). apply (consecutive_ints t v ak W C) in Ix.
    assert (One : forall k, entryb row (v, NInt (fst ak + k)) = (x - fst ak =? k)).
    { intros k. unfold entryb. cbn [fst snd]. rewrite Ej. rewrite Hn. destruct (name_eqb_spec (NInt x) (NInt (fst ak + k))) as [Q|Q]; symmetry; [apply Nat.eqb_eq; injection Q as Q; lia|apply Nat.eqb_neq; intros Z; apply Q; f_equal; lia]. }
    exists (x - fst ak :: code). split; [apply tuples_in; cbn [map]; constructor; [lia|now apply tuples_in]|]. split.
    + intros [|k idx] Li; [discriminate|]. injection Li as Li. cbn [combine map forallb fst snd]. rewrite One, (E idx Li). unfold row_eqb. destruct (Nat.eqb_spec (x - fst ak) k) as [->|N].
      * cbn [andb]. destruct (list_eq_dec Nat.eq_dec code idx) as [->|N]; destruct (list_eq_dec Nat.eq_dec (k :: _) (k :: _)); congruence.
      * cbn [andb]. destruct (list_eq_dec Nat.eq_dec (_ :: code) (k :: idx)); congruence.
    + intros [|i] v' ak' k H1 H2; cbn in H1, H2; [injection H1 as <-; injection H2 as <-; apply One|now apply (X i)].
Qed.
Lemma row_eqb_true a b : row_eqb a b = true <-> a = b.
Proof. unfold row_eqb. destruct (list_eq_dec Nat.eq_dec a b); split; congruence. Qed.
(** counting rows by their code *)
Lemma count_by_code {A} (L : list (list nat)) (P : A -> list nat -> bool) (Q : A -> bool) (sel : list nat -> bool) (rows : list A) : NoDup L ->
  (forall row, In row rows -> exists code, In code L /\ (forall idx, In idx L -> P row idx = row_eqb code idx) /\ Q row = sel code) ->
  list_sum (map (fun idx => length (filter (fun row => P row idx) rows)) (filter sel L)) = length (filter Q rows).
Proof.
  intros N. induction rows as [|row rows IH]; intros H.
  - cbn. induction (filter sel L); cbn; auto.
  - assert (Sp : forall l, list_sum (map (fun idx => length (filter (fun row => P row idx) (row :: rows))) l) = length (filter (P row) l) + list_sum (map (fun idx => length (filter (fun row => P row idx) rows)) l)).
    { induction l as [|a l IHl]; [reflexivity|]. cbn [map list_sum fold_right filter] in *. unfold list_sum in *. cbn [filter] in IHl. rewrite IHl. destruct (P row a); cbn [length]; lia. }
    rewrite Sp, IH by (intros; apply H; now right). cbn [filter]. destruct (H row (or_introl eq_refl)) as (code & Ic & EP & EQ). rewrite EQ.
    assert (Z : length (filter (P row) (filter sel L)) = if sel code then 1 else 0).
    { clear -N Ic EP. induction L as [|a L IHL]; [destruct Ic|]. inversion N as [|? ? N1 N2]; subst. destruct Ic as [->|Ic].
      - cbn [filter]. assert (Rest : forall l, ~ In code l -> (forall idx, In idx l -> P row idx = row_eqb code idx) -> filter (P row) (filter sel l) = []).
        { induction l as [|b l IHl]; intros Nl El; [reflexivity|]. assert (Eb : P row b = false) by (rewrite El by (now left); apply not_true_iff_false; rewrite row_eqb_true; intros ->; apply Nl; now left).
          assert (IH' : filter (P row) (filter sel l) = []) by (apply IHl; [intros X; apply Nl; now right|intros; apply El; now right]). cbn [filter]. destruct (sel b); [cbn [filter]; rewrite Eb|]; exact IH'. }
        specialize (Rest L N1). destruct (sel code); [cbn [filter]; rewrite EP by (now left); rewrite (proj2 (row_eqb_true code code) eq_refl); cbn [length]|]; rewrite Rest by (intros; apply EP; now right); reflexivity.
      - cbn [filter]. assert (Na : code <> a) by (intros ->; contradiction). specialize (IHL N2 Ic ltac:(intros; apply EP; now right)). destruct (sel a); [|exact IHL]. cbn [filter]. rewrite EP by (now left). replace (row_eqb code a) with false by (symmetry; apply not_true_iff_false; now rewrite row_eqb_true). exact IHL. }
    rewrite Z. destruct (sel code); cbn [length]; lia.
Qed.
Lemma filter_true {A} (l : list A) : filter (fun _ => true) l = l.
Proof. induction l as [|x l IH]; [reflexivity|]. cbn. now rewrite IH. Qed.
Lemma contingency_sum t cols ranges : table_ok t -> Forall2 (consecutive t) cols ranges -> list_sum (contingency t cols ranges) = length (t_rows t).
Proof.
  intros W F. unfold contingency, rows_with. rewrite <- (filter_true (tuples (map snd ranges))).
  transitivity (length (filter (fun _ => true) (t_rows t))); [|now rewrite filter_true]. apply (count_by_code (tuples (map snd ranges)) (fun row idx => forallb (entryb row) (combine cols (map (fun p => NInt (fst (fst p) + snd p)) (combine ranges idx)))) (fun _ => true) (fun _ => true)); [apply tuples_nodup|].
  intros row Hr. destruct (row_code t cols ranges W F row Hr) as (code & I & E & _). exists code. split; [exact I|]. split; [|reflexivity]. intros idx Hi. apply E. apply In_tuples in Hi. rewrite map_length in Hi. now rewrite (F2_length _ _ _ F).
Qed.
Lemma contingency_marginal t cols ranges i v ak k : table_ok t -> Forall2 (consecutive t) cols ranges -> nth_error cols i = Some v -> nth_error ranges i = Some ak ->
  list_sum (map (fun idx => rows_with t (combine cols (map (fun p => NInt (fst (fst p) + snd p)) (combine ranges idx)))) (filter (fun idx => nth i idx 0 =? k) (tuples (map snd ranges)))) = rows_with t [(v, NInt (fst ak + k))].
Proof.
  intros W F Hv Ha. unfold rows_with. apply (count_by_code (tuples (map snd ranges)) (fun row idx => forallb (entryb row) (combine cols (map (fun p => NInt (fst (fst p) + snd p)) (combine ranges idx)))) (fun r => forallb (entryb r) [(v, NInt (fst ak + k))])); [apply tuples_nodup|].
  intros row Hr. destruct (row_code t cols ranges W F row Hr) as (code & I & E & X). exists code. split; [exact I|]. split; [intros idx Hi; apply E; apply In_tuples in Hi; rewrite map_length in Hi; now rewrite (F2_length _ _ _ F)|].
  cbn [forallb]. rewrite andb_true_r. now apply X.
Qed.
(** the number of tuples with a given entry *)
Lemma tuples_length bins : length (tuples bins) = fold_right Nat.mul 1 bins.
Proof.
  induction bins as [|n bins IH]; [reflexivity|]. cbn [tuples fold_right]. rewrite <- IH. clear IH. generalize 0 at 1. induction n as [|n IH]; intros a; [reflexivity|]. cbn [seq flat_map]. rewrite app_length, map_length, IH. cbn. reflexivity.
Qed.
Lemma tuples_slice bins : forall i k, i < length bins -> k < nth i bins 0 -> length (filter (fun idx => nth i idx 0 =? k) (tuples bins)) = others bins i.
Proof.
  induction bins as [|n bins IH]; intros i k Hi Hk; [cbn in Hi; lia|]. cbn [tuples].
  assert (Fl : forall (p : list nat -> bool) l, length (filter p (flat_map (fun j => map (cons j) (tuples bins)) l)) = list_sum (map (fun j => length (filter (fun r => p (j :: r)) (tuples bins))) l)).
  { intros p. induction l as [|j l IHl]; [reflexivity|]. cbn [flat_map map list_sum fold_right]. rewrite filter_app, app_length, IHl. f_equal. clear. induction (tuples bins) as [|r R IR]; [reflexivity|]. cbn [map filter]. destruct (p (j :: r)); cbn [length]; congruence. }
  rewrite Fl. destruct i as [|i]; cbn [nth] in *.
  - unfold others. cbn [firstn skipn app]. rewrite <- tuples_length.
    assert (G : forall m a, list_sum (map (fun j => length (filter (fun _ : list nat => j =? k) (tuples bins))) (seq a m)) = if (a <=? k) && (k <? a + m) then length (tuples bins) else 0).
    { induction m as [|m IHm]; intros a; [rewrite Nat.add_0_r; destruct (Nat.leb_spec a k), (Nat.ltb_spec k a); cbn; try reflexivity; lia|].
      cbn [seq map list_sum fold_right]. unfold list_sum in IHm. rewrite (IHm (S a)). clear IHm.
      assert (FF : length (filter (fun _ : list nat => a =? k) (tuples bins)) = if a =? k then length (tuples bins) else 0) by (destruct (a =? k); [now rewrite filter_true|]; clear; induction (tuples bins); auto).
      rewrite FF. destruct (Nat.eqb_spec a k), (Nat.leb_spec a k), (Nat.leb_spec (S a) k), (Nat.ltb_spec k (a + S m)), (Nat.ltb_spec k (S a + m)); cbn; lia. }
    rewrite G. replace ((0 <=? k) && (k <? 0 + n)) with true; [reflexivity|]. symmetry. apply andb_true_iff. split; [apply Nat.leb_le; lia|apply Nat.ltb_lt; lia].
  - cbn [length] in Hi. unfold others. cbn [firstn skipn app fold_right]. fold (others bins i). rewrite (map_ext _ (fun _ => others bins i)) by (intros j; cbn [nth]; apply IH; [lia|exact Hk]).
    generalize 0 at 1. clear. induction n as [|n IH]; intros a; [reflexivity|]. cbn [seq map list_sum fold_right]. unfold list_sum in IH. rewrite IH. reflexivity.
Qed.
Lemma nQc_list_sum l : nQc (list_sum l) = qsum (map nQc l).
Proof. induction l as [|x l IH]; [apply nQc_0|]. cbn [list_sum fold_right map qsum]. rewrite nQc_plus. unfold list_sum in IH. now rewrite IH. Qed.
