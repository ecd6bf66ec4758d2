(** DataFacts.v -- facts about DataUtils.v: digits, codes, bins, merged columns. *)
From Verif Require Import Py Num BayesNet Data IO StructScore SpecConstraint GraphNet JsonFacts SpecData DataUtils.
From Coq Require Import Ascii DecimalString DecimalNat DecimalFacts.
Open Scope nat_scope.

(** ** Digits *)
Lemma int_acc_uint d : forall acc, int_acc (NilEmpty.string_of_uint d) acc = Ok (Nat.of_uint_acc d acc).
Proof.
  induction d; intros acc; cbn [NilEmpty.string_of_uint int_acc]; [reflexivity|..];
    (let x := eval vm_compute in 48 in idtac); unfold digit;
    match goal with |- context [nat_of_ascii ?c] => let v := eval vm_compute in (nat_of_ascii c) in change (nat_of_ascii c) with v end;
    cbn [Nat.leb andb Nat.sub]; rewrite IHd; cbn [Nat.of_uint_acc]; rewrite Nat.tail_mul_spec; f_equal; f_equal; lia.
Qed.
Lemma to_uint_nonnil n : Nat.to_uint n <> Decimal.Nil.
Proof. rewrite <- (Unsigned.of_to n), Unsigned.to_of. apply unorm_nonnil. Qed.
Lemma str_nat_eq n : str_nat n = NilEmpty.string_of_uint (Nat.to_uint n).
Proof. unfold str_nat. pose proof (to_uint_nonnil n). destruct (Nat.to_uint n); [congruence|reflexivity..]. Qed.
Lemma int_acc_str n : int_acc (str_nat n) 0 = Ok n.
Proof. rewrite str_nat_eq, int_acc_uint. f_equal. apply Unsigned.of_to. Qed.
Lemma str_nat_nonempty n : str_nat n <> EmptyString.
Proof. rewrite str_nat_eq. pose proof (to_uint_nonnil n). destruct (Nat.to_uint n); [congruence|discriminate..]. Qed.
Lemma py_int_str n : py_int (str_nat n) = Ok n.
Proof. unfold py_int. pose proof (str_nat_nonempty n). pose proof (int_acc_str n). destruct (str_nat n); [congruence|assumption]. Qed.
Lemma int_acc_app s t acc : int_acc (s ++ t) acc = (do a <- int_acc s acc ;; int_acc t a).
Proof. revert acc. induction s as [|c s IH]; intros acc; [reflexivity|]. cbn [String.append int_acc]. destruct (digit c); [apply IH|reflexivity]. Qed.
Lemma digit_lt c d : digit c = Some d -> d < 10.
Proof. unfold digit. destruct (_ <=? _) eqn:E1; [|discriminate]. destruct (nat_of_ascii c <=? 57) eqn:E2; [|discriminate]. intros [= <-]. apply Nat.leb_le in E1, E2. lia. Qed.
(** digits read after [acc] *)
Lemma int_acc_shift s : forall acc v, int_acc s acc = Ok v -> exists w, int_acc s 0 = Ok w /\ w < 10 ^ String.length s /\ v = acc * 10 ^ String.length s + w.
Proof.
  induction s as [|c s IH]; intros acc v; cbn [int_acc String.length].
  - intros [= <-]. exists 0. simpl. split; [reflexivity|]. lia.
  - destruct (digit c) as [d|] eqn:Ed; [|discriminate]. intros H. pose proof (digit_lt c d Ed) as Hd. destruct (IH _ _ H) as (w & E0 & Lw & Ev).
    destruct (int_acc s (0 * 10 + d)) as [v'|e] eqn:E1.
    + destruct (IH _ _ E1) as (w' & E0' & _ & Ev'). rewrite E0 in E0'. injection E0' as <-. exists v'. split; [reflexivity|]. rewrite Nat.pow_succ_r'. nia.
    + exfalso. clear -H E1. revert H E1. generalize (acc * 10 + d), (0 * 10 + d). clear. induction s as [|c s IH]; intros a b; simpl; [discriminate|]. destruct (digit c); [apply IH|discriminate].
Qed.
Lemma str_nat_bound n : n < 10 ^ String.length (str_nat n).
Proof. destruct (int_acc_shift _ _ _ (int_acc_str n)) as (w & E & L & Ev). lia. Qed.
(** no leading zero *)
Lemma str_nat_head n : exists c r d, str_nat n = String c r /\ digit c = Some d /\ (d = 0 -> r = EmptyString).
Proof.
  rewrite str_nat_eq. rewrite <- (Unsigned.of_to n), Unsigned.to_of. unfold Decimal.unorm.
  assert (H : forall d, match Decimal.nzhead d with Decimal.D0 _ => False | _ => True end) by (induction d; simpl; auto).
  specialize (H (Nat.to_uint n)). destruct (Decimal.nzhead (Nat.to_uint n)); try contradiction; cbn [NilEmpty.string_of_uint]; do 3 eexists; (split; [reflexivity|]); (split; [reflexivity|]); intros; try discriminate; reflexivity.
Qed.
Lemma str_nat_length n w : n < 10 ^ S w -> String.length (str_nat n) <= S w.
Proof.
  intros L. destruct (str_nat_head n) as (c & r & d & E & Ed & Z). pose proof (int_acc_str n) as H. rewrite E in H |- *. cbn [int_acc] in H. cbn [String.length]. rewrite Ed in H.
  destruct (Nat.eq_dec d 0) as [->|Nd]; [rewrite (Z eq_refl); simpl; lia|].
  destruct (int_acc_shift _ _ _ H) as (v & _ & _ & Ev). apply le_n_S.
  destruct (Nat.le_gt_cases (String.length r) w) as [|G]; [assumption|exfalso].
  assert (10 ^ S w <= 10 ^ String.length r) by (apply Nat.pow_le_mono_r; lia). nia.
Qed.
Lemma substring_all s k : String.length s <= k -> substring 0 k s = s.
Proof. revert k. induction s as [|c s IH]; intros [|k] L; simpl in *; try lia; [reflexivity..|]. rewrite IH by lia. reflexivity. Qed.
Lemma int_acc_prefix s k v : int_acc s 0 = Ok v -> k <= String.length s -> exists w, int_acc (substring 0 k s) 0 = Ok w /\ w < 10 ^ k.
Proof.
  intros H L. assert (G : forall s k acc v, int_acc s acc = Ok v -> k <= String.length s -> String.length (substring 0 k s) = k /\ exists w, int_acc (substring 0 k s) acc = Ok w).
  { clear. induction s as [|c s IH]; intros [|k] acc v; cbn [int_acc String.length substring]; intros H L; [split; [reflexivity|eauto]|lia|split; [reflexivity|eauto]|].
    destruct (digit c) as [d|] eqn:Ed; [|discriminate]. destruct (IH k _ _ H) as (A & w & B); [lia|]. rewrite A. eauto. }
  destruct (G s k 0 v H L) as (A & w & B). exists w. split; [exact B|]. destruct (int_acc_shift _ _ _ B) as (w' & E & Lw & Ev). rewrite A in Lw. lia.
Qed.

(** ** Codes *)
Lemma put_code_id w i : match w with None => True | Some k => 0 < k /\ i < 10 ^ k end -> put_code w i = Ok i.
Proof.
  destruct w as [k|]; simpl; [|reflexivity]. intros [K L]. destruct k as [|k]; [lia|]. rewrite substring_all by now apply str_nat_length. apply py_int_str.
Qed.
Lemma put_code_lt k i : 0 < k -> exists c, put_code (Some k) i = Ok c /\ c < 10 ^ k.
Proof.
  intros K. destruct (Nat.le_gt_cases (10 ^ k) i) as [G|L]; [|exists i; split; [now apply put_code_id|exact L]].
  assert (Lk : k <= String.length (str_nat i)).
  { pose proof (str_nat_bound i). destruct (Nat.le_gt_cases k (String.length (str_nat i))) as [|C]; [assumption|exfalso]. assert (10 ^ String.length (str_nat i) <= 10 ^ k) by (apply Nat.pow_le_mono_r; lia). lia. }
  destruct (int_acc_prefix _ k _ (int_acc_str i) Lk) as (w & E & Lw). exists w. split; [|exact Lw]. cbn [put_code]. unfold py_int.
  pose proof (str_nat_nonempty i) as NE. destruct k as [|k]; [lia|]. destruct (str_nat i) as [|c s]; [congruence|]. cbn [substring] in *. exact E.
Qed.

Lemma list_index_nth l x : In x l -> exists k, list_index l x = Ok k /\ nth_error l k = Some x.
Proof. intros H. destruct (index_of_In x l H) as [k E]. exists k. unfold list_index. rewrite E. split; [reflexivity|]. now apply index_of_Some. Qed.

(** cells of a table *)

Lemma column_ok t i : table_ok t -> i < t_ncols t -> exists c, column t i = Ok c /\ length c = length (t_rows t) /\ forall r, nth_error c r = cell t r i.
Proof.
  intros W Hi. unfold column. apply Nat.ltb_lt in Hi as Hb. rewrite Hb. unfold table_ok in W.
  assert (G : forall rows : list (list name), (forall r, In r rows -> length r = t_ncols t) -> exists c : list name, mapM (fun r => nget r i) rows = Ok c /\ length c = length rows /\ forall r, nth_error c r = match nth_error rows r with Some row => nth_error row i | None => None end).
  { induction rows as [|row rows IH]; intros H; [exists []; split; [reflexivity|]; split; [reflexivity|]; intros [|r]; reflexivity|].
    destruct IH as (c & E & Lc & Hc); [intros; apply H; now right|]. destruct (nth_error row i) as [x|] eqn:Ex.
    - exists (x :: c). cbn [mapM]. unfold nget at 1. rewrite Ex. cbn [bind]. rewrite E. split; [reflexivity|]. split; [simpl; lia|]. intros [|r]; simpl; [now rewrite Ex|apply Hc].
    - apply nth_error_None in Ex. rewrite (H row (or_introl eq_refl)) in Ex. lia. }
  apply (G (t_rows t) W).
Qed.
Definition colvals (t : table) (i : nat) : list name := match column t i with Ok c => np_unique c | Raise _ => [] end.
Lemma In_colvals t i x : table_ok t -> i < t_ncols t -> In x (colvals t i) <-> exists r, cell t r i = Some x.
Proof.
  intros W Hi. unfold colvals. destruct (column_ok t i W Hi) as (c & E & Lc & Hc). rewrite E, In_np_unique. split.
  - intros H. apply In_nth_error in H as [r H]. exists r. now rewrite <- Hc.
  - intros [r H]. rewrite <- Hc in H. eapply nth_error_In; exact H.
Qed.
Lemma replace_vd t : table_ok t -> mapM (fun i => do c <- column t i ;; Ok (NInt i, np_unique c)) (seq 0 (t_ncols t)) = Ok (map (fun i => (NInt i, colvals t i)) (seq 0 (t_ncols t))).
Proof.
  intros W. apply mapM_ok. intros i Hi. apply in_seq in Hi. destruct (column_ok t i W) as (c & E & _); [lia|]. unfold colvals. rewrite E. reflexivity.
Qed.
Lemma dget_vd {A} (f : nat -> A) n i : i < n -> dget (map (fun i => (NInt i, f i)) (seq 0 n)) (NInt i) = Some (f i).
Proof.
  intros H. assert (G : forall l, In i l -> dget (map (fun i => (NInt i, f i)) l) (NInt i) = Some (f i)).
  { induction l as [|j l IH]; simpl; [tauto|]. intros K. destruct (Nat.eqb_spec i j) as [->|N]; [reflexivity|]. apply IH. destruct K; congruence. }
  apply G. apply in_seq. lia.
Qed.
(** what replace_strings returns: the code of a cell is made from its position among the sorted values of its column *)
Lemma replace_strings_ok w t : table_ok t -> (match w with None => True | Some k => 0 < k end) ->
  exists t', replace_strings w t = Ok (t', map (fun i => (NInt i, colvals t i)) (seq 0 (t_ncols t))) /\ t_ncols t' = t_ncols t /\ length (t_rows t') = length (t_rows t) /\ table_ok t' /\
  forall r i x, i < t_ncols t -> cell t r i = Some x -> exists k c, nth_error (colvals t i) k = Some x /\ put_code w k = Ok c /\ cell t' r i = Some (NInt c).
Proof.
  intros W Hw. unfold replace_strings. rewrite replace_vd by exact W. cbn [bind].
  set (vd := map (fun i => (NInt i, colvals t i)) (seq 0 (t_ncols t))).
  set (code := fun (r : list name) i => do x <- nget r i ;; do vals <- getitem vd (NInt i) ;; do k <- list_index vals x ;; do c <- put_code w k ;; Ok (NInt c)).
  assert (PC : forall k, exists c, put_code w k = Ok c).
  { intros k. destruct w as [q|]; [destruct (put_code_lt q k Hw) as (c & E & _); eauto|simpl; eauto]. }
  assert (G : forall rows, (forall row, In row rows -> In row (t_rows t)) -> exists out, mapM (fun r => mapM (code r) (seq 0 (t_ncols t))) rows = Ok out /\ length out = length rows /\
     (forall o, In o out -> length o = t_ncols t) /\
     forall n row i x, nth_error rows n = Some row -> nth_error row i = Some x -> i < t_ncols t -> exists k c o, nth_error (colvals t i) k = Some x /\ put_code w k = Ok c /\ nth_error out n = Some o /\ nth_error o i = Some (NInt c)).
  { induction rows as [|row rows IH]; intros Hr; [exists []; split; [reflexivity|]; split; [reflexivity|]; split; [intros ? []|intros [|n]; discriminate]|].
    destruct IH as (out & E & Lo & Wo & Ho); [intros; apply Hr; now right|].
    assert (Hrow : In row (t_rows t)) by (apply Hr; now left). pose proof (W row Hrow) as Lrow. apply In_nth_error in Hrow as [n0 Hn0].
    assert (C1 : forall i, i < t_ncols t -> exists x k c, nth_error row i = Some x /\ nth_error (colvals t i) k = Some x /\ put_code w k = Ok c /\ code row i = Ok (NInt c)).
    { intros i Hi. destruct (nth_error row i) as [x|] eqn:Ex; [|apply nth_error_None in Ex; lia].
      assert (Ix : In x (colvals t i)) by (apply In_colvals; [exact W|exact Hi|]; exists n0; unfold cell; now rewrite Hn0).
      destruct (list_index_nth _ _ Ix) as (k & Ek & Nk). destruct (PC k) as [c Ec]. exists x, k, c. split; [reflexivity|]. split; [exact Nk|]. split; [exact Ec|].
      unfold code, nget. rewrite Ex. cbn [bind]. unfold vd. rewrite (getitem_Some _ _ _ (dget_vd (colvals t) _ _ Hi)). cbn [bind]. rewrite Ek. cbn [bind]. rewrite Ec. reflexivity. }
    assert (C2 : exists o, mapM (code row) (seq 0 (t_ncols t)) = Ok o /\ length o = t_ncols t /\ forall i, i < t_ncols t -> exists x k c, nth_error row i = Some x /\ nth_error (colvals t i) k = Some x /\ put_code w k = Ok c /\ nth_error o i = Some (NInt c)).
    { assert (Q : forall m s, s + m <= t_ncols t -> exists o, mapM (code row) (seq s m) = Ok o /\ length o = m /\ forall i, i < m -> exists x k c, nth_error row (s + i) = Some x /\ nth_error (colvals t (s + i)) k = Some x /\ put_code w k = Ok c /\ nth_error o i = Some (NInt c)).
      { induction m as [|m IHm]; intros s Hs; [exists []; split; [reflexivity|]; split; [reflexivity|]; intros i Hi; lia|]. destruct (C1 s) as (x & k & c & A1 & A2 & A3 & A4); [lia|]. destruct (IHm (S s)) as (o & B1 & B2 & B3); [lia|].
        exists (NInt c :: o). cbn [seq mapM]. rewrite A4. cbn [bind]. rewrite B1. split; [reflexivity|]. split; [simpl; lia|]. intros [|i] Hi; [rewrite Nat.add_0_r; eauto 10|]. destruct (B3 i) as (x' & k' & c' & B); [lia|]. replace (s + S i) with (S s + i) by lia. eauto 10. }
      apply (Q (t_ncols t) 0). lia. }
    destruct C2 as (o & Eo & Lo' & Ho'). exists (o :: out). cbn [mapM]. rewrite Eo. cbn [bind]. rewrite E. split; [reflexivity|]. split; [simpl; lia|]. split; [intros q [<-|Hq]; [exact Lo'|now apply Wo]|].
    intros [|n] row' i x En Ei Hi; simpl in En.
    - injection En as <-. destruct (Ho' i Hi) as (x' & k & c & B1 & B2 & B3 & B4). rewrite Ei in B1. injection B1 as <-. exists k, c, o. auto.
    - destruct (Ho n row' i x En Ei Hi) as (k & c & o' & B). exists k, c, o'. exact B. }
  destruct (G (t_rows t) (fun _ H => H)) as (out & E & Lo & Wo & Ho). unfold code in E. rewrite E. cbn [bind]. eexists. split; [reflexivity|]. cbn [t_ncols t_rows].
  split; [reflexivity|]. split; [exact Lo|]. split; [exact Wo|]. intros r i x Hi Hc. unfold cell in Hc. destruct (nth_error (t_rows t) r) as [row|] eqn:Er; [|discriminate].
  destruct (Ho r row i x Er Hc Hi) as (k & c & o & A & B & C & D). exists k, c. unfold cell. cbn [t_rows]. rewrite C. auto.
Qed.
