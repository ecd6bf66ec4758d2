(** HistFacts.v -- facts about merged columns and histogram bins. *)
From Verif Require Import Py Num BayesNet Data IO StructScore SpecConstraint GraphNet JsonFacts SpecData DataUtils DataFacts.
From Coq Require Import Ascii.
Open Scope nat_scope.

(** ** Minimum and maximum *)
Lemma fold_min_le l : forall a, fold_left Nat.min l a <= a /\ forall x, In x l -> fold_left Nat.min l a <= x.
Proof. induction l as [|y l IH]; intros a; simpl; [split; [lia|tauto]|]. destruct (IH (Nat.min a y)) as [A B]. split; [lia|]. intros x [<-|H]; [lia|auto]. Qed.
Lemma fold_min_in l : forall a, fold_left Nat.min l a = a \/ In (fold_left Nat.min l a) l.
Proof. induction l as [|y l IH]; intros a; simpl; [now left|]. destruct (IH (Nat.min a y)) as [E|H]; [|auto]. rewrite E. destruct (Nat.min_spec a y) as [[_ ->]|[_ ->]]; auto. Qed.
Lemma nmin_le l x : In x l -> nmin_list l <= x.
Proof. destruct l as [|y l]; simpl; [tauto|]. destruct (fold_min_le l y) as [A B]. intros [<-|H]; auto. Qed.
Lemma nmin_in l : l <> [] -> In (nmin_list l) l.
Proof. destruct l as [|y l]; [congruence|]. intros _. simpl. destruct (fold_min_in l y) as [->|H]; auto. Qed.
Lemma fold_max_ge l : forall a, a <= fold_left Nat.max l a /\ forall x, In x l -> x <= fold_left Nat.max l a.
Proof. induction l as [|y l IH]; intros a; simpl; [split; [lia|tauto]|]. destruct (IH (Nat.max a y)) as [A B]. split; [lia|]. intros x [<-|H]; [lia|auto]. Qed.
Lemma fold_max_in l : forall a, fold_left Nat.max l a = a \/ In (fold_left Nat.max l a) l.
Proof. induction l as [|y l IH]; intros a; simpl; [now left|]. destruct (IH (Nat.max a y)) as [E|H]; [|auto]. rewrite E. destruct (Nat.max_spec a y) as [[_ ->]|[_ ->]]; auto. Qed.
Lemma nmax_ge l x : In x l -> x <= nmax_list l.
Proof. intros H. now apply fold_max_ge. Qed.
Lemma nmax_in l : l <> [] -> In (nmax_list l) l.
Proof. destruct l as [|y l]; [congruence|]. intros _. unfold nmax_list. destruct (fold_max_in (y :: l) 0) as [E|H]; [|exact H]. rewrite E. pose proof (nmax_ge (y :: l) y (or_introl eq_refl)) as G. unfold nmax_list in G. rewrite E in G. left. lia. Qed.

(** ** Rows of columns *)
Lemma transpose_length N cs : (forall c, In c cs -> length c = N) -> length (transpose N cs) = N.
Proof. induction cs as [|c cs IH]; intros H; simpl; [apply repeat_length|]. rewrite map_length, combine_length, IH by (intros; apply H; now right). rewrite (H c (or_introl eq_refl)). lia. Qed.
Lemma nth_transpose N cs : (forall c, In c cs -> length c = N) -> forall r, r < N -> nth_error (transpose N cs) r = Some (map (fun c => nth r c 0) cs).
Proof.
  induction cs as [|c cs IH]; intros H r Hr; cbn [transpose map].
  - rewrite (nth_error_nth' _ []) by (now rewrite repeat_length). f_equal. now rewrite nth_repeat.
  - assert (Lc : length c = N) by (apply H; now left). specialize (IH (fun c Hc => H c (or_intror Hc)) r Hr).
    rewrite nth_error_map. assert (E : nth_error (combine c (transpose N cs)) r = Some (nth r c 0, map (fun c => nth r c 0) cs)); [|now rewrite E].
    assert (E1 : nth_error c r = Some (nth r c 0)) by (apply nth_error_nth'; lia).
    revert E1 IH. generalize (nth r c 0), (map (fun c => nth r c 0) cs), (transpose N cs). clear. revert c. induction r as [|r IHr]; intros [|x c] a b [|y l]; simpl; try discriminate; [intros [= ->] [= ->]; reflexivity|]. apply IHr.
Qed.

(** ** Merged digits *)
Definition decval (l : list nat) : nat := fold_left (fun a d => a * 10 + d) l 0.
Lemma decval_acc l : forall a, fold_left (fun a d => a * 10 + d) l a = a * 10 ^ length l + decval l.
Proof.
  unfold decval. induction l as [|d l IH]; intros a; [simpl; lia|]. cbn [fold_left length]. rewrite IH, (IH (0 * 10 + d)), Nat.pow_succ_r'. nia.
Qed.
Lemma decval_cons d l : decval (d :: l) = d * 10 ^ length l + decval l.
Proof. unfold decval at 1. cbn [fold_left]. now rewrite decval_acc. Qed.
Lemma decval_lt l : (forall d, In d l -> d < 10) -> decval l < 10 ^ length l.
Proof. induction l as [|d l IH]; intros H; [simpl; unfold decval; simpl; lia|]. rewrite decval_cons. cbn [length]. rewrite Nat.pow_succ_r'. assert (d < 10) by (apply H; now left). assert (decval l < 10 ^ length l) by (apply IH; intros; apply H; now right). nia. Qed.
Lemma decval_inj l : forall m, length l = length m -> (forall d, In d l -> d < 10) -> (forall d, In d m -> d < 10) -> decval l = decval m -> l = m.
Proof.
  induction l as [|d l IH]; intros [|e m] L Hl Hm E; try discriminate; [reflexivity|]. injection L as L. rewrite !decval_cons, L in E.
  assert (A : decval l < 10 ^ length m) by (rewrite <- L; apply decval_lt; intros; apply Hl; now right). assert (B : decval m < 10 ^ length m) by (apply decval_lt; intros; apply Hm; now right).
  assert (d = e) by nia. subst e. f_equal. apply IH; [exact L|intros; apply Hl; now right|intros; apply Hm; now right|lia].
Qed.
Lemma decval_bits l : (forall d, In d l -> d <= 1) -> 9 * decval l + 1 <= 10 ^ length l.
Proof. induction l as [|d l IH]; intros H; [simpl; unfold decval; simpl; lia|]. rewrite decval_cons. cbn [length]. rewrite Nat.pow_succ_r'. assert (d <= 1) by (apply H; now left). assert (9 * decval l + 1 <= 10 ^ length l) by (apply IH; intros; apply H; now right). nia. Qed.
Lemma int_acc_digit d acc s : d < 10 -> int_acc (str_nat d ++ s) acc = int_acc s (acc * 10 + d).
Proof. intros H. do 10 (destruct d as [|d]; [reflexivity|]). lia. Qed.
Lemma int_acc_join l : (forall d, In d l -> d < 10) -> forall acc, int_acc (join_digits l) acc = Ok (fold_left (fun a d => a * 10 + d) l acc).
Proof. induction l as [|d l IH]; intros H acc; [reflexivity|]. cbn [join_digits fold_left]. rewrite int_acc_digit by (apply H; now left). apply IH. intros; apply H; now right. Qed.
Lemma py_int_join l : l <> [] -> (forall d, In d l -> d < 10) -> py_int (join_digits l) = Ok (decval l).
Proof.
  intros N H. pose proof (int_acc_join l H 0) as E. unfold py_int, decval. destruct (join_digits l) eqn:Ej; [|exact E].
  destruct l as [|d l]; [congruence|]. cbn [join_digits] in Ej. pose proof (str_nat_nonempty d). destruct (str_nat d); [congruence|discriminate].
Qed.
Lemma merge_ok N cs : cs <> [] -> (forall c, In c cs -> length c = N /\ forall x, In x c -> x < 10) ->
  exists m, merge N cs = Ok m /\ length m = N /\ forall r, r < N -> nth r m 0 = decval (map (fun c => nth r c 0) cs).
Proof.
  intros NE H. assert (L : forall c, In c cs -> length c = N) by (intros c Hc; now apply H).
  pose proof (transpose_length N cs L) as LT. pose proof (nth_transpose N cs L) as NT.
  exists (map decval (transpose N cs)). split; [|split; [now rewrite map_length|]].
  - unfold merge. apply mapM_ok. intros row Hrow. apply In_nth_error in Hrow as [r Hr].
    assert (r < N) by (rewrite <- LT; apply nth_error_Some; congruence). rewrite NT in Hr by assumption. injection Hr as <-. apply py_int_join; [destruct cs; [congruence|discriminate]|].
    intros d Hd. apply in_map_iff in Hd as (c & <- & Hc). destruct (H c Hc) as [Lc D]. apply D. apply nth_In. lia.
  - intros r Hr. rewrite (nth_indep _ 0 (decval [])) by (rewrite map_length; lia). rewrite map_nth. f_equal. specialize (NT r Hr). now apply nth_error_nth.
Qed.

(** ** Bins *)
Lemma nunique_consecutive a k l : (forall x, In x l <-> a <= x < a + k) -> nunique l = k.
Proof.
  intros H. unfold nunique. rewrite <- (seq_length k a). apply Permutation_length. apply NoDup_Permutation; [apply NoDup_nodup|apply seq_NoDup|].
  intros x. rewrite nodup_In, H, in_seq. reflexivity.
Qed.
Lemma bits_cases l : (forall x, In x l -> x <= 1) -> l = [] \/ (In 0 l /\ In 1 l) \/ (exists b, forall x, In x l <-> x = b).
Proof.
  intros H. destruct l as [|y l']; [now left|right]. set (l := y :: l') in *. destruct (in_dec Nat.eq_dec 0 l) as [Z|Z], (in_dec Nat.eq_dec 1 l) as [O|O]; [now left|right..].
  - exists 0. intros x. split; [|now intros ->]. intros Hx. pose proof (H x Hx). destruct x as [|[|x]]; [reflexivity|contradiction|lia].
  - exists 1. intros x. split; [|now intros ->]. intros Hx. pose proof (H x Hx). destruct x as [|[|x]]; [contradiction|reflexivity|lia].
  - exfalso. pose proof (H y (or_introl eq_refl)). destruct y as [|[|y]]; [apply Z; now left|apply O; now left|lia].
Qed.
Lemma bin_one lo hi x : bin_of lo hi 1 x = 0.
Proof. unfold bin_of. destruct (lo =? hi); [reflexivity|]. rewrite Nat.min_l; lia. Qed.
Lemma binned_one l : binned 1 l = repeat 0 (length l).
Proof. unfold binned. generalize (nmin_list l), (nmax_list l). intros a b. induction l as [|x l IH]; [reflexivity|]. cbn [map length repeat]. now rewrite bin_one, IH. Qed.
(** levels a..a+k-1, all occurring: each level has its own bin *)
Lemma bin_consecutive a k l x : (forall x, In x l <-> a <= x < a + k) -> In x l -> bin_of (nmin_list l) (nmax_list l) (nunique l) x = x - a.
Proof.
  intros H Hx. rewrite (nunique_consecutive a k l H). assert (NE : l <> []) by (intros ->; destruct Hx).
  assert (K : 0 < k) by (apply H in Hx; lia).
  assert (Em : nmin_list l = a). { pose proof (nmin_le l a (proj2 (H a) ltac:(lia))). pose proof (proj1 (H _) (nmin_in l NE)). lia. }
  assert (EM : nmax_list l = a + k - 1). { pose proof (nmax_ge l (a + k - 1) (proj2 (H (a + k - 1)) ltac:(lia))). pose proof (proj1 (H _) (nmax_in l NE)). lia. }
  rewrite Em, EM. apply H in Hx. unfold bin_of. destruct (Nat.eqb_spec a (a + k - 1)) as [E|E].
  - assert (k = 1) by lia. subst k. change (1 / 2) with 0. lia.
  - replace (a + k - 1 - a) with (k - 1) by lia. set (d := x - a). assert (Hd : d <= k - 1) by lia.
    assert (E1 : d * k = d * (k - 1) + d) by nia. destruct (Nat.eq_dec d (k - 1)) as [->|Nd].
    + replace ((k - 1) * k / (k - 1)) with k; [lia|]. rewrite Nat.mul_comm. symmetry. apply Nat.div_mul. lia.
    + rewrite E1. rewrite Nat.add_comm, Nat.div_add by lia. rewrite (Nat.div_small d) by lia. lia.
Qed.
(** 0/1 columns merged: with the number of bins of the first column the bin is the first column *)
Lemma binned_first N c rest m : length c = N -> (forall x, In x c -> x <= 1) -> (forall d, In d rest -> length d = N /\ forall x, In x d -> x <= 1) ->
  length m = N -> (forall r, r < N -> nth r m 0 = decval (map (fun c => nth r c 0) (c :: rest))) -> binned (nunique c) m = binned (nunique c) c.
Proof.
  intros Lc Bc Br Lm Hm. set (k := length rest).
  assert (Hv : forall r, r < N -> exists v, nth r m 0 = nth r c 0 * 10 ^ k + v /\ 9 * v + 1 <= 10 ^ k).
  { intros r Hr. exists (decval (map (fun c => nth r c 0) rest)). rewrite Hm by exact Hr. cbn [map]. rewrite decval_cons, map_length. split; [reflexivity|].
    unfold k. rewrite <- (map_length (fun c => nth r c 0) rest). apply decval_bits. intros d Hd. apply in_map_iff in Hd as (q & <- & Hq). destruct (Br q Hq) as [Lq Bq]. apply Bq. apply nth_In. lia. }
  destruct (bits_cases c Bc) as [->|[[Z O]|(b & Hb)]].
  - destruct m; [reflexivity|simpl in *; lia].
  - assert (Hc : forall x, In x c <-> 0 <= x < 0 + 2). { intros x. split; [intros Hx; specialize (Bc x Hx); lia|]. intros Hx. destruct x as [|[|x]]; [exact Z|exact O|lia]. }
    assert (Eu : nunique c = 2) by (apply (nunique_consecutive 0 2 c Hc)).
    apply (nth_ext _ _ 0 0); [unfold binned; rewrite !map_length; lia|]. unfold binned at 1. rewrite map_length. intros r Hr. rewrite Lm in Hr.
    assert (NB : forall l, length l = N -> nth r (binned (nunique c) l) 0 = bin_of (nmin_list l) (nmax_list l) (nunique c) (nth r l 0)).
    { intros l Ll. unfold binned. rewrite (nth_indep _ 0 (bin_of (nmin_list l) (nmax_list l) (nunique c) 0)) by (rewrite map_length; lia). now rewrite map_nth. }
    rewrite !NB by assumption. rewrite (bin_consecutive 0 2 c _ Hc) by (apply nth_In; lia). rewrite Nat.sub_0_r.
    assert (NEm : m <> []) by (intros ->; simpl in Lm; lia).
    assert (Hlo : 9 * nmin_list m + 1 <= 10 ^ k).
    { apply (In_nth c 0 0) in Z as (r0 & Hr0 & E0). destruct (Hv r0) as (v0 & Ev0 & Lv0); [lia|]. rewrite E0 in Ev0.
      assert (nmin_list m <= nth r0 m 0) by (apply nmin_le, nth_In; lia). lia. }
    assert (Hhi : exists v, nmax_list m = 10 ^ k + v /\ 9 * v + 1 <= 10 ^ k).
    { pose proof (nmax_in m NEm) as Hin. apply (In_nth m _ 0) in Hin as (r1 & Hr1 & E1). destruct (Hv r1) as (v1 & Ev1 & Lv1); [lia|].
      assert (B1 : nth r1 c 0 <= 1) by (apply Bc, nth_In; lia). apply (In_nth c 1 0) in O as (r2 & Hr2 & E2). destruct (Hv r2) as (v2 & Ev2 & Lv2); [lia|]. rewrite E2 in Ev2.
      assert (nth r2 m 0 <= nmax_list m) by (apply nmax_ge, nth_In; lia). rewrite <- E1 in *. destruct (nth r1 c 0) as [|[|q]]; [lia|exists v1; lia|lia]. }
    destruct Hhi as (vh & Eh & Lh). destruct (Hv r Hr) as (v & Ev & Lv). assert (B1 : nth r c 0 <= 1) by (apply Bc, nth_In; lia).
    assert (Lx : nmin_list m <= nth r m 0) by (apply nmin_le, nth_In; lia).
    rewrite Eu, Eh, Ev. rewrite Ev in Lx. unfold bin_of. set (lo := nmin_list m) in *. destruct (Nat.eqb_spec lo (10 ^ k + vh)) as [E|E]; [lia|].
    destruct (nth r c 0) as [|[|q]]; [| |lia].
    + rewrite Nat.div_small by lia. reflexivity.
    + assert (Q : 1 <= (1 * 10 ^ k + v - lo) * 2 / (10 ^ k + vh - lo)) by (apply Nat.div_le_lower_bound; lia). lia.
  - assert (E1 : nunique c = 1). { apply (nunique_consecutive b 1). intros x. rewrite Hb. lia. }
    rewrite E1, !binned_one. now rewrite Lc, Lm.
Qed.
