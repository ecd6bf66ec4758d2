(** MiFacts.v -- histograms of table columns. *)
From Verif Require Import Py Num BayesNet Data IO StructScore SpecConstraint SpecLearn GraphNet JsonFacts SpecData DataUtils DataFacts HistFacts.
Open Scope nat_scope.

Definition sel1 (t : table) (c : name) : res (list nat) := match c with NInt i => do l <- column t i ;; as_ints l | NStr _ => Raise IndexError end.
(** the integers of a coded column *)
Definition ints (t : table) (v : name) : list nat := match sel1 t v with Ok c => c | Raise _ => [] end.
Lemma select_sel1 t cols : select t cols = mapM (sel1 t) cols.
Proof. reflexivity. Qed.
Lemma ints_ok t v : table_ok t -> coded t v -> sel1 t v = Ok (ints t v) /\ length (ints t v) = length (t_rows t) /\
  exists i, v = NInt i /\ forall r, r < length (t_rows t) -> cell t r i = Some (NInt (nth r (ints t v) 0)).
Proof.
  intros W (i & -> & Hi & Hc). unfold ints. destruct (column_ok t i W Hi) as (c & E & Lc & Nc). cbn [sel1]. rewrite E. cbn [bind].
  assert (G : forall l : list name, (forall x, In x l -> exists n, x = NInt n) -> exists m, as_ints l = Ok m /\ length m = length l /\ forall r, r < length l -> nth_error l r = Some (NInt (nth r m 0))).
  { induction l as [|x l IH]; intros H; [exists []; split; [reflexivity|]; split; [reflexivity|intros; simpl in *; lia]|].
    destruct (H x (or_introl eq_refl)) as [n ->]. destruct IH as (m & Em & Lm & Hm); [intros; apply H; now right|]. exists (n :: m). unfold as_ints in *. cbn [mapM bind]. rewrite Em. split; [reflexivity|]. split; [simpl; lia|].
    intros [|r] Hr; [reflexivity|]. simpl in *. apply Hm. lia. }
  destruct (G c) as (m & Em & Lm & Hm). { intros x Hx. apply In_nth_error in Hx as [r Hr]. rewrite Nc in Hr. eauto. }
  rewrite Em. split; [reflexivity|]. split; [lia|]. exists i. split; [reflexivity|]. intros r Hr. rewrite <- Nc. apply Hm. lia.
Qed.
Lemma select_ok t cols : table_ok t -> (forall v, In v cols -> coded t v) -> select t cols = Ok (map (ints t) cols).
Proof. intros W H. rewrite select_sel1. apply mapM_ok. intros v Hv. now apply ints_ok, H. Qed.
Lemma binary_coded t v : binary t v -> coded t v.
Proof. intros (i & -> & Hi & H). exists i. split; [reflexivity|]. split; [exact Hi|]. intros r x Hx. destruct (H r x Hx) as [-> | ->]; eauto. Qed.
Lemma one_digit_coded t v : one_digit t v -> coded t v.
Proof. intros (i & -> & Hi & H). exists i. split; [reflexivity|]. split; [exact Hi|]. intros r x Hx. destruct (H r x Hx) as (n & -> & _). eauto. Qed.
Lemma consecutive_coded t v ak : consecutive t v ak -> coded t v.
Proof. intros (i & -> & Hi & H). exists i. split; [reflexivity|]. split; [exact Hi|]. intros r x Hx. assert (O : occurs t i x) by (exists r; exact Hx). apply H in O as (n & -> & _). eauto. Qed.
Lemma In_ints t v x : table_ok t -> coded t v -> In x (ints t v) <-> exists i, v = NInt i /\ occurs t i (NInt x).
Proof.
  intros W C. destruct (ints_ok t v W C) as (_ & L & i & -> & H). split.
  - intros Hx. apply (In_nth _ _ 0) in Hx as (r & Hr & E). exists i. split; [reflexivity|]. exists r. rewrite H by lia. now rewrite E.
  - intros (j & Ej & r & Hr). injection Ej as <-. assert (R : r < length (t_rows t)). { unfold cell in Hr. destruct (nth_error (t_rows t) r) eqn:Q; [|discriminate]. apply nth_error_Some. congruence. }
    rewrite H in Hr by exact R. injection Hr as <-. apply nth_In. lia.
Qed.
Lemma binary_ints t v : table_ok t -> binary t v -> length (ints t v) = length (t_rows t) /\ forall x, In x (ints t v) -> x <= 1.
Proof.
  intros W B. pose proof (binary_coded t v B) as C. split; [now apply ints_ok|]. intros x Hx. apply (In_ints t v x W C) in Hx as (i & -> & r & Hr).
  destruct B as (j & Ej & _ & H). injection Ej as <-. destruct (H r _ Hr) as [E|E]; injection E as ->; lia.
Qed.
Lemma one_digit_ints t v : table_ok t -> one_digit t v -> length (ints t v) = length (t_rows t) /\ forall x, In x (ints t v) -> x < 10.
Proof.
  intros W B. pose proof (one_digit_coded t v B) as C. split; [now apply ints_ok|]. intros x Hx. apply (In_ints t v x W C) in Hx as (i & -> & r & Hr).
  destruct B as (j & Ej & _ & H). injection Ej as <-. destruct (H r _ Hr) as (n & E & Ln); injection E as ->; lia.
Qed.
Lemma consecutive_ints t v ak : table_ok t -> consecutive t v ak -> forall x, In x (ints t v) <-> fst ak <= x < fst ak + snd ak.
Proof.
  intros W B x. rewrite (In_ints t v x W (consecutive_coded _ _ _ B)). destruct B as (i & -> & Hi & H). split.
  - intros (j & Ej & O). injection Ej as <-. apply H in O as (n & E & L). injection E as ->. exact L.
  - intros L. exists i. split; [reflexivity|]. apply H. eauto.
Qed.

(** two pairs of columns with the same bins have the same histogram *)
Lemma hist_ext N bins cs cs' : map (fun bc => binned (fst bc) (snd bc)) (combine bins cs) = map (fun bc => binned (fst bc) (snd bc)) (combine bins cs') -> hist N bins cs = hist N bins cs'.
Proof. intros E. unfold hist. now rewrite E. Qed.

(** with parents p, p1, .., pk of zeros and ones only the first counts *)
Lemma mi_first {A} (F : list nat -> list nat -> A) t v p rest : table_ok t -> coded t v -> binary t p -> (forall q, In q rest -> binary t q) ->
  mutual_information F t (v :: p :: rest) = mutual_information F t [v; p].
Proof.
  intros W Cv Bp Br. unfold mutual_information.
  rewrite !select_ok; [|exact W|intros x [<-|[<-|[]]]; [exact Cv|now apply binary_coded]|exact W|intros x [<-|[<-|H]]; [exact Cv|now apply binary_coded|now apply binary_coded, Br]].
  cbn [bind map]. destruct rest as [|q rest]; [reflexivity|]. cbn [map firstn].
  destruct (merge_ok (length (t_rows t)) (map (ints t) (p :: q :: rest))) as (m & Em & Lm & Hm); [discriminate| |].
  { intros c Hc. apply in_map_iff in Hc as (u & <- & Hu). assert (B : binary t u) by (destruct Hu as [<-|Hu]; [exact Bp|now apply Br]). destruct (binary_ints t u W B) as [L D]. split; [exact L|]. intros x Hx. specialize (D x Hx). lia. }
  cbn [map] in Em. rewrite Em. cbn [bind].
  destruct (binary_ints t p W Bp) as [Lp Dp].
  assert (E : binned (nunique (ints t p)) m = binned (nunique (ints t p)) (ints t p)).
  { apply (binned_first (length (t_rows t)) (ints t p) (map (ints t) (q :: rest)) m Lp Dp); [|exact Lm|exact Hm].
    intros d Hd. apply in_map_iff in Hd as (u & <- & Hu). apply binary_ints; [exact W|now apply Br]. }
  erewrite hist_ext; [reflexivity|]. cbn [combine map fst snd]. now rewrite E.
Qed.

(** two 0/1 conditioning columns in all four combinations: only the first counts *)
Lemma four_bins t z1 z2 : table_ok t -> binary t z1 -> binary t z2 -> (forall a b, a <= 1 -> b <= 1 -> exists r, r < length (t_rows t) /\ nth r (ints t z1) 0 = a /\ nth r (ints t z2) 0 = b) ->
  exists m, merge (length (t_rows t)) [ints t z1; ints t z2] = Ok m /\ nunique m = 4 /\ binned 4 m = map (fun a => 3 * a) (ints t z1).
Proof.
  intros W B1 B2 All. destruct (binary_ints t z1 W B1) as [L1 D1]. destruct (binary_ints t z2 W B2) as [L2 D2]. set (N := length (t_rows t)) in *.
  destruct (merge_ok N [ints t z1; ints t z2]) as (m & Em & Lm & Hm); [discriminate|intros c [<-|[<-|[]]]; [split; [exact L1|intros x Hx; specialize (D1 x Hx); lia]|split; [exact L2|intros x Hx; specialize (D2 x Hx); lia]]|].
  exists m. split; [exact Em|].
  assert (Hv : forall r, r < N -> nth r m 0 = 10 * nth r (ints t z1) 0 + nth r (ints t z2) 0 /\ nth r (ints t z1) 0 <= 1 /\ nth r (ints t z2) 0 <= 1).
  { intros r Hr. rewrite Hm by exact Hr. cbn [map]. unfold decval. cbn [fold_left]. split; [lia|]. split; [apply D1, nth_In; lia|apply D2, nth_In; lia]. }
  assert (Hin : forall x, In x m <-> In x [0; 1; 10; 11]).
  { intros x. split.
    - intros Hx. apply (In_nth m x 0) in Hx as (r & Hr & <-). rewrite Lm in Hr. destruct (Hv r Hr) as (-> & A & B). destruct (nth r (ints t z1) 0) as [|[|a]], (nth r (ints t z2) 0) as [|[|b]]; simpl; lia.
    - intros Hx. assert (Q : exists a b, a <= 1 /\ b <= 1 /\ x = 10 * a + b). { destruct Hx as [<-|[<-|[<-|[<-|[]]]]]; [exists 0, 0|exists 0, 1|exists 1, 0|exists 1, 1]; lia. }
      destruct Q as (a & b & La & Lb & ->). destruct (All a b La Lb) as (r & Hr & <- & <-). destruct (Hv r Hr) as (E & _). rewrite <- E. apply nth_In. lia. }
  assert (U : nunique m = 4).
  { unfold nunique. change 4 with (length [0; 1; 10; 11]). apply Permutation_length. apply NoDup_Permutation; [apply NoDup_nodup| |intros x; rewrite nodup_In; apply Hin].
    repeat constructor; simpl; intuition lia. }
  split; [exact U|].
  assert (NE : m <> []) by (intros E; assert (In 0 m) by (apply Hin; now left); rewrite E in *; contradiction).
  assert (Mn : nmin_list m = 0). { pose proof (nmin_le m 0 (proj2 (Hin 0) (or_introl eq_refl))). lia. }
  assert (Mx : nmax_list m = 11). { pose proof (nmax_ge m 11 (proj2 (Hin 11) (or_intror (or_intror (or_intror (or_introl eq_refl)))))) as G. pose proof (proj1 (Hin _) (nmax_in m NE)) as Q. destruct Q as [Q|[Q|[Q|[Q|[]]]]]; lia. }
  unfold binned. rewrite Mn, Mx. apply (nth_ext _ _ 0 0); [rewrite !map_length; lia|]. rewrite map_length, Lm. intros r Hr.
  rewrite (nth_indep _ 0 (bin_of 0 11 4 0)) by (rewrite map_length; lia). rewrite map_nth.
  rewrite (nth_indep (map _ (ints t z1)) 0 (3 * 0)) by (rewrite map_length; lia). rewrite (map_nth (fun a => 3 * a)).
  destruct (Hv r Hr) as (-> & A & B). destruct (nth r (ints t z1) 0) as [|[|a]], (nth r (ints t z2) 0) as [|[|b]]; try lia; reflexivity.
Qed.

(** ** Consecutive levels: the histogram is the contingency table *)
Lemma length_filter_nth {A B} (p : A -> bool) (q : B -> bool) l l' : length l = length l' -> (forall r x y, nth_error l r = Some x -> nth_error l' r = Some y -> p x = q y) -> length (filter p l) = length (filter q l').
Proof.
  revert l'. induction l as [|x l IH]; intros [|y l'] L H; try discriminate; [reflexivity|]. simpl. rewrite (H 0 x y eq_refl eq_refl). injection L as L.
  assert (E : length (filter p l) = length (filter q l')) by (apply IH; [exact L|intros r; exact (H (Datatypes.S r))]). destruct (q y); simpl; lia.
Qed.
Lemma In_tuples bins : forall idx, In idx (tuples bins) -> length idx = length bins.
Proof. induction bins as [|n bins IH]; intros idx; simpl; [intros [<-|[]]; reflexivity|]. rewrite in_flat_map. intros (i & _ & H). apply in_map_iff in H as (idx' & <- & H'). simpl. now rewrite (IH idx' H'). Qed.
Lemma hist_contingency t cols ranges : table_ok t -> t_rows t <> [] -> Forall2 (consecutive t) cols ranges ->
  map nunique (map (ints t) cols) = map snd ranges /\ hist (length (t_rows t)) (map snd ranges) (map (ints t) cols) = Ok (contingency t cols ranges).
Proof.
  intros W NE F.
  assert (U : map nunique (map (ints t) cols) = map snd ranges).
  { induction F as [|v ak cols ranges C F IH]; [reflexivity|]. cbn [map]. rewrite IH. f_equal. apply (nunique_consecutive (fst ak) (snd ak)). now apply consecutive_ints. }
  split; [exact U|]. unfold hist.
  assert (Pos : existsb (Nat.eqb 0) (map snd ranges) = false).
  { clear U. induction F as [|v ak cols ranges C F IH]; [reflexivity|]. cbn [map existsb]. rewrite IH, orb_false_r. apply Nat.eqb_neq. intros Z.
    destruct (t_rows t) as [|row rows] eqn:Er; [congruence|]. pose proof (consecutive_ints t v ak W C) as H. destruct (ints_ok t v W (consecutive_coded _ _ _ C)) as (_ & L & _). rewrite Er in L. destruct (ints t v) as [|x l]; [discriminate|].
    assert (Q : In x (x :: l)) by now left. apply H in Q. lia. }
  rewrite Pos. f_equal. unfold contingency. apply map_ext_in. intros idx Hidx. apply In_tuples in Hidx. rewrite map_length in Hidx. unfold rows_with.
  assert (Lb : forall c, In c (map (fun bc => binned (fst bc) (snd bc)) (combine (map snd ranges) (map (ints t) cols))) -> length c = length (t_rows t)).
  { intros c Hc. apply in_map_iff in Hc as ([b d] & <- & Hb). apply in_combine_r in Hb. cbn [fst snd]. unfold binned. rewrite map_length. apply in_map_iff in Hb as (v & <- & Hv).
    assert (C : exists ak, consecutive t v ak). { clear -F Hv. induction F; [destruct Hv|]. destruct Hv as [<-|Hv]; eauto. } destruct C as [ak C]. now apply ints_ok, (consecutive_coded _ _ ak). }
  apply length_filter_nth; [now apply transpose_length|]. intros r x row Hx Hrow.
  assert (R : r < length (t_rows t)) by (apply nth_error_Some; congruence). rewrite nth_transpose in Hx by assumption. injection Hx as <-.
  clear U Pos Lb NE. revert idx Hidx. induction F as [|v ak cols ranges C F IH]; intros idx Li.
  - destruct idx; [|discriminate]. reflexivity.
  - destruct idx as [|i idx]; [discriminate|]. injection Li as Li. cbn [map combine forallb fst snd].
    assert (E : entryb row (v, NInt (fst ak + i)) = (i =? nth r (binned (snd ak) (ints t v)) 0)).
    { pose proof (consecutive_ints t v ak W C) as H. destruct (ints_ok t v W (consecutive_coded _ _ _ C)) as (_ & L & j & -> & Hn).
      pose proof (nunique_consecutive (fst ak) (snd ak) _ H) as En. rewrite <- En. unfold binned. rewrite (nth_indep _ 0 (bin_of (nmin_list (ints t (NInt j))) (nmax_list (ints t (NInt j))) (nunique (ints t (NInt j))) 0)) by (rewrite map_length; lia). rewrite map_nth.
      assert (I : In (nth r (ints t (NInt j)) 0) (ints t (NInt j))) by (apply nth_In; lia).
      rewrite (bin_consecutive (fst ak) (snd ak) _ _ H I). apply H in I. specialize (Hn r R). unfold cell in Hn. rewrite Hrow in Hn. unfold entryb. cbn [fst snd]. rewrite Hn.
      destruct (name_eqb_spec (NInt (nth r (ints t (NInt j)) 0)) (NInt (fst ak + i))) as [Q|Q]; symmetry; [apply Nat.eqb_eq; injection Q as Q; lia|apply Nat.eqb_neq; intros Z; apply Q; f_equal; lia]. }
    rewrite E. specialize (IH idx Li). unfold row_eqb in *. destruct (list_eq_dec Nat.eq_dec (i :: idx) _) as [Q|Q].
    + injection Q as Q1 Q2. rewrite <- Q1, Nat.eqb_refl. cbn [andb]. rewrite <- IH. rewrite <- Q2. now destruct (list_eq_dec Nat.eq_dec idx idx).
    + destruct (Nat.eqb_spec i (nth r (binned (snd ak) (ints t v)) 0)) as [Q1|]; [|reflexivity]. cbn [andb]. rewrite <- IH. destruct (list_eq_dec Nat.eq_dec idx _) as [Q2|]; [|reflexivity]. exfalso. apply Q. f_equal; assumption.
Qed.
