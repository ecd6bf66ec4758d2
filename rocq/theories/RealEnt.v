(** RealEnt.v -- facts about the entropy of MiReal.v. *)
From Coq Require Import Reals.
From Verif Require Import Py Num Data SpecLearn SpecData DataUtils DataFacts HistFacts MiFacts SpecReal MiReal RealFacts RealTable RealMi RealSym RealScore.
From Coq Require Import Lra Lia Permutation.
Open Scope nat_scope.

(** the counts of one column in k bins *)
Definition bins1 (b : nat -> nat) (k : nat) (l : list nat) : list nat := map (fun i => length (filter (fun x => b x =? i) l)) (seq 0 k).
Lemma hist1 k l : k <> 0 -> hist (length l) [k] [l] = Ok (bins1 (bin_of (nmin_list l) (nmax_list l) k) k l).
Proof.
  intros K. unfold hist. cbn [existsb]. destruct k as [|k']; [congruence|]. cbn [Nat.eqb orb]. set (k := S k') in *. f_equal. rewrite tuples1, map_map. unfold bins1. apply map_ext. intros i.
  cbn [combine map fst snd]. rewrite transpose_map by (intros c [<-|[]]; apply binned_length). rewrite filter_map_length. cbn [map]. set (b := bin_of (nmin_list l) (nmax_list l) k).
  transitivity (length (filter (fun x => b x =? i) (map (fun r => nth r l 0) (seq 0 (length l))))); [|now rewrite map_nth_seq]. rewrite filter_map_length. f_equal. apply filter_ext_in. intros r Hr. apply in_seq in Hr. unfold binned. fold b. rewrite (nth_indep _ 0 (b 0)) by (rewrite map_length; lia). rewrite map_nth.
  unfold row_eqb. destruct (list_eq_dec Nat.eq_dec [i] [b (nth r l 0)]) as [E|E]; symmetry; [apply Nat.eqb_eq; congruence|apply Nat.eqb_neq; congruence].
Qed.
Lemma bin_lt l x : l <> [] -> bin_of (nmin_list l) (nmax_list l) (nunique l) x < nunique l.
Proof.
  intros NE. assert (K : 0 < nunique l). { unfold nunique. destruct l as [|y l]; [congruence|]. pose proof (proj2 (nodup_In Nat.eq_dec (y :: l) y) (or_introl eq_refl)). destruct (nodup Nat.eq_dec (y :: l)); [contradiction|simpl; lia]. }
  unfold bin_of. destruct (_ =? _); [apply Nat.div_lt; lia|lia].
Qed.
Lemma filter_zero {A} (p : A -> bool) l : length (filter p l) = 0 <-> forall x, In x l -> p x = false.
Proof.
  split; [intros H x Hx|intros H]; [destruct (p x) eqn:E; [|reflexivity]|].
  - assert (I : In x (filter p l)) by (apply filter_In; auto). destruct (filter p l); [destruct I|discriminate].
  - rewrite (filter_ext_in p (fun _ => false)) by exact H. induction l as [|x l IH]; [reflexivity|]. apply IH. intros y Hy. apply H. now right.
Qed.
Lemma NoDup_map_inj {A B} (f : A -> B) l : NoDup l -> (forall x y, In x l -> In y l -> f x = f y -> x = y) -> NoDup (map f l).
Proof.
  induction l as [|x l IH]; intros N H; [constructor|]. inversion N; subst. cbn [map]. constructor.
  - rewrite in_map_iff. intros (y & E & Hy). assert (y = x) by (apply H; [now right|now left|exact E]). congruence.
  - apply IH; [assumption|]. intros y z Hy Hz. apply H; now right.
Qed.
(** b distinguishes all values: the bins hold the counts of the values *)
Lemma bins1_injective b k l : (forall x, In x l -> b x < k) -> k = nunique l -> (forall x y, In x l -> In y l -> b x = b y -> x = y) ->
  Permutation (bins1 b k l) (map (fun u => length (filter (fun x => x =? u) l)) (nodup Nat.eq_dec l)) /\ ~ In 0 (bins1 b k l).
Proof.
  intros B Ek Inj. set (L := nodup Nat.eq_dec l). assert (HL : forall x, In x L <-> In x l) by apply nodup_In.
  assert (ND : NoDup (map b L)) by (apply NoDup_map_inj; [apply NoDup_nodup|]; intros x y Hx Hy; apply Inj; now apply HL).
  assert (P : Permutation (seq 0 k) (map b L)).
  { apply Permutation_sym. apply NoDup_Permutation_bis; [exact ND|rewrite seq_length, map_length, Ek; apply Nat.le_refl|]. intros i Hi. apply in_map_iff in Hi as (u & <- & Hu). apply in_seq. apply HL in Hu. specialize (B u Hu). lia. }
  assert (E : map (fun i => length (filter (fun x => b x =? i) l)) (map b L) = map (fun u => length (filter (fun x => x =? u) l)) L).
  { rewrite map_map. apply map_ext_in. intros u Hu. f_equal. apply filter_ext_in. intros x Hx. apply HL in Hu. destruct (Nat.eqb_spec x u) as [->|N]; [apply Nat.eqb_refl|]. apply Nat.eqb_neq. intros Q. apply N. now apply Inj. }
  split.
  - unfold bins1. rewrite <- E. now apply Permutation_map.
  - unfold bins1. intros Z. apply (Permutation_in _ (Permutation_map _ P)) in Z. rewrite E in Z. apply in_map_iff in Z as (u & Z & Hu). rewrite filter_zero in Z. apply HL in Hu. specialize (Z u Hu). rewrite Nat.eqb_refl in Z. discriminate.
Qed.
(** two values share a bin: some bin is empty *)
Lemma bins1_collision b k l x y : (forall x, In x l -> b x < k) -> k = nunique l -> In x l -> In y l -> x <> y -> b x = b y -> In 0 (bins1 b k l).
Proof.
  intros B Ek Hx Hy N E. set (L := nodup Nat.eq_dec l). assert (HL : forall x, In x L <-> In x l) by apply nodup_In.
  destruct (in_dec Nat.eq_dec 0 (bins1 b k l)) as [|Z]; [assumption|exfalso].
  assert (I : incl (seq 0 k) (map b L)).
  { intros i Hi. destruct (in_dec Nat.eq_dec i (map b L)) as [|Ni]; [assumption|exfalso]. apply Z. unfold bins1. apply in_map_iff. exists i. split; [|exact Hi]. apply filter_zero. intros u Hu. apply Nat.eqb_neq. intros Q. apply Ni. apply in_map_iff. exists u. split; [exact Q|now apply HL]. }
  assert (ND : NoDup (map b L)) by (apply (NoDup_incl_NoDup (seq_NoDup k 0)); [rewrite seq_length, map_length, Ek; apply Nat.le_refl|exact I]).
  clear - ND Hx Hy N E HL. apply HL in Hx, Hy. clear HL. clearbody L. clear l. induction L as [|u l IH]; [destruct Hx|]. cbn [map] in ND. inversion ND as [|? ? Nu ND']; subst. destruct Hx as [->|Hx], Hy as [->|Hy]; [congruence|..].
  - apply Nu. rewrite E. now apply in_map.
  - apply Nu. rewrite <- E. now apply in_map.
  - auto.
Qed.
Lemma hsum_perm a b : Permutation a b -> hsum a = hsum b.
Proof. intros P. unfold hsum. induction P; cbn [fold_right]; lia. Qed.
Lemma hsum_counts l : forall L, NoDup L -> (forall x, In x l -> In x L) -> hsum (map (fun u => length (filter (fun x => x =? u) l)) L) = length l.
Proof.
  induction l as [|x l IH]; intros L N H.
  - cbn [filter length]. induction L as [|u L IHL]; [reflexivity|]. inversion N; subst. cbn [map]. unfold hsum in *. cbn [fold_right]. apply IHL; [assumption|intros x []].
  - cbn [length]. rewrite <- (IH L N (fun y Hy => H y (or_intror Hy))). specialize (H x (or_introl eq_refl)). clear IH. induction L as [|u L IHL]; [destruct H|]. inversion N; subst. unfold hsum in *. cbn [map fold_right filter].
    destruct (Nat.eqb_spec x u) as [->|Nx].
    + cbn [length]. assert (E : map (fun u0 => length (if u =? u0 then u :: filter (fun x => x =? u0) l else filter (fun x => x =? u0) l)) L = map (fun u0 => length (filter (fun x => x =? u0) l)) L); [|rewrite E; lia].
      apply map_ext_in. intros v Hv. destruct (Nat.eqb_spec u v) as [->|]; [contradiction|reflexivity].
    + destruct H as [->|H]; [congruence|]. specialize (IHL H3 H). cbn [filter] in IHL. rewrite IHL. lia.
Qed.
Lemma rfold_perm a b : Permutation a b -> fold_right Rplus 0%R a = fold_right Rplus 0%R b.
Proof. intros P. induction P; cbn [fold_right]; lra. Qed.

(** the number of rows with a value *)
Lemma rows_count t i u : table_ok t -> coded t (NInt i) -> rows_with t [(NInt i, NInt u)] = length (filter (fun x => x =? u) (ints t (NInt i))).
Proof.
  intros W C. destruct (ints_ok t (NInt i) W C) as (_ & L & j & Ej & Hn). injection Ej as <-. unfold rows_with. apply length_filter_nth; [now symmetry|]. intros r row x Hr Hx.
  assert (R : r < length (t_rows t)) by (apply nth_error_Some; congruence). specialize (Hn r R). unfold cell in Hn. rewrite Hr in Hn. apply nth_error_nth with (d := 0) in Hx. cbn [forallb]. rewrite Bool.andb_true_r. unfold entryb. cbn [fst snd].
  rewrite Hn, Hx. destruct (name_eqb_spec (NInt x) (NInt u)) as [Q|Q]; symmetry; [apply Nat.eqb_eq; congruence|apply Nat.eqb_neq; congruence].
Qed.
Open Scope R_scope.
Definition H1 (N : nat) (l : list nat) : R := - fold_right Rplus 0 (map (fun n => INR n / INR N * ln (INR n / INR N)) l).
Lemma ent1_cases t i L : table_ok t -> t_rows t <> [] -> coded t (NInt i) -> column_levels t (NInt i) L ->
  let l := ints t (NInt i) in let b := bin_of (nmin_list l) (nmax_list l) (nunique l) in
  exists h, hist (length (t_rows t)) [nunique l] [l] = Ok h /\ length L = nunique l /\ (forall x, In x l <-> In (NInt x) L) /\
    ((exists x y, In x l /\ In y l /\ x <> y /\ b x = b y) -> ent1 h = NaN) /\
    ((forall x y, In x l -> In y l -> b x = b y -> x = y) -> ent1 h = Fin (plugin_entropy t (NInt i) L)).
Proof.
  intros W NE C (i' & Ei & ND & HL). injection Ei as <-. cbn zeta. destruct (ints_ok t (NInt i) W C) as (_ & Ll & _). set (l := ints t (NInt i)) in *.
  assert (NEl : l <> []) by (intros Z; rewrite Z in Ll; destruct (t_rows t); [congruence|discriminate]). pose proof (bin_lt l) as BL.
  assert (K : nunique l <> 0%nat) by (specialize (BL 0%nat NEl); lia). exists (bins1 (bin_of (nmin_list l) (nmax_list l) (nunique l)) (nunique l) l). rewrite <- Ll. split; [now apply hist1|].
  assert (M : forall x, In x l <-> In (NInt x) L). { intros x. rewrite HL. unfold l. rewrite In_ints by assumption. split; [intros (j & Ej & O); now injection Ej as <-|intros O; exists i; auto]. }
  assert (PL : Permutation (map NInt (nodup Nat.eq_dec l)) L).
  { apply NoDup_Permutation; [apply NoDup_map_inj; [apply NoDup_nodup|congruence]|exact ND|]. intros u. rewrite in_map_iff. split.
    - intros (x & <- & Hx). apply M. now apply nodup_In in Hx.
    - intros Hu. pose proof Hu as Hu'. apply HL in Hu as [r Hr]. destruct C as (j & Ej & _ & Cj). injection Ej as <-. destruct (Cj r u Hr) as [n ->]. exists n. split; [reflexivity|]. apply nodup_In. now apply M. }
  split; [rewrite <- (Permutation_length PL), map_length; reflexivity|]. split; [exact M|]. split.
  - intros (x & y & Hx & Hy & N & E). unfold ent1. assert (Z : existsb (Nat.eqb 0) (bins1 (bin_of (nmin_list l) (nmax_list l) (nunique l)) (nunique l) l) = true); [|now rewrite Z].
    apply existsb_exists. exists 0%nat. split; [|reflexivity]. apply (bins1_collision _ _ _ x y); auto.
  - intros Inj. destruct (bins1_injective (bin_of (nmin_list l) (nmax_list l) (nunique l)) (nunique l) l) as [P Z]; auto. unfold ent1.
    assert (Z' : existsb (Nat.eqb 0) (bins1 (bin_of (nmin_list l) (nmax_list l) (nunique l)) (nunique l) l) = false). { apply Bool.not_true_is_false. intros Q. apply existsb_exists in Q as (z & Hz & Q). apply Nat.eqb_eq in Q. subst z. contradiction. }
    rewrite Z'. f_equal. rewrite (hsum_perm _ _ P), (hsum_counts l) by (try apply NoDup_nodup; intros x Hx; now apply nodup_In). unfold plugin_entropy. f_equal. rewrite (rfold_perm _ _ (Permutation_map _ P)). rewrite map_map.
    rewrite <- (rfold_perm _ _ (Permutation_map _ PL)), map_map. apply rfold_ext. intros u Hu. unfold freq. rewrite rows_count by assumption. fold l. now rewrite Ll.
Qed.
(** 0 <= H <= ln (number of levels) *)
Lemma freq_levels t i L : table_ok t -> t_rows t <> [] -> coded t (NInt i) -> column_levels t (NInt i) L ->
  fold_right Rplus 0 (map (fun u => freq t [(NInt i, u)]) L) = 1 /\ forall u, In u L -> 0 < freq t [(NInt i, u)] <= 1.
Proof.
  intros W NE C CL. destruct (ent1_cases t i L W NE C CL) as (_ & _ & Len & M & _). destruct CL as (i' & Ei & ND & HL). injection Ei as <-. destruct (ints_ok t (NInt i) W C) as (_ & Ll & _). set (l := ints t (NInt i)) in *.
  pose proof (N_pos t NE) as HN. assert (U : forall u, In u L -> exists n, u = NInt n).
  { intros u Hu. apply HL in Hu as [r Hr]. destruct C as (j & Ej & _ & Cj). injection Ej as <-. exact (Cj r u Hr). }
  assert (PL : Permutation (map NInt (nodup Nat.eq_dec l)) L).
  { apply NoDup_Permutation; [apply NoDup_map_inj; [apply NoDup_nodup|congruence]|exact ND|]. intros u. rewrite in_map_iff. split.
    - intros (x & <- & Hx). apply M. now apply nodup_In in Hx.
    - intros Hu. destruct (U u Hu) as [n ->]. exists n. split; [reflexivity|]. apply nodup_In. now apply M. }
  split.
  - rewrite <- (rfold_perm _ _ (Permutation_map _ PL)), map_map. rewrite (rfold_ext _ (fun n => / INR (length (t_rows t)) * INR (length (filter (fun x => x =? n)%nat l)))); [|intros n _; unfold freq; rewrite rows_count by assumption; fold l; field; lra].
    rewrite rfold_scal. assert (S : fold_right Rplus 0 (map (fun n => INR (length (filter (fun x => x =? n)%nat l))) (nodup Nat.eq_dec l)) = INR (hsum (map (fun u => length (filter (fun x => x =? u)%nat l)) (nodup Nat.eq_dec l)))).
    { clear. unfold hsum. induction (nodup Nat.eq_dec l) as [|u r IH]; [reflexivity|]. cbn [map fold_right]. rewrite plus_INR, IH. reflexivity. }
    rewrite S, hsum_counts, Ll by (try apply NoDup_nodup; intros x Hx; now apply nodup_In). field. lra.
  - intros u Hu. destruct (U u Hu) as [n ->]. unfold freq. rewrite rows_count by assumption. fold l. assert (P : (0 < length (filter (fun x => x =? n)%nat l))%nat).
    { destruct (length (filter (fun x => x =? n)%nat l)) eqn:Z; [|lia]. rewrite filter_zero in Z. apply M in Hu. specialize (Z n Hu). rewrite Nat.eqb_refl in Z. discriminate. }
    assert (Q : (length (filter (fun x => x =? n)%nat l) <= length (t_rows t))%nat). { rewrite <- Ll. clear. induction l as [|x l IH]; [apply Nat.le_refl|]. cbn [filter length]. destruct (x =? n)%nat; cbn [length]; lia. }
    apply lt_INR in P. cbn [INR] in P. apply le_INR in Q. split; [apply Rdiv_lt_0_compat; lra|]. apply (Rmult_le_reg_r (INR (length (t_rows t)))); [lra|]. unfold Rdiv. rewrite Rmult_assoc, Rinv_l by lra. lra.
Qed.
Lemma entropy_bounds t i L : table_ok t -> t_rows t <> [] -> coded t (NInt i) -> column_levels t (NInt i) L -> 0 <= plugin_entropy t (NInt i) L <= ln (INR (length L)).
Proof.
  intros W NE C CL. destruct (freq_levels t i L W NE C CL) as [T P]. unfold plugin_entropy. set (p := fun u => freq t [(NInt i, u)]) in *. change (fun u => freq t [(NInt i, u)] * ln (freq t [(NInt i, u)])) with (fun u => p u * ln (p u)). assert (T' : fold_right Rplus 0 (map p L) = 1) by exact T. assert (P' : forall u, In u L -> 0 < p u <= 1) by exact P. clear P. rename P' into P.
  assert (K : (0 < length L)%nat). { destruct L; [cbn in T; lra|simpl; lia]. } apply lt_INR in K. cbn [INR] in K. split.
  - assert (S : fold_right Rplus 0 (map (fun u => p u * ln (p u)) L) <= fold_right Rplus 0 (map (fun _ => 0) L)); [|rewrite rfold_const in S; lra]. apply rfold_le. intros u Hu. destruct (P u Hu) as [A B]. assert (ln (p u) <= 0) by (rewrite <- ln_1; apply ln_le; assumption). nra.
  - assert (S : fold_right Rplus 0 (map (fun u => p u - / INR (length L)) L) <= fold_right Rplus 0 (map (fun u => p u * ln (p u) + ln (INR (length L)) * p u) L)).
    { apply rfold_le. intros u Hu. destruct (P u Hu) as [A B]. apply Rle_trans with (p u * ln (p u / / INR (length L))); [apply gibbs; [exact A|apply Rinv_0_lt_compat; exact K]|]. rewrite ln_div, ln_inv by (try exact A; try apply Rinv_0_lt_compat; exact K). lra. }
    unfold Rminus in S. rewrite !rfold_plus, rfold_scal, rfold_const in S. change (fun x => p x) with p in S. rewrite T' in S. assert (INR (length L) * - / INR (length L) = -1) by (field; lra). lra.
Qed.
