(** Properties_Data.v -- theorems C51 to C54 and C83 to C88: data utilities, histograms and what they
    make of structure search.  Specification: SpecData.v, SpecLearn.v (rows_with), SpecScore.v. *)
From Verif Require Import Py Num BayesNet SpecFactor Graph SpecGraph GraphNet Data SpecLearn SpecConstraint SpecScore StructScore StructFacts SpecData DataUtils DataFacts HistFacts MiFacts DiscFacts Properties_Score Examples.
From Coq Require Import Sorting.Sorted.
Open Scope nat_scope.

(** ** C51 *)
(** the column has at most [n] distinct values *)
Definition at_most (t : table) (i n : nat) : Prop := forall l, NoDup l -> (forall x, In x l -> occurs t i x) -> length l <= n.
Lemma sorted_nth l i j (x y : name) : StronglySorted name_lt l -> nth_error l i = Some x -> nth_error l j = Some y -> i < j -> name_lt x y.
Proof.
  intros H. revert i j. induction H as [|z l Hl IH F]; intros i j Hi Hj L; [destruct i; discriminate|].
  destruct j as [|j]; [lia|]. simpl in Hj. destruct i as [|i]; [|simpl in Hi; apply (IH i j); [assumption..|lia]].
  simpl in Hi. injection Hi as ->. rewrite Forall_forall in F. apply F. eapply nth_error_In; exact Hj.
Qed.
Lemma name_lt_irrefl x : ~ name_lt x x.
Proof. intros [_ N]. congruence. Qed.
(** the codes of a column are the positions of its values in value_dict, which lists exactly the values
    of the column in increasing order *)
Theorem C51_codes : forall w t, table_ok t ->
  (match w with None => True | Some k => 0 < k /\ forall i, i < t_ncols t -> at_most t i (10 ^ k) end) ->
  exists t' vd, replace_strings w t = Ok (t', vd) /\ table_ok t' /\ t_ncols t' = t_ncols t /\ length (t_rows t') = length (t_rows t) /\
  forall i, i < t_ncols t -> exists vs, dget vd (NInt i) = Some vs /\ StronglySorted name_lt vs /\ (forall x, In x vs <-> occurs t i x) /\
  forall r x, cell t r i = Some x -> exists c, cell t' r i = Some (NInt c) /\ nth_error vs c = Some x.
Proof.
  intros w t W Hw. destruct (replace_strings_ok w t W) as (t' & E & Nc & Lr & W' & H); [destruct w; [apply Hw|exact Logic.I]|].
  exists t'. eexists. split; [exact E|]. split; [exact W'|]. split; [exact Nc|]. split; [exact Lr|].
  intros i Hi. exists (colvals t i). split; [now apply (dget_vd (colvals t))|].
  assert (S1 : StronglySorted name_lt (colvals t i)). { unfold colvals. destruct (column t i); [apply np_unique_sorted|constructor]. }
  split; [exact S1|]. split; [intros x; now apply In_colvals|]. intros r x Hx. destruct (H r i x Hi Hx) as (k & c & Nk & Ec & Hc').
  assert (c = k) as ->; [|eauto]. rewrite put_code_id in Ec; [congruence|]. destruct w as [q|]; [|exact Logic.I]. destruct Hw as [Q A]. split; [exact Q|].
  assert (L : length (colvals t i) <= 10 ^ q). { apply (A i Hi); [|intros y Hy; now apply In_colvals]. unfold colvals. destruct (column t i); [apply NoDup_np_unique|constructor]. }
  assert (k < length (colvals t i)) by (apply nth_error_Some; congruence). lia.
Qed.
Print Assumptions C51_codes.
(** equal codes iff equal values; larger codes iff larger values *)
Theorem C51_order : forall w t t' vd, table_ok t ->
  (match w with None => True | Some k => 0 < k /\ forall i, i < t_ncols t -> at_most t i (10 ^ k) end) -> replace_strings w t = Ok (t', vd) ->
  forall i r r' x x' c c', i < t_ncols t -> cell t r i = Some x -> cell t r' i = Some x' -> cell t' r i = Some (NInt c) -> cell t' r' i = Some (NInt c') ->
  (c = c' <-> x = x') /\ (c < c' <-> name_lt x x').
Proof.
  intros w t t' vd W Hw E i r r' x x' c c' Hi Hx Hx' Hc Hc'. destruct (C51_codes w t W Hw) as (t1 & vd1 & E1 & _ & _ & _ & H). rewrite E in E1. injection E1 as <- <-.
  destruct (H i Hi) as (vs & _ & Ss & _ & Hv). destruct (Hv r x Hx) as (k & K1 & K2). destruct (Hv r' x' Hx') as (k' & K1' & K2').
  rewrite Hc in K1. injection K1 as <-. rewrite Hc' in K1'. injection K1' as <-.
  destruct (Nat.lt_trichotomy c c') as [L|[Q|L]].
  - pose proof (sorted_nth vs c c' x x' Ss K2 K2' L) as X. split; split; intros Z; [lia| |exact X|exact L]. subst x'. exfalso. exact (name_lt_irrefl _ X).
  - subst c'. rewrite K2 in K2'. injection K2' as <-. split; split; intros Z; [reflexivity|reflexivity|lia|]. exfalso. exact (name_lt_irrefl _ Z).
  - pose proof (sorted_nth vs c' c x' x Ss K2' K2 L) as X. split; split; intros Z; [lia| |lia|]; exfalso; [subst x'; exact (name_lt_irrefl _ X)|].
    exact (name_lt_irrefl _ (name_lt_trans _ _ _ X Z)).
Qed.
Print Assumptions C51_order.
Lemma pigeon {A} (f : A -> nat) n l : NoDup l -> (forall x, In x l -> f x < n) -> n < length l -> exists x y, In x l /\ In y l /\ x <> y /\ f x = f y.
Proof.
  intros N B L. assert (D : ~ NoDup (map f l)).
  { intros D. assert (Q : incl (map f l) (seq 0 n)); [|apply (NoDup_incl_length D) in Q; rewrite map_length, seq_length in Q; lia]. intros y Hy. apply in_map_iff in Hy as (x & <- & Hx). apply in_seq. specialize (B x Hx). lia. }
  clear B L. induction N as [|x l Nx N IH]; [destruct D; constructor|]. simpl in D. destruct (in_dec Nat.eq_dec (f x) (map f l)) as [I|I].
  - apply in_map_iff in I as (y & E & Hy). exists x, y. split; [now left|]. split; [now right|]. split; [intros <-; contradiction|congruence].
  - destruct IH as (a & b & Ha & Hb & Nab & E); [intros D'; apply D; now constructor|]. exists a, b. split; [now right|]. split; [now right|]. auto.
Qed.
(** a column of strings with more distinct values than there are codes of the item width: different values get the same code *)
Theorem C51_collision : forall k t i l, table_ok t -> 0 < k -> i < t_ncols t -> NoDup l -> (forall x, In x l -> occurs t i x) -> 10 ^ k < length l ->
  exists t' vd r r' x x', replace_strings (Some k) t = Ok (t', vd) /\ cell t r i = Some x /\ cell t r' i = Some x' /\ x <> x' /\
    cell t' r i = cell t' r' i /\ cell t' r i <> None.
Proof.
  intros k t i l W K Hi N O L. destruct (replace_strings_ok (Some k) t W K) as (t' & E & _ & _ & _ & H).
  assert (V : NoDup (colvals t i)) by (unfold colvals; destruct (column t i); [apply NoDup_np_unique|constructor]).
  set (f := fun x => match index_of x (colvals t i) with Some j => match put_code (Some k) j with Ok c => c | Raise _ => 0 end | None => 0 end).
  destruct (pigeon f (10 ^ k) l N) as (x & y & Hx & Hy & Nxy & Ef); [|exact L|].
  - intros x Hx. unfold f. destruct (index_of x (colvals t i)) as [j|]; [|assert (10 ^ k <> 0) by (apply Nat.pow_nonzero; lia); lia]. destruct (put_code_lt k j K) as (c & -> & Lc). exact Lc.
  - destruct (O x Hx) as [r Hr]. destruct (O y Hy) as [r' Hr'].
    assert (F : forall r x, cell t r i = Some x -> cell t' r i = Some (NInt (f x))).
    { intros q z Hz. destruct (H q i z Hi Hz) as (j & c & Nj & Ec & Hc). rewrite Hc. unfold f.
      assert (Ij : index_of z (colvals t i) = Some j).
      { destruct (index_of_In z (colvals t i)) as [j' Ej]; [eapply nth_error_In; exact Nj|]. rewrite Ej. f_equal. apply index_of_Some in Ej. rewrite NoDup_nth_error in V. apply V; [apply nth_error_Some; congruence|congruence]. }
      now rewrite Ij, Ec. }
    do 6 eexists. split; [exact E|]. split; [exact Hr|]. split; [exact Hr'|]. split; [exact Nxy|]. rewrite (F r x Hr), (F r' y Hr'), Ef. split; [reflexivity|discriminate].
Qed.
Print Assumptions C51_collision.
(** unique_bins counts the distinct values *)
Theorem C51_unique_bins : forall t, table_ok t -> exists bs, unique_bins t = Ok bs /\ length bs = t_ncols t /\
  forall i, i < t_ncols t -> exists vs, nth_error bs i = Some (length vs) /\ NoDup vs /\ forall x, In x vs <-> occurs t i x.
Proof.
  intros t W. exists (map (fun i => length (colvals t i)) (seq 0 (t_ncols t))). split.
  - unfold unique_bins. apply mapM_ok. intros i Hi. apply in_seq in Hi. destruct (column_ok t i W) as (c & E & _); [lia|]. unfold colvals. rewrite E. reflexivity.
  - split; [now rewrite map_length, seq_length|]. intros i Hi. exists (colvals t i). split; [|split; [unfold colvals; destruct (column t i); [apply NoDup_np_unique|constructor]|intros x; now apply In_colvals]].
    rewrite nth_error_map, (nth_error_nth' _ 0) by (rewrite seq_length; lia). rewrite seq_nth by lia. reflexivity.
Qed.
Print Assumptions C51_unique_bins.
(** eleven one-character values in an array of dtype S1: the last one gets the code of the second *)
Definition exChars : table := mkT 1 (map (fun s => [NStr s]) ["a"; "b"; "c"; "d"; "e"; "f"; "g"; "h"; "i"; "j"; "k"])%string.
Example C51_nonvacuous : table_ok exChars /\
  (exists t' vd, replace_strings (Some 2) exChars = Ok (t', vd) /\ cell t' 10 0 = Some (NInt 10) /\ cell t' 1 0 = Some (NInt 1)) /\
  (exists t' vd, replace_strings (Some 1) exChars = Ok (t', vd) /\ cell t' 10 0 = Some (NInt 1) /\ cell t' 1 0 = Some (NInt 1)) /\
  unique_bins exChars = Ok [11] /\ at_most exChars 0 (10 ^ 2).
Proof.
  split; [intros r H; apply in_map_iff in H as (s & <- & _); reflexivity|]. split; [do 2 eexists; split; [vm_compute; reflexivity|]; split; reflexivity|]. split; [do 2 eexists; split; [vm_compute; reflexivity|]; split; reflexivity|].
  split; [reflexivity|]. intros l N O. transitivity (length (concat (t_rows exChars))); [|vm_compute; lia]. apply NoDup_incl_length; [exact N|]. intros x Hx. destruct (O x Hx) as [r Hr]. unfold cell in Hr.
  destruct (nth_error (t_rows exChars) r) as [row|] eqn:Er; [|discriminate]. apply in_concat. exists row. split; [eapply nth_error_In; exact Er|eapply nth_error_In; exact Hr].
Qed.

(** ** C52 *)
Lemma truncz_ok x : toward_zero x (truncz x).
Proof.
  unfold truncz, toward_zero. destruct x as [[n d] Hd]. cbn [this Qnum Qden]. pose proof (Z.quot_rem' n (Zpos d)) as E.
  assert (R : forall z, (Q2Qc (inject_Z z) <= {| this := n # d; canon := Hd |})%Qc <-> (z * Zpos d <= n)%Z).
  { intros z. unfold Qcle. cbn [this]. change (this (Q2Qc (inject_Z z))) with (Qred (inject_Z z)). rewrite Qred_correct. unfold Qle. cbn. lia. }
  assert (R' : forall z, ({| this := n # d; canon := Hd |} <= Q2Qc (inject_Z z))%Qc <-> (n <= z * Zpos d)%Z).
  { intros z. unfold Qcle. cbn [this]. change (this (Q2Qc (inject_Z z))) with (Qred (inject_Z z)). rewrite Qred_correct. unfold Qle. cbn. lia. }
  assert (P : forall z, (Q2Qc (inject_Z z) + 1 = Q2Qc (inject_Z (z + 1)))%Qc) by (intros z; apply Qc_eq_Q; qc2q; rewrite inject_Z_plus; reflexivity).
  assert (M : forall z, (Q2Qc (inject_Z z) - 1 = Q2Qc (inject_Z (z - 1)))%Qc).
  { intros z. replace z with ((z - 1) + 1)%Z at 1 by lia. rewrite <- P. ring. }
  assert (LT : forall a b, (a < b)%Qc <-> ~ (b <= a)%Qc) by (intros a b; split; [apply Qclt_not_le|apply Qcnot_le_lt]).
  assert (Z0 : (Q2Qc (inject_Z 0) = 0)%Qc) by reflexivity.
  assert (S1 : forall z, (0 <= Q2Qc (inject_Z z))%Qc <-> (0 <= z)%Z). { intros z. rewrite <- Z0. unfold Qcle. change (this (Q2Qc (inject_Z z))) with (Qred (inject_Z z)). change (this (Q2Qc (inject_Z 0))) with (inject_Z 0). rewrite Qred_correct, <- Zle_Qle. reflexivity. }
  assert (S2 : forall z, (Q2Qc (inject_Z z) <= 0)%Qc <-> (z <= 0)%Z). { intros z. rewrite <- Z0. unfold Qcle. change (this (Q2Qc (inject_Z z))) with (Qred (inject_Z z)). change (this (Q2Qc (inject_Z 0))) with (inject_Z 0). rewrite Qred_correct, <- Zle_Qle. reflexivity. }
  split; intros H.
  - rewrite <- Z0, R in H. rewrite P, LT, R, S1, R. pose proof (Z.rem_bound_pos n (Zpos d) ltac:(lia) ltac:(lia)). pose proof (Z.quot_pos n (Zpos d) ltac:(lia) ltac:(lia)). nia.
  - rewrite <- Z0, R' in H. rewrite M, LT, R', S2, R'. pose proof (Z.rem_bound_pos_neg n (Zpos d)) as B. pose proof (Z.rem_nonpos n (Zpos d) ltac:(lia) ltac:(lia)). pose proof (Z.rem_bound_abs n (Zpos d) ltac:(lia)). 
    assert (Q : (Z.quot n (Zpos d) <= 0)%Z) by nia. nia.
Qed.
(** the entries of a column *)
Definition col_entries (rows : list (list Qc)) (c : nat) (l : list Qc) : Prop := length l = length rows /\ forall r, nth_error l r = qcell rows r c.
Lemma qcolumn_ok rows ncols c : (forall r, In r rows -> length r = ncols) -> c < ncols -> exists l, qcolumn rows c = Ok l /\ col_entries rows c l.
Proof.
  intros W Hc. unfold qcolumn. destruct (mapM_nth (fun r => nget r c) rows) as (l & E & L & H).
  { intros r Hr. unfold nget. destruct (nth_error r c) eqn:Q; [eauto|]. apply nth_error_None in Q. rewrite (W r Hr) in Q. lia. }
  exists l. split; [exact E|]. split; [exact L|]. intros r. unfold qcell. destruct (nth_error rows r) as [row|] eqn:Er.
  - destruct (H r row Er) as (y & Hy & F). rewrite Hy. unfold nget in F. destruct (nth_error row c); [|discriminate]. injection F as ->. reflexivity.
  - apply nth_error_None. apply nth_error_None in Er. lia.
Qed.
Lemma discretize_minmax rows ncols : (forall r, In r rows -> length r = ncols) -> rows <> [] ->
  exists mm, mapM (fun c => do l <- qcolumn rows c ;; Ok (qmin_list l, qmax_list l)) (seq 0 ncols) = Ok mm /\ length mm = ncols /\
  forall c, c < ncols -> exists l, col_entries rows c l /\ is_min l (fst (nth c mm (0%Qc, 0%Qc))) /\ is_max l (snd (nth c mm (0%Qc, 0%Qc))).
Proof.
  intros W NE. destruct (mapM_nth (fun c => do l <- qcolumn rows c ;; Ok (qmin_list l, qmax_list l)) (seq 0 ncols)) as (mm & E & L & H).
  { intros c Hc. apply in_seq in Hc. destruct (qcolumn_ok rows ncols c W) as (l & -> & _); [lia|]. cbn [bind]. eauto. }
  rewrite seq_length in L. exists mm. split; [exact E|]. split; [exact L|]. intros c Hc. destruct (qcolumn_ok rows ncols c W Hc) as (l & El & Cl). exists l. split; [exact Cl|].
  destruct (H c c) as (y & Hy & Fy). { rewrite (nth_error_nth' _ 0) by (rewrite seq_length; lia). rewrite seq_nth by lia. reflexivity. }
  rewrite El in Fy. cbn [bind] in Fy. injection Fy as <-. rewrite (nth_error_nth _ _ (0%Qc, 0%Qc) Hy). cbn [fst snd].
  assert (l <> []) by (intros ->; destruct Cl as [Q _]; destruct rows; [congruence|discriminate]). split; [now apply qmin_list_ok|now apply qmax_list_ok].
Qed.
Lemma digitize_const lo n x : (lo <= x)%Qc -> digitize (linspace lo lo n) x = n.
Proof.
  intros H. unfold digitize, linspace. rewrite filter_map_length. transitivity (length (seq 0 n)); [f_equal|apply seq_length].
  assert (G : forall l, filter (fun i => negb (qltb x (lo + nQc i * (lo - lo) / nQc (n - 1))%Qc)) l = l); [|apply G].
  induction l as [|i l IH]; [reflexivity|]. cbn [filter]. replace (lo + nQc i * (lo - lo) / nQc (n - 1))%Qc with lo by (unfold Qcdiv; ring). destruct (qltb_spec x lo) as [Q|_]; [exfalso; qclra|]. cbn [negb]. now rewrite IH.
Qed.
(** entry by entry.  [cols] defaults to all columns, [bins] to 5 for every column *)
Definition chosen_cols (ncols : nat) (cols : option (list nat)) : list nat := match cols with Some c => c | None => seq 0 ncols end.
Definition chosen_bins (ncols : nat) (bins : option (list nat)) : list nat := match bins with Some b => b | None => repeat 5 ncols end.
Theorem C52_discretize : forall ncols rows cols bins, (forall r, In r rows -> length r = ncols) -> rows <> [] ->
  NoDup (chosen_cols ncols cols) -> (forall c, In c (chosen_cols ncols cols) -> c < ncols /\ c < length (chosen_bins ncols bins)) ->
  exists out, discretize ncols rows cols bins = Ok out /\ length out = length rows /\
  forall c l, c < ncols -> col_entries rows c l -> exists lo hi, is_min l lo /\ is_max l hi /\
  forall r x, qcell rows r c = Some x ->
   (~ In c (chosen_cols ncols cols) -> exists z, qcell out r c = Some z /\ toward_zero x z) /\
   (In c (chosen_cols ncols cols) -> forall n, nth_error (chosen_bins ncols bins) c = Some n ->
      (2 <= n -> (lo < hi)%Qc -> exists k, qcell out r c = Some (Z.of_nat k) /\ in_interval lo hi n k x) /\
      (lo = hi -> qcell out r c = Some (Z.of_nat n))).
Proof.
  intros ncols rows cols bins W NE ND Hc. destruct (discretize_minmax rows ncols W NE) as (mm & Em & Lm & Hm).
  destruct (discretize_cols_ok ncols (chosen_bins ncols bins) mm (chosen_cols ncols cols) rows ND W) as (out & E & Lo & Wo & Ho); [intros c H; apply (Hc c H)|exact Lm|intros c H; apply (Hc c H)|].
  unfold discretize. fold (chosen_bins ncols bins). fold (chosen_cols ncols cols). destruct (Nat.eqb_spec (length rows) 0) as [Z|_]; [destruct rows; [congruence|discriminate]|].
  rewrite Em. cbn [bind]. rewrite E. cbn [bind]. eexists. split; [reflexivity|]. split; [now rewrite map_length|].
  intros c l Hcn Cl. destruct (Hm c Hcn) as (l' & Cl' & Mn & Mx).
  assert (l' = l) as ->. { destruct Cl as [L1 N1], Cl' as [L2 N2]. apply (nth_ext _ _ 0%Qc 0%Qc); [lia|]. intros r Hr. specialize (N1 r). specialize (N2 r). rewrite <- N1 in N2. rewrite (nth_error_nth' _ 0%Qc) in N2 by lia. rewrite (nth_error_nth' l 0%Qc) in N2 by lia. congruence. }
  exists (fst (nth c mm (0%Qc, 0%Qc))), (snd (nth c mm (0%Qc, 0%Qc))). split; [exact Mn|]. split; [exact Mx|]. intros r x Hx. pose proof (Ho r c x Hx) as Hout.
  assert (Q : qcell (map (map truncz) out) r c = option_map truncz (qcell out r c)). { unfold qcell. rewrite nth_error_map. destruct (nth_error out r); [|reflexivity]. cbn [option_map]. apply nth_error_map. }
  rewrite Q, Hout. cbn [option_map]. split.
  - intros Nc. assert (F : existsb (Nat.eqb c) (chosen_cols ncols cols) = false). { destruct (existsb _ _) eqn:B; [|reflexivity]. apply existsb_exists in B as (y & Hy & Ey). apply Nat.eqb_eq in Ey as <-. contradiction. }
    rewrite F. exists (truncz x). split; [reflexivity|apply truncz_ok].
  - intros Ic n Hn. assert (F : existsb (Nat.eqb c) (chosen_cols ncols cols) = true) by (apply existsb_exists; exists c; split; [exact Ic|apply Nat.eqb_refl]). rewrite F, truncz_nat.
    rewrite (nth_error_nth _ _ 0 Hn). assert (Ix : In x l) by (destruct Cl as [_ N1]; apply (nth_error_In _ r); rewrite N1; exact Hx).
    assert (Lx : (fst (nth c mm (0%Qc, 0%Qc)) <= x)%Qc) by (apply Mn; exact Ix). split.
    + intros N2 Lt. eexists. split; [reflexivity|]. now apply digitize_interval.
    + intros <-. now rewrite digitize_const.
Qed.
Print Assumptions C52_discretize.
(** what the intervals mean: codes are between 1 and n, larger entries do not get smaller codes, the
    minimum gets 1, the maximum gets n -- and nothing else gets n *)
Theorem C52_codes : forall lo hi n k x, 2 <= n -> (lo < hi)%Qc -> (lo <= x)%Qc -> (x <= hi)%Qc -> in_interval lo hi n k x ->
  1 <= k <= n /\ (x = lo -> k = 1) /\ (x = hi <-> k = n) /\ (forall k' y, in_interval lo hi n k' y -> (x <= y)%Qc -> k <= k').
Proof.
  intros lo hi n k x N L X1 X2 K. pose proof K as (K1 & K2 & K3). split; [exact K1|]. split; [|split; [split|]].
  - intros ->. destruct (Nat.eq_dec k 1) as [|Q]; [assumption|exfalso]. assert (P : (point lo hi n 0 < point lo hi n (k - 1))%Qc) by (apply point_lt; [exact N|exact L|lia]). rewrite point_0 in P. qclra.
  - intros ->. destruct (Nat.eq_dec k n) as [|Q]; [assumption|exfalso]. specialize (K3 ltac:(lia)). assert (P : (point lo hi n k <= point lo hi n (n - 1))%Qc) by (apply point_mono; [exact N|exact L|lia]). rewrite point_last in P by exact N. qclra.
  - intros ->. rewrite point_last in K2 by exact N. now apply Qcle_antisym.
  - intros k' y K' XY. now apply (interval_mono lo hi n k k' x y).
Qed.
Print Assumptions C52_codes.
(** the numbers of bins are looked up by column number, not by position in [cols] *)
Theorem C52_bins_by_column : forall ncols rows cols bins c, (forall r, In r rows -> length r = ncols) -> rows <> [] ->
  (forall c, In c cols -> c < ncols) -> In c cols -> length bins <= c -> discretize ncols rows (Some cols) (Some bins) = Raise IndexError.
Proof.
  intros ncols rows cols bins c W NE Hc Ic Lb. unfold discretize. destruct (Nat.eqb_spec (length rows) 0) as [Z|_]; [destruct rows; [congruence|discriminate]|].
  destruct (discretize_minmax rows ncols W NE) as (mm & Em & Lm & _). rewrite Em. cbn [bind].
  assert (G : forall cols rows, (forall r, In r rows -> length r = ncols) -> (forall c, In c cols -> c < ncols) -> In c cols -> foldM (discretize_col bins mm) cols rows = Raise IndexError).
  { clear -Lb Lm. induction cols as [|d cols IH]; intros rows W Hc Ic; [destruct Ic|]. cbn [foldM]. assert (Hd : d < ncols) by (apply Hc; now left). destruct (nth_error bins d) as [n|] eqn:En.
    - destruct (discretize_col_ok ncols bins mm rows d (nth d mm (0%Qc, 0%Qc)) n W Hd) as (out & E & _ & Wo & _); [apply nth_error_nth'; lia|exact En|]. rewrite E. cbn [bind].
      apply IH; [exact Wo|intros; apply Hc; now right|]. destruct Ic as [-> |]; [|assumption]. apply nth_error_None in Lb. congruence.
    - unfold discretize_col, nget at 1 2. rewrite En. rewrite (nth_error_nth' mm (0%Qc, 0%Qc)) by lia. reflexivity. }
  rewrite (G cols rows W Hc Ic). reflexivity.
Qed.
Print Assumptions C52_bins_by_column.
Definition exNum : list (list Qc) := [[qq 0 1; qq 7 2]; [qq 1 1; qq (-7) 2]; [qq 5 2; qq 1 1]; [qq 4 1; qq 2 1]].
Example C52_nonvacuous : discretize 2 exNum (Some [0]) (Some [3]) = Ok [[1; 3]; [1; -3]; [2; 1]; [3; 2]]%Z /\
  discretize 2 exNum (Some [1]) (Some [3]) = Raise IndexError /\ discretize 2 exNum None None = Ok [[1; 5]; [2; 1]; [3; 3]; [5; 4]]%Z.
Proof. split; [vm_compute; reflexivity|]. split; vm_compute; reflexivity. Qed.

(** no rows: np.amin has nothing to reduce *)
Theorem C52_no_rows : forall ncols cols bins, 0 < ncols -> discretize ncols [] cols bins = Raise ValueError.
Proof. reflexivity. Qed.
Print Assumptions C52_no_rows.

(** ** C53 *)
(** levels a, .., a+k-1: the numbers computed by the tests are functions of the true contingency table *)
Theorem C53_mi_test : forall A (G : list nat -> list nat -> nat -> A) t cols ranges, table_ok t -> t_rows t <> [] -> Forall2 (consecutive t) cols ranges -> 2 <= length cols <= 3 ->
  mi_test G t cols = Ok (G (map snd ranges) (contingency t cols ranges) (length (t_rows t))).
Proof.
  intros A G t cols ranges W NE F L. destruct (hist_contingency t cols ranges W NE F) as [U H].
  assert (C : forall v, In v cols -> coded t v). { clear -F. induction F as [|v ak cols ranges C F IH]; intros w; [intros []|]. intros [<-|Hw]; [now apply (consecutive_coded _ _ ak)|auto]. }
  unfold mi_test. rewrite (select_ok t cols W C). cbn [bind]. rewrite <- U in *.
  destruct cols as [|x [|y [|z [|z' cols]]]]; cbn [map length] in *; try lia; rewrite H; reflexivity.
Qed.
Print Assumptions C53_mi_test.
(** mi_test of a single column has no third axis to sum over: ValueError, whatever the data *)
Theorem C53_one_column : forall A (G : list nat -> list nat -> nat -> A) t c, table_ok t -> coded t c -> mi_test G t [c] = Raise ValueError.
Proof. intros A G t c W C. unfold mi_test. rewrite (select_ok t [c] W) by (intros v [<-|[]]; exact C). reflexivity. Qed.
Print Assumptions C53_one_column.
(** no column at all *)
Theorem C53_no_column : forall A (G : list nat -> list nat -> nat -> A) (F : list nat -> list nat -> A) t,
  mi_test G t [] = Raise ValueError /\ mutual_information F t [] = Raise TypeError.
Proof. intros A G F t. split; reflexivity. Qed.
Print Assumptions C53_no_column.
(** a string as a column number: IndexError, and a string among the values of the first column: TypeError *)
Theorem C53_strings : forall A (G : list nat -> list nat -> nat -> A) (F : list nat -> list nat -> A) t cols, table_ok t ->
  (forall w, mi_test G t (NStr w :: cols) = Raise IndexError /\ mutual_information F t (NStr w :: cols) = Raise IndexError) /\
  (forall i w, i < t_ncols t -> occurs t i (NStr w) -> mi_test G t (NInt i :: cols) = Raise TypeError /\ mutual_information F t (NInt i :: cols) = Raise TypeError) /\
  (forall i, t_ncols t <= i -> mi_test G t (NInt i :: cols) = Raise IndexError /\ mutual_information F t (NInt i :: cols) = Raise IndexError).
Proof.
  intros A G F t cols W. split; [split; reflexivity|]. split.
  - intros i w Hi (r & Hr). assert (S : select t (NInt i :: cols) = Raise TypeError); [|unfold mi_test, mutual_information; rewrite S; split; reflexivity].
    destruct (column_ok t i W Hi) as (c & Ec & _ & Hc). unfold select. cbn [mapM]. rewrite Ec. cbn [bind].
    assert (I : In (NStr w) c) by (apply (nth_error_In c r); now rewrite Hc).
    assert (Q : as_ints c = Raise TypeError); [|now rewrite Q]. clear - I. unfold as_ints. induction c as [|x l IH]; [destruct I|]. cbn [mapM]. destruct I as [-> |I]; [reflexivity|].
    destruct x as [k|k]; [|reflexivity]. cbn [bind]. now rewrite (IH I).
  - intros i Hi. assert (S : select t (NInt i :: cols) = Raise IndexError); [|unfold mi_test, mutual_information; rewrite S; split; reflexivity].
    unfold select. cbn [mapM]. unfold column. apply Nat.ltb_ge in Hi. now rewrite Hi.
Qed.
Print Assumptions C53_strings.
Theorem C53_mutual_information : forall A (F : list nat -> list nat -> A) t cols ranges, table_ok t -> t_rows t <> [] -> Forall2 (consecutive t) cols ranges -> 1 <= length cols <= 2 ->
  mutual_information F t cols = Ok (F (map snd ranges) (contingency t cols ranges)).
Proof.
  intros A F t cols ranges W NE R L. destruct (hist_contingency t cols ranges W NE R) as [U H].
  assert (C : forall v, In v cols -> coded t v). { clear -R. induction R as [|v ak cols ranges C R IH]; intros w; [intros []|]. intros [<-|Hw]; [now apply (consecutive_coded _ _ ak)|auto]. }
  unfold mutual_information. rewrite (select_ok t cols W C). cbn [bind]. rewrite <- U in *.
  destruct cols as [|x [|y [|z cols]]]; cbn [map length] in *; try lia; rewrite H; reflexivity.
Qed.
Print Assumptions C53_mutual_information.
(** levels 0, 1, 10: the first two share a bin.  In the first table column 0 determines column 1, in
    the second it does not; the test cannot tell them apart *)
Definition exGap1 : table := mkT 2 (map (map NInt) [[0; 0]; [0; 0]; [1; 1]; [1; 1]; [10; 0]]).
Definition exGap2 : table := mkT 2 (map (map NInt) [[0; 0]; [1; 0]; [0; 1]; [1; 1]; [10; 0]]).
Theorem C53_gaps_refuted : table_ok exGap1 /\ table_ok exGap2 /\
  (forall r r', cell exGap1 r 0 = cell exGap1 r' 0 -> cell exGap1 r 1 = cell exGap1 r' 1) /\
  (exists r r', cell exGap2 r 0 = cell exGap2 r' 0 /\ cell exGap2 r 1 <> cell exGap2 r' 1) /\
  forall A (G : list nat -> list nat -> nat -> A), mi_test G exGap1 [NInt 0; NInt 1] = mi_test G exGap2 [NInt 0; NInt 1].
Proof.
  split; [intros r H; cbn in H; repeat (destruct H as [<-|H]; [reflexivity|]); destruct H|]. split; [intros r H; cbn in H; repeat (destruct H as [<-|H]; [reflexivity|]); destruct H|].
  split; [|split; [exists 0, 2; split; [reflexivity|discriminate]|intros A G; reflexivity]].
  assert (D : forall r, cell exGap1 r 1 = match cell exGap1 r 0 with Some (NInt 1) => Some (NInt 1) | Some _ => Some (NInt 0) | None => None end) by (intros r; destruct r as [|[|[|[|[|r]]]]]; try reflexivity; destruct r; reflexivity).
  intros r r' H. now rewrite (D r), (D r'), H.
Qed.
Print Assumptions C53_gaps_refuted.
Definition exBits : table := mkT 4 (map (map NInt) [[0; 0; 0; 0]; [0; 1; 0; 1]; [1; 1; 1; 0]; [1; 1; 1; 1]; [1; 0; 0; 1]]).
Lemma exBits_ok : table_ok exBits.
Proof. intros r H; cbn in H; repeat (destruct H as [<-|H]; [reflexivity|]); destruct H. Qed.
Lemma exBits_binary i : i < 4 -> binary exBits (NInt i).
Proof.
  intros Hi. exists i. split; [reflexivity|]. split; [exact Hi|]. intros r x. unfold cell. destruct i as [|[|[|[|i]]]]; [| | | |lia]; (destruct r as [|[|[|[|[|r]]]]]; cbn; [intros [= <-]; auto..|destruct r; discriminate]).
Qed.
Lemma exBits_consecutive i : i < 4 -> consecutive exBits (NInt i) (0, 2).
Proof.
  intros Hi. exists i. split; [reflexivity|]. split; [exact Hi|]. intros x. split.
  - intros [r Hr]. destruct (exBits_binary i Hi) as (j & E & _ & B). injection E as <-. destruct (B r x Hr) as [-> | ->]; eexists; (split; [reflexivity|]); simpl; lia.
  - intros (n & -> & L). simpl in L. destruct n as [|[|n]]; [exists 0|exists (if i =? 1 then 2 else if i =? 3 then 3 else 3)|lia]; unfold cell; destruct i as [|[|[|[|i]]]]; try lia; reflexivity.
Qed.
Example C53_nonvacuous : table_ok exBits /\ t_rows exBits <> [] /\ Forall2 (consecutive exBits) [NInt 0; NInt 1] [(0, 2); (0, 2)] /\
  contingency exBits [NInt 0; NInt 1] [(0, 2); (0, 2)] = [1; 1; 1; 2].
Proof. split; [apply exBits_ok|]. split; [discriminate|]. split; [|reflexivity]. constructor; [apply exBits_consecutive; lia|]. constructor; [apply exBits_consecutive; lia|constructor]. Qed.

(** ** C54 *)
(** one-digit columns: two rows get the same merged code iff they agree in all merged columns *)
Theorem C54_merge : forall t zs, table_ok t -> zs <> [] -> (forall z, In z zs -> one_digit t z) ->
  exists cs m, select t zs = Ok cs /\ merge (length (t_rows t)) cs = Ok m /\ length m = length (t_rows t) /\
  forall r r', r < length (t_rows t) -> r' < length (t_rows t) -> (nth_error m r = nth_error m r' <-> forall i, In (NInt i) zs -> cell t r i = cell t r' i).
Proof.
  intros t zs W NE D. exists (map (ints t) zs). destruct (merge_ok (length (t_rows t)) (map (ints t) zs)) as (m & Em & Lm & Hm).
  { destruct zs; [congruence|discriminate]. } { intros c Hc. apply in_map_iff in Hc as (z & <- & Hz). now apply one_digit_ints, D. }
  exists m. split; [apply select_ok; [exact W|intros z Hz; now apply one_digit_coded, D]|]. split; [exact Em|]. split; [exact Lm|].
  intros r r' Hr Hr'. rewrite !(nth_error_nth' m 0) by lia. rewrite (Hm r Hr), (Hm r' Hr').
  assert (Cl : forall i q, In (NInt i) zs -> q < length (t_rows t) -> cell t q i = Some (NInt (nth q (ints t (NInt i)) 0))).
  { intros i q Hi Hq. destruct (ints_ok t (NInt i) W (one_digit_coded _ _ (D _ Hi))) as (_ & _ & j & E & H). injection E as <-. now apply H. }
  assert (Dg : forall q, q < length (t_rows t) -> forall d, In d (map (fun c => nth q c 0) (map (ints t) zs)) -> d < 10).
  { intros q Hq d Hd. rewrite map_map in Hd. apply in_map_iff in Hd as (z & <- & Hz). destruct (one_digit_ints t z W (D z Hz)) as [L B]. apply B, nth_In. lia. }
  split.
  - intros [= E]. apply decval_inj in E; [|now rewrite !map_length|now apply Dg|now apply Dg]. intros i Hi. rewrite (Cl i r Hi Hr), (Cl i r' Hi Hr'). f_equal. f_equal.
    rewrite !map_map in E. apply (ext_in_map E _ Hi).
  - intros H. f_equal. f_equal. rewrite !map_map. apply map_ext_in. intros z Hz. destruct (D z Hz) as (i & -> & _). specialize (H i Hz). rewrite (Cl i r Hz Hr), (Cl i r' Hz Hr') in H. congruence.
Qed.
Print Assumptions C54_merge.
(** two columns with the same entries, possibly of different tables; the number written by the digits ds; a column holding,
    in every row, the number written by the digits in the columns zs *)
Definition same_column (t : table) (i : nat) (t' : table) (i' : nat) : Prop := i < t_ncols t /\ i' < t_ncols t' /\ forall r, cell t' r i' = cell t r i.
Definition number (ds : list nat) : nat := fold_left (fun a d => a * 10 + d) ds 0.
Definition concatenates (t : table) (zs : list nat) (t' : table) (m : nat) : Prop := m < t_ncols t' /\ forall r, r < length (t_rows t) ->
  exists ds, Forall2 (fun z d => cell t r z = Some (NInt d)) zs ds /\ cell t' r m = Some (NInt (number ds)).
Lemma ints_nth t i r n : table_ok t -> coded t (NInt i) -> cell t r i = Some (NInt n) -> r < length (t_rows t) -> nth r (ints t (NInt i)) 0 = n.
Proof. intros W C E L. destruct (ints_ok t _ W C) as (_ & _ & j & Ej & H). injection Ej as <-. specialize (H r L). congruence. Qed.
Lemma same_column_coded t i t' i' : same_column t i t' i' -> coded t (NInt i) -> coded t' (NInt i').
Proof. intros (_ & L' & E) (j & Ej & _ & H). injection Ej as <-. exists i'. split; [reflexivity|]. split; [exact L'|]. intros r x Hx. rewrite E in Hx. exact (H r x Hx). Qed.
Lemma same_column_ints t i t' i' : table_ok t -> table_ok t' -> length (t_rows t') = length (t_rows t) -> coded t (NInt i) -> same_column t i t' i' -> ints t' (NInt i') = ints t (NInt i).
Proof.
  intros W W' L C S. pose proof (same_column_coded _ _ _ _ S C) as C'. destruct (ints_ok t _ W C) as (_ & Li & _). destruct (ints_ok t' _ W' C') as (_ & Li' & j & Ej & H). injection Ej as <-.
  apply (nth_ext _ _ 0 0); [congruence|]. intros r Hr. rewrite Li', L in Hr. symmetry. apply ints_nth; [exact W|exact C| |exact Hr]. destruct S as (_ & _ & S). rewrite <- S. apply H. lia.
Qed.
(** conditioning on two or more one-digit columns is conditioning on the single column of the numbers they write: the
    tests and the entropy give, on a table with that single column, the same answer *)
Theorem C54_as_one_column : forall A (G : list nat -> list nat -> nat -> A) (F : list nat -> list nat -> A) t t' x y zs x' y' m, table_ok t -> table_ok t' -> length (t_rows t') = length (t_rows t) ->
  coded t (NInt x) -> coded t (NInt y) -> 2 <= length zs -> (forall z, In z zs -> one_digit t (NInt z)) ->
  same_column t x t' x' -> same_column t y t' y' -> concatenates t zs t' m ->
  mi_test G t (map NInt (x :: y :: zs)) = mi_test G t' (map NInt [x'; y'; m]) /\
  conditional_mi F t (map NInt (x :: y :: zs)) = conditional_mi F t' (map NInt [x'; y'; m]) /\
  entropy F t (map NInt (x :: y :: zs)) = entropy F t' (map NInt [x'; y'; m]).
Proof.
  intros A G F t t' x y zs x' y' m W W' L Cx Cy Lz D Sx Sy [Hm K].
  assert (Cm : coded t' (NInt m)).
  { exists m. split; [reflexivity|]. split; [exact Hm|]. intros r v Hv. assert (Hr : r < length (t_rows t)).
    { rewrite <- L. apply nth_error_Some. unfold cell in Hv. destruct (nth_error (t_rows t') r); congruence. }
    destruct (K r Hr) as (ds & _ & E). exists (number ds). congruence. }
  assert (E1 : select t (map NInt (x :: y :: zs)) = Ok (map (ints t) (map NInt (x :: y :: zs)))).
  { apply select_ok; [exact W|]. intros v Hv. cbn [map] in Hv. destruct Hv as [<-|[<-|Hv]]; [exact Cx|exact Cy|]. apply in_map_iff in Hv as (z & <- & Hz). now apply one_digit_coded, D. }
  assert (E2 : select t' (map NInt [x'; y'; m]) = Ok [ints t (NInt x); ints t (NInt y); ints t' (NInt m)]).
  { rewrite <- (same_column_ints t x t' x' W W' L Cx Sx), <- (same_column_ints t y t' y' W W' L Cy Sy).
    apply (select_ok t' (map NInt [x'; y'; m])); [exact W'|]. intros v Hv. cbn [map] in Hv. destruct Hv as [<-|[<-|[<-|[]]]]; [exact (same_column_coded _ _ _ _ Sx Cx)|exact (same_column_coded _ _ _ _ Sy Cy)|exact Cm]. }
  assert (E3 : merge (length (t_rows t)) (map (ints t) (map NInt zs)) = Ok (ints t' (NInt m))).
  { destruct (merge_ok (length (t_rows t)) (map (ints t) (map NInt zs))) as (mm & Em & Lm & Hn).
    { destruct zs; [simpl in Lz; lia|discriminate]. } { intros c Hc. apply in_map_iff in Hc as (v & <- & Hv). apply in_map_iff in Hv as (z & <- & Hz). apply one_digit_ints; [exact W|exact (D z Hz)]. }
    rewrite Em. f_equal. destruct (ints_ok t' _ W' Cm) as (_ & Li & _). apply (nth_ext _ _ 0 0); [congruence|]. intros r Hr. rewrite Lm in Hr. rewrite (Hn r Hr).
    destruct (K r Hr) as (ds & Fd & Ec). rewrite (ints_nth t' m r (number ds) W' Cm Ec) by lia. unfold decval, number. f_equal.
    clear - Fd D W Hr. induction Fd as [|z d zs ds E Fd IH]; [reflexivity|]. cbn [map]. f_equal; [|apply IH; intros; apply D; now right].
    apply ints_nth; [exact W|apply one_digit_coded, D; now left|exact E|exact Hr]. }
  unfold mi_test, conditional_mi, entropy. rewrite E1, E2. cbn [bind]. rewrite L. destruct zs as [|z [|z' zs]]; [simpl in Lz; lia|simpl in Lz; lia|]. cbn [map] in *. cbn [entropy_cols merge3]. rewrite E3. cbn [bind]. auto.
Qed.
Print Assumptions C54_as_one_column.
Definition exConcat : table := mkT 3 (map (map NInt) [[0; 0; 0]; [0; 1; 1]; [1; 1; 10]; [1; 1; 11]; [1; 0; 1]]).
Example C54_as_one_column_nonvacuous : table_ok exConcat /\ length (t_rows exConcat) = length (t_rows exBits) /\ same_column exBits 0 exConcat 0 /\ same_column exBits 1 exConcat 1 /\ concatenates exBits [2; 3] exConcat 2 /\
  mi_test (fun b h n => (b, h, n)) exBits (map NInt [0; 1; 2; 3]) = Ok ([2; 2; 4], [1; 0; 0; 0; 1; 0; 0; 0; 1; 0; 0; 0; 0; 0; 0; 2], 5).
Proof.
  split; [intros r H; cbn in H; repeat (destruct H as [<-|H]; [reflexivity|]); destruct H|]. split; [reflexivity|].
  split; [split; [cbn; lia|]; split; [cbn; lia|]; intros r; unfold cell; do 5 (destruct r as [|r]; [reflexivity|]); destruct r; reflexivity|].
  split; [split; [cbn; lia|]; split; [cbn; lia|]; intros r; unfold cell; do 5 (destruct r as [|r]; [reflexivity|]); destruct r; reflexivity|].
  split; [|vm_compute; reflexivity]. split; [cbn; lia|]. intros r Hr. cbn in Hr.
  do 5 (destruct r as [|r]; [eexists [_; _]; split; [constructor; [reflexivity|]; constructor; [reflexivity|constructor]|reflexivity]|]). lia.
Qed.
(** two-digit levels: (1, 11) and (11, 1) become the same configuration *)
Definition exDigits : table := mkT 2 (map (map NInt) [[1; 11]; [11; 1]]).
Theorem C54_two_digits_refuted : exists cs m, select exDigits [NInt 0; NInt 1] = Ok cs /\ merge 2 cs = Ok m /\ nth_error m 0 = nth_error m 1 /\ nth_error m 0 <> None /\ cell exDigits 0 0 <> cell exDigits 1 0.
Proof. do 2 eexists. split; [reflexivity|]. split; [reflexivity|]. split; [reflexivity|]. split; discriminate. Qed.
Print Assumptions C54_two_digits_refuted.
Example C54_nonvacuous : table_ok exBits /\ (forall z, In z [NInt 2; NInt 3] -> one_digit exBits z) /\ (do cs <- select exBits [NInt 2; NInt 3] ;; merge 5 cs) = Ok [0; 1; 10; 11; 1].
Proof.
  split; [apply exBits_ok|]. split; [|reflexivity]. intros z Hz. assert (B : binary exBits z) by (destruct Hz as [<-|[<-|[]]]; apply exBits_binary; lia).
  destruct B as (i & -> & Hi & H). exists i. split; [reflexivity|]. split; [exact Hi|]. intros r x Hx. destruct (H r x Hx) as [-> | ->]; eexists; (split; [reflexivity|lia]).
Qed.
