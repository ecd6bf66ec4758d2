(** RealTable.v -- the histogram of consecutive levels, as relative frequencies. *)
From Verif Require Import Py Num Data SpecLearn SpecData DataUtils DataFacts HistFacts SpecReal MiReal RealFacts.
From Coq Require Import Reals Lra Lia.
Open Scope R_scope.

Lemma nth_flat_map {A B} (f : A -> list B) (d : B) (d' : A) n : forall l i j, (forall x, In x l -> length (f x) = n) -> (i < length l)%nat -> (j < n)%nat -> nth (i * n + j) (flat_map f l) d = nth j (f (nth i l d')) d.
Proof.
  induction l as [|x l IH]; intros i j L Hi Hj; [simpl in Hi; lia|]. cbn [flat_map]. assert (Lx : length (f x) = n) by (apply L; now left). destruct i as [|i].
  - cbn [nth Nat.mul Nat.add]. apply app_nth1. lia.
  - rewrite app_nth2 by (rewrite Lx; lia). rewrite Lx. replace (S i * n + j - n)%nat with (i * n + j)%nat by lia. apply IH; [intros y Hy; apply L; now right|simpl in Hi; lia|exact Hj].
Qed.
Lemma tuples1 n : tuples [n] = map (fun i => [i]) (seq 0 n).
Proof. cbn [tuples map]. induction (seq 0 n) as [|x l IH]; [reflexivity|]. cbn [flat_map map app]. now rewrite IH. Qed.
Lemma nth_tuples1 n i : (i < n)%nat -> nth i (tuples [n]) [] = [i].
Proof. intros H. rewrite tuples1. rewrite (nth_indep _ [] [0%nat]) by (rewrite map_length, seq_length; exact H). rewrite (map_nth (fun i => [i])). now rewrite seq_nth. Qed.
Lemma len_tuples bins : length (tuples bins) = fold_right Nat.mul 1%nat bins.
Proof.
  induction bins as [|n bins IH]; [reflexivity|]. cbn [tuples fold_right]. rewrite <- IH. rewrite <- (seq_length n 0) at 2. induction (seq 0 n) as [|x l IHl]; [reflexivity|].
  cbn [flat_map length Nat.mul]. rewrite app_length, map_length, IHl. lia.
Qed.
Lemma nth_tuples_cons n bins i k : (i < n)%nat -> (k < length (tuples bins))%nat -> nth (i * length (tuples bins) + k) (tuples (n :: bins)) [] = i :: nth k (tuples bins) [].
Proof.
  intros Hi Hk. cbn [tuples]. rewrite (nth_flat_map _ [] 0%nat (length (tuples bins))) by (try (intros; now rewrite map_length); rewrite ?seq_length; assumption).
  rewrite seq_nth by exact Hi. rewrite (nth_indep _ [] (cons (0 + i)%nat [])) by (rewrite map_length; exact Hk). now rewrite (map_nth (cons (0 + i)%nat)).
Qed.
Lemma nth_tuples2 a b i j : (i < a)%nat -> (j < b)%nat -> nth (i * b + j) (tuples [a; b]) [] = [i; j].
Proof.
  intros Hi Hj. assert (L : length (tuples [b]) = b) by (rewrite tuples1, map_length; apply seq_length).
  pose proof (nth_tuples_cons a [b] i j Hi) as H. rewrite L in H. rewrite H by exact Hj. now rewrite nth_tuples1.
Qed.
Lemma nth_tuples3 a b c i j k : (i < a)%nat -> (j < b)%nat -> (k < c)%nat -> nth ((i * b + j) * c + k) (tuples [a; b; c]) [] = [i; j; k].
Proof.
  intros Hi Hj Hk. assert (L : length (tuples [b; c]) = (b * c)%nat) by (rewrite len_tuples; cbn [fold_right]; lia).
  pose proof (nth_tuples_cons a [b; c] i (j * c + k) Hi) as H. rewrite L in H. rewrite <- (nth_tuples2 b c j k Hj Hk), <- H by nia. f_equal. lia.
Qed.
Lemma nth_contingency2 t x y ax ay i j : (i < snd ax)%nat -> (j < snd ay)%nat ->
  nth (i * snd ay + j) (contingency t [x; y] [ax; ay]) 0%nat = rows_with t [(x, lvl ax i); (y, lvl ay j)].
Proof.
  intros Hi Hj. unfold contingency. cbn [map]. assert (L : (i * snd ay + j < length (tuples [snd ax; snd ay]))%nat) by (rewrite len_tuples; cbn [fold_right]; nia).
  set (g := fun idx => _). rewrite (nth_indep _ 0%nat (g [])) by (rewrite map_length; exact L). rewrite (map_nth g). rewrite nth_tuples2 by assumption. reflexivity.
Qed.
Lemma nth_contingency3 t x y z ax ay az i j k : (i < snd ax)%nat -> (j < snd ay)%nat -> (k < snd az)%nat ->
  nth ((i * snd ay + j) * snd az + k) (contingency t [x; y; z] [ax; ay; az]) 0%nat = rows_with t [(x, lvl ax i); (y, lvl ay j); (z, lvl az k)].
Proof.
  intros Hi Hj Hk. unfold contingency. cbn [map]. assert (L : ((i * snd ay + j) * snd az + k < length (tuples [snd ax; snd ay; snd az]))%nat) by (rewrite len_tuples; cbn [fold_right]; rewrite Nat.mul_1_r; generalize dependent (snd az); generalize dependent (snd ay); generalize dependent (snd ax); intros a Ha b Hb c Hc; assert (i * b + j < a * b)%nat by nia; nia).
  set (g := fun idx => _). rewrite (nth_indep _ 0%nat (g [])) by (rewrite map_length; exact L). rewrite (map_nth g). rewrite nth_tuples3 by assumption. reflexivity.
Qed.
(** every row has exactly one of the levels *)
Lemma filter_and {A} (p q : A -> bool) l : filter (fun x => (p x && q x)%bool) l = filter p (filter q l).
Proof. induction l as [|x l IH]; [reflexivity|]. cbn [filter]. destruct (q x); cbn [filter]; destruct (p x); cbn [andb]; rewrite IH; reflexivity. Qed.
Lemma sum_indicator n m (p : nat -> bool) : (m < n)%nat -> (forall i, (i < n)%nat -> p i = (i =? m)%nat) -> rsum n (fun i => if p i then 1 else 0) = 1.
Proof.
  revert m. induction n as [|n IH]; intros m Hm H; [lia|]. rewrite rsum_S. rewrite (H n) by lia. destruct (Nat.eqb_spec n m) as [-> |D].
  - rewrite (rsum_ext m _ (fun _ => 0)); [rewrite rsum_const; lra|]. intros i Hi. rewrite H by lia. destruct (Nat.eqb_spec i m); [lia|reflexivity].
  - rewrite (IH m); [lra|lia|]. intros i Hi. apply H. lia.
Qed.
Lemma sum_levels (q : list name -> bool) (e : nat -> list name -> bool) n l : (forall r, In r l -> exists m, (m < n)%nat /\ forall i, (i < n)%nat -> e i r = (i =? m)%nat) ->
  rsum n (fun i => INR (length (filter (fun r => (e i r && q r)%bool) l))) = INR (length (filter q l)).
Proof.
  induction l as [|r l IH]; intros H.
  - cbn [filter length]. rewrite rsum_const. simpl. lra.
  - destruct (H r (or_introl eq_refl)) as (m & Hm & E). cbn [filter]. rewrite (rsum_ext n _ (fun i => (if e i r then 1 else 0) * (if q r then 1 else 0) + INR (length (filter (fun r => (e i r && q r)%bool) l)))).
    + rewrite rsum_plus, IH by (intros; apply H; now right). rewrite rsum_scal_r, (sum_indicator n m (fun i => e i r) Hm E). destruct (q r); cbn [length]; rewrite ?S_INR; lra.
    + intros i Hi. destruct (e i r), (q r); cbn [andb length]; rewrite ?S_INR; lra.
Qed.
Lemma row_level t y ay r : table_ok t -> consecutive t y ay -> In r (t_rows t) -> exists m, (m < snd ay)%nat /\ forall i, (i < snd ay)%nat -> entryb r (y, lvl ay i) = (i =? m)%nat.
Proof.
  intros W (c & -> & Hc & H) Hr. destruct (In_nth_error _ _ Hr) as [k Hk]. assert (L : length r = t_ncols t) by now apply W.
  destruct (nth_error r c) as [x|] eqn:Ex; [|apply nth_error_None in Ex; lia].
  destruct (proj1 (H x)) as (n & -> & Ln). { exists k. unfold cell. now rewrite Hk. }
  exists (n - fst ay)%nat. split; [lia|]. intros i Hi. unfold entryb, lvl. cbn [fst snd]. rewrite Ex. destruct (Nat.eqb_spec i (n - fst ay)) as [-> |D].
  - replace (fst ay + (n - fst ay))%nat with n by lia. destruct (name_eqb_spec (NInt n) (NInt n)); congruence.
  - destruct (name_eqb_spec (NInt n) (NInt (fst ay + i))) as [E|_]; [injection E; lia|reflexivity].
Qed.
Lemma freq_total t : t_rows t <> [] -> freq t [] = 1.
Proof. intros H. unfold freq, rows_with. cbn [forallb]. assert (E : filter (fun _ : list name => true) (t_rows t) = t_rows t) by (induction (t_rows t) as [|x l IH]; [reflexivity|]; cbn [filter]; destruct l; [reflexivity|]; now rewrite IH). rewrite E. field. apply not_0_INR. destruct (t_rows t); [congruence|discriminate]. Qed.
Lemma freq_sum t y ay q1 q2 : table_ok t -> consecutive t y ay -> rsum (snd ay) (fun j => freq t (q1 ++ (y, lvl ay j) :: q2)) = freq t (q1 ++ q2).
Proof.
  intros W C. unfold freq, Rdiv. rewrite rsum_scal_r. f_equal. unfold rows_with.
  rewrite (rsum_ext _ _ (fun j => INR (length (filter (fun r => (entryb r (y, lvl ay j) && forallb (entryb r) (q1 ++ q2))%bool) (t_rows t))))).
  - apply sum_levels. intros r Hr. now apply (row_level t).
  - intros j _. f_equal. f_equal. apply filter_ext. intros r. rewrite !forallb_app. cbn [forallb]. destruct (forallb (entryb r) q1), (entryb r (y, lvl ay j)); reflexivity.
Qed.
Lemma freq_nonneg t q : 0 <= freq t q.
Proof. unfold freq. destruct (Nat.eq_dec (length (t_rows t)) 0) as [E|E]; [rewrite E; unfold rows_with; destruct (t_rows t); [simpl; lra|discriminate]|]. apply Rmult_le_pos; [apply pos_INR|]. left. apply Rinv_0_lt_compat, lt_0_INR. lia. Qed.

(** the marginal sums of the model are the frequencies *)
Lemma mi2_freq t x y ax ay : table_ok t -> t_rows t <> [] -> consecutive t x ax -> consecutive t y ay ->
  mi2 (snd ax) (snd ay) (contingency t [x; y] [ax; ay]) (length (t_rows t)) = smoothed_mi eps t x y ax ay.
Proof.
  intros W NE Cx Cy. unfold mi2, smoothed_mi. cbn zeta.
  assert (P : forall i j, (i < snd ax)%nat -> (j < snd ay)%nat -> at2 (snd ay) (contingency t [x; y] [ax; ay]) i j / INR (length (t_rows t)) = freq t [(x, lvl ax i); (y, lvl ay j)]) by (intros i j Hi Hj; unfold at2; now rewrite nth_contingency2).
  assert (Px : forall i, (i < snd ax)%nat -> rsum (snd ay) (fun j => at2 (snd ay) (contingency t [x; y] [ax; ay]) i j / INR (length (t_rows t))) = freq t [(x, lvl ax i)]).
  { intros i Hi. rewrite (rsum_ext _ _ (fun j => freq t ([(x, lvl ax i)] ++ (y, lvl ay j) :: []))) by (intros j Hj; now apply P). now apply freq_sum. }
  assert (Py : forall j, (j < snd ay)%nat -> rsum (snd ax) (fun i => at2 (snd ay) (contingency t [x; y] [ax; ay]) i j / INR (length (t_rows t))) = freq t [(y, lvl ay j)]).
  { intros j Hj. rewrite (rsum_ext _ _ (fun i => freq t ([] ++ (x, lvl ax i) :: [(y, lvl ay j)]))) by (intros i Hi; now apply P). now apply freq_sum. }
  apply rsum_ext. intros i Hi. apply rsum_ext. intros j Hj. now rewrite P, Px, Py.
Qed.
Lemma mi3_freq t x y z ax ay az : table_ok t -> t_rows t <> [] -> consecutive t x ax -> consecutive t y ay -> consecutive t z az ->
  mi3 (snd ax) (snd ay) (snd az) (contingency t [x; y; z] [ax; ay; az]) (length (t_rows t)) = smoothed_cmi eps t x y z ax ay az.
Proof.
  intros W NE Cx Cy Cz. unfold mi3, smoothed_cmi. cbn zeta.
  set (P := fun i j k => at3 (snd ay) (snd az) (contingency t [x; y; z] [ax; ay; az]) i j k / INR (length (t_rows t))).
  assert (HP : forall i j k, (i < snd ax)%nat -> (j < snd ay)%nat -> (k < snd az)%nat -> P i j k = freq t [(x, lvl ax i); (y, lvl ay j); (z, lvl az k)]) by (intros i j k Hi Hj Hk; unfold P, at3; now rewrite nth_contingency3).
  assert (Pxz : forall i k, (i < snd ax)%nat -> (k < snd az)%nat -> rsum (snd ay) (fun j => P i j k) = freq t [(x, lvl ax i); (z, lvl az k)]).
  { intros i k Hi Hk. rewrite (rsum_ext _ _ (fun j => freq t ([(x, lvl ax i)] ++ (y, lvl ay j) :: [(z, lvl az k)]))) by (intros j Hj; now apply HP). now apply freq_sum. }
  assert (Pyz : forall j k, (j < snd ay)%nat -> (k < snd az)%nat -> rsum (snd ax) (fun i => P i j k) = freq t [(y, lvl ay j); (z, lvl az k)]).
  { intros j k Hj Hk. rewrite (rsum_ext _ _ (fun i => freq t ([] ++ (x, lvl ax i) :: [(y, lvl ay j); (z, lvl az k)]))) by (intros i Hi; now apply HP). now apply freq_sum. }
  assert (Pz : forall k, (k < snd az)%nat -> rsum (snd ax) (fun i => rsum (snd ay) (fun j => P i j k)) = freq t [(z, lvl az k)]).
  { intros k Hk. rewrite (rsum_ext _ _ (fun i => freq t ([] ++ (x, lvl ax i) :: [(z, lvl az k)]))) by (intros i Hi; now apply Pxz). now apply freq_sum. }
  apply rsum_ext. intros i Hi. apply rsum_ext. intros j Hj. apply rsum_ext. intros k Hk. fold (P i j k). rewrite HP by assumption.
  change (rsum (snd ax) (fun i0 => rsum (snd ay) (fun j0 => at3 (snd ay) (snd az) (contingency t [x; y; z] [ax; ay; az]) i0 j0 k / INR (length (t_rows t))))) with (rsum (snd ax) (fun i0 => rsum (snd ay) (fun j0 => P i0 j0 k))).
  change (rsum (snd ay) (fun j0 => at3 (snd ay) (snd az) (contingency t [x; y; z] [ax; ay; az]) i j0 k / INR (length (t_rows t)))) with (rsum (snd ay) (fun j0 => P i j0 k)).
  change (rsum (snd ax) (fun i0 => at3 (snd ay) (snd az) (contingency t [x; y; z] [ax; ay; az]) i0 j k / INR (length (t_rows t)))) with (rsum (snd ax) (fun i0 => P i0 j k)).
  rewrite Pz, Pxz, Pyz by assumption. reflexivity.
Qed.
