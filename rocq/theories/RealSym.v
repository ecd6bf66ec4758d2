(** RealSym.v -- exchanging the first two columns of a histogram; the total of a histogram. *)
From Verif Require Import Py Num Data SpecLearn SpecConstraint SpecData DataUtils DataFacts HistFacts MiFacts SpecReal MiReal RealFacts RealTable RealMi.
From Coq Require Import Reals Lra Lia.
Open Scope nat_scope.

Definition cnt (N : nat) (cs : list (list nat)) (idx : list nat) : nat := length (filter (fun r => row_eqb idx (map (fun c => nth r c 0) cs)) (seq 0 N)).
Lemma filter_map_length {A B} (f : A -> B) p l : length (filter p (map f l)) = length (filter (fun x => p (f x)) l).
Proof. induction l as [|x l IH]; [reflexivity|]. cbn [map filter]. destruct (p (f x)); cbn [length]; now rewrite IH. Qed.
Lemma transpose_map N cs : (forall c, In c cs -> length c = N) -> transpose N cs = map (fun r => map (fun c => nth r c 0) cs) (seq 0 N).
Proof.
  intros H. apply (nth_ext _ _ [] []); [now rewrite map_length, seq_length, transpose_length|]. intros r Hr. rewrite transpose_length in Hr by exact H.
  set (g := fun r => map (fun c => nth r c 0) cs). rewrite (nth_indep (map g (seq 0 N)) [] (g 0)) by (rewrite map_length, seq_length; exact Hr). rewrite (map_nth g), seq_nth by exact Hr.
  apply nth_error_nth. unfold g. now apply nth_transpose.
Qed.
Lemma count_cnt N cs idx : (forall c, In c cs -> length c = N) -> length (filter (row_eqb idx) (transpose N cs)) = cnt N cs idx.
Proof. intros H. rewrite transpose_map by exact H. apply filter_map_length. Qed.
Lemma row_eqb_swap i j k u v w : row_eqb (i :: j :: k) (u :: v :: w) = row_eqb (j :: i :: k) (v :: u :: w).
Proof. unfold row_eqb. destruct (list_eq_dec Nat.eq_dec (i :: j :: k) (u :: v :: w)), (list_eq_dec Nat.eq_dec (j :: i :: k) (v :: u :: w)); try reflexivity; congruence. Qed.
Lemma cnt_swap N x y cs i j idx : cnt N (y :: x :: cs) (j :: i :: idx) = cnt N (x :: y :: cs) (i :: j :: idx).
Proof.
  unfold cnt. f_equal. apply filter_ext. intros r. cbn [map]. apply row_eqb_swap.
Qed.
Lemma binned_length n l : length (binned n l) = length l.
Proof. apply map_length. Qed.
Lemma hist_cnt N bins cs h : (forall c, In c cs -> length c = N) -> hist N bins cs = Ok h -> h = map (cnt N (map (fun bc => binned (fst bc) (snd bc)) (combine bins cs))) (tuples bins).
Proof.
  intros H. unfold hist. destruct (existsb (Nat.eqb 0) bins); [discriminate|]. intros [= <-]. apply map_ext. intros idx. apply count_cnt.
  intros c Hc. apply in_map_iff in Hc as ([b d] & <- & I). cbn [fst snd]. rewrite binned_length. apply H. now apply in_combine_r in I.
Qed.
Lemma nth_hist bins (h : list nat) f k idx : h = map f (tuples bins) -> k < length (tuples bins) -> nth k (tuples bins) [] = idx -> nth k h 0 = f idx.
Proof. intros -> L <-. rewrite (nth_indep _ 0 (f [])) by (rewrite map_length; exact L). apply map_nth. Qed.
Lemma hist_sym2 N a b x y h h' : length x = N -> length y = N -> hist N [a; b] [x; y] = Ok h -> hist N [b; a] [y; x] = Ok h' ->
  forall i j, i < a -> j < b -> nth (j * a + i) h' 0 = nth (i * b + j) h 0.
Proof.
  intros Lx Ly H H' i j Hi Hj. apply hist_cnt in H; [|intros c [<-|[<-|[]]]; assumption]. apply hist_cnt in H'; [|intros c [<-|[<-|[]]]; assumption]. cbn [combine map fst snd] in H, H'.
  rewrite (nth_hist [a; b] h _ (i * b + j) [i; j] H); [|rewrite len_tuples; cbn [fold_right]; nia|now apply nth_tuples2].
  rewrite (nth_hist [b; a] h' _ (j * a + i) [j; i] H'); [|rewrite len_tuples; cbn [fold_right]; nia|now apply nth_tuples2]. apply cnt_swap.
Qed.
Lemma lt3 a b c i j k : i < a -> j < b -> k < c -> (i * b + j) * c + k < a * (b * (c * 1)).
Proof. intros. assert (i * b + j < a * b) by nia. nia. Qed.
Lemma hist_sym3 N a b c x y z h h' : length x = N -> length y = N -> length z = N -> hist N [a; b; c] [x; y; z] = Ok h -> hist N [b; a; c] [y; x; z] = Ok h' ->
  forall i j k, i < a -> j < b -> k < c -> nth ((j * a + i) * c + k) h' 0 = nth ((i * b + j) * c + k) h 0.
Proof.
  intros Lx Ly Lz H H' i j k Hi Hj Hk. apply hist_cnt in H; [|intros d [<-|[<-|[<-|[]]]]; assumption]. apply hist_cnt in H'; [|intros d [<-|[<-|[<-|[]]]]; assumption]. cbn [combine map fst snd] in H, H'.
  rewrite (nth_hist [a; b; c] h _ ((i * b + j) * c + k) [i; j; k] H); [|rewrite len_tuples; cbn [fold_right]; now apply lt3|now apply nth_tuples3].
  rewrite (nth_hist [b; a; c] h' _ ((j * a + i) * c + k) [j; i; k] H'); [|rewrite len_tuples; cbn [fold_right]; now apply lt3|now apply nth_tuples3]. apply cnt_swap.
Qed.
Lemma existsb_swap (p : nat -> bool) a b l : existsb p (a :: b :: l) = existsb p (b :: a :: l).
Proof. cbn [existsb]. destruct (p a), (p b); reflexivity. Qed.
Lemma hist_fail N bins cs : hist N bins cs = if existsb (Nat.eqb 0) bins then Raise ValueError else hist N bins cs.
Proof. unfold hist. destruct (existsb (Nat.eqb 0) bins); reflexivity. Qed.
Lemma hist_succeeds N bins cs : existsb (Nat.eqb 0) bins = false -> exists h, hist N bins cs = Ok h.
Proof. intros E. unfold hist. rewrite E. eauto. Qed.

Lemma mi2_sym a b h h' N : (forall i j, i < a -> j < b -> nth (j * a + i) h' 0 = nth (i * b + j) h 0) -> mi2 b a h' N = mi2 a b h N.
Proof.
  intros H. unfold mi2. cbn zeta. rewrite rsum_swap. apply rsum_ext. intros i Hi. apply rsum_ext. intros j Hj. assert (E : forall i j, i < a -> j < b -> at2 a h' j i = at2 b h i j) by (intros u v Hu Hv; unfold at2; now rewrite H).
  rewrite E by assumption. rewrite (rsum_ext a (fun i0 => at2 a h' j i0 / INR N)%R (fun i0 => at2 b h i0 j / INR N)%R) by (intros u Hu; now rewrite E). rewrite (rsum_ext b (fun j0 => at2 a h' j0 i / INR N)%R (fun j0 => at2 b h i j0 / INR N)%R) by (intros u Hu; now rewrite E).
  now rewrite (Rmult_comm (rsum a _)).
Qed.
Lemma mi3_sym a b c h h' N : (forall i j k, i < a -> j < b -> k < c -> nth ((j * a + i) * c + k) h' 0 = nth ((i * b + j) * c + k) h 0) -> mi3 b a c h' N = mi3 a b c h N.
Proof.
  intros H. assert (E : forall i j k, i < a -> j < b -> k < c -> at3 a c h' j i k = at3 b c h i j k) by (intros u v w Hu Hv Hw; unfold at3; now rewrite H).
  unfold mi3. cbn zeta. rewrite rsum_swap. apply rsum_ext. intros i Hi. apply rsum_ext. intros j Hj. apply rsum_ext. intros k Hk. rewrite E by assumption.
  rewrite (rsum_ext a (fun i0 => at3 a c h' j i0 k / INR N)%R (fun i0 => at3 b c h i0 j k / INR N)%R) by (intros u Hu; now rewrite E). rewrite (rsum_ext b (fun j0 => at3 a c h' j0 i k / INR N)%R (fun j0 => at3 b c h i j0 k / INR N)%R) by (intros u Hu; now rewrite E).
  rewrite (rsum_swap b a (fun i0 j0 => at3 a c h' i0 j0 k / INR N)%R). rewrite (rsum_ext a (fun j0 => rsum b (fun i0 => at3 a c h' i0 j0 k / INR N))%R (fun i0 => rsum b (fun j0 => at3 b c h i0 j0 k / INR N))%R) by (intros u Hu; apply rsum_ext; intros v Hv; now rewrite E).
  now rewrite (Rmult_comm (rsum a _ / _)).
Qed.
(** [G] does not change when the first two axes are exchanged *)
Definition symmetric_number {A} (G : list nat -> list nat -> nat -> A) : Prop :=
  (forall a b h h' N, (forall i j, i < a -> j < b -> nth (j * a + i) h' 0 = nth (i * b + j) h 0) -> G [b; a] h' N = G [a; b] h N) /\
  (forall a b c h h' N, (forall i j k, i < a -> j < b -> k < c -> nth ((j * a + i) * c + k) h' 0 = nth ((i * b + j) * c + k) h 0) -> G [b; a; c] h' N = G [a; b; c] h N).
Lemma mi_test_sym {A} (G : list nat -> list nat -> nat -> A) t x y rest : symmetric_number G -> table_ok t -> (forall v, In v (x :: y :: rest) -> coded t v) -> mi_test G t (y :: x :: rest) = mi_test G t (x :: y :: rest).
Proof.
  intros [G2 G3] W C. unfold mi_test. rewrite !select_ok; [|exact W|exact C|exact W|intros v [<-|[<-|H]]; apply C; cbn; auto]. cbn [bind map].
  assert (L : forall v, In v (x :: y :: rest) -> length (ints t v) = length (t_rows t)) by (intros v Hv; now apply ints_ok, C). assert (Lx := L x ltac:(cbn; auto)). assert (Ly := L y ltac:(cbn; auto)).
  destruct rest as [|z rest].
  - cbn [map]. rewrite hist_fail. rewrite existsb_swap. destruct (existsb (Nat.eqb 0) [nunique (ints t x); nunique (ints t y)]) eqn:Ex; [rewrite hist_fail, Ex; reflexivity|].
    destruct (hist_succeeds (length (t_rows t)) [nunique (ints t x); nunique (ints t y)] [ints t x; ints t y] Ex) as [h Eh].
    destruct (hist_succeeds (length (t_rows t)) [nunique (ints t y); nunique (ints t x)] [ints t y; ints t x]) as [h' Eh']; [now rewrite existsb_swap|].
    rewrite Eh, Eh'. cbn [bind]. f_equal. apply G2. now apply (hist_sym2 (length (t_rows t)) _ _ (ints t x) (ints t y)).
  - assert (K : forall m, length m = length (t_rows t) -> (do h <- hist (length (t_rows t)) [nunique (ints t y); nunique (ints t x); nunique m] [ints t y; ints t x; m];; Ok (G [nunique (ints t y); nunique (ints t x); nunique m] h (length (t_rows t)))) =
                        (do h <- hist (length (t_rows t)) [nunique (ints t x); nunique (ints t y); nunique m] [ints t x; ints t y; m];; Ok (G [nunique (ints t x); nunique (ints t y); nunique m] h (length (t_rows t))))).
    { intros m Lm. rewrite hist_fail, existsb_swap. destruct (existsb (Nat.eqb 0) [nunique (ints t x); nunique (ints t y); nunique m]) eqn:Ex; [rewrite hist_fail, Ex; reflexivity|].
      destruct (hist_succeeds (length (t_rows t)) [nunique (ints t x); nunique (ints t y); nunique m] [ints t x; ints t y; m] Ex) as [h Eh].
      destruct (hist_succeeds (length (t_rows t)) [nunique (ints t y); nunique (ints t x); nunique m] [ints t y; ints t x; m]) as [h' Eh']; [now rewrite existsb_swap|].
      rewrite Eh, Eh'. cbn [bind]. f_equal. apply G3. now apply (hist_sym3 (length (t_rows t)) _ _ _ (ints t x) (ints t y) m). }
    destruct rest as [|z' rest]; cbn [map]; [apply K, L; cbn; auto|].
    destruct (merge (length (t_rows t)) (ints t z :: ints t z' :: map (ints t) rest)) as [m|e] eqn:Em; cbn [bind]; [|reflexivity]. apply K.
    unfold merge in Em. assert (Lm : length m = length (transpose (length (t_rows t)) (map (ints t) (z :: z' :: rest)))).
    { cbn [map]. clear -Em. revert m Em. generalize (transpose (length (t_rows t)) (ints t z :: ints t z' :: map (ints t) rest)). induction l as [|r l IH]; intros m E; cbn [mapM] in E; [injection E as <-; reflexivity|].
      destruct (py_int (join_digits r)); cbn [bind] in E; [|discriminate]. destruct (mapM _ l) as [ms|] eqn:El; cbn [bind] in E; [|discriminate]. injection E as <-. cbn [length]. f_equal. now apply IH. }
    rewrite Lm. apply transpose_length. intros c Hc. apply in_map_iff in Hc as (v & <- & Hv). apply L. cbn in *. tauto.
Qed.
(** the total of a histogram *)
Lemma hsum_app l m : hsum (l ++ m) = hsum l + hsum m.
Proof. unfold hsum. induction l as [|x l IH]; [reflexivity|]. cbn [app fold_right]. rewrite IH. lia. Qed.
Lemma hsum_tuples n bins (g : list nat -> nat) : INR (hsum (map g (tuples (n :: bins)))) = rsum n (fun i => INR (hsum (map (fun idx => g (i :: idx)) (tuples bins)))).
Proof.
  cbn [tuples]. unfold rsum. induction (seq 0 n) as [|i l IH]; [reflexivity|]. cbn [flat_map map fold_right]. rewrite map_app, hsum_app, plus_INR, IH, map_map. reflexivity.
Qed.
Lemma hsum_contingency2 t x y ax ay : table_ok t -> t_rows t <> [] -> consecutive t x ax -> consecutive t y ay -> hsum (contingency t [x; y] [ax; ay]) = length (t_rows t).
Proof.
  intros W NE Cx Cy. apply INR_eq. unfold contingency. cbn [map]. rewrite hsum_tuples. pose proof (N_pos t NE) as HN.
  rewrite (rsum_ext _ _ (fun i => INR (length (t_rows t)) * rsum (snd ay) (fun j => freq t [(x, lvl ax i); (y, lvl ay j)])))%R.
  - rewrite rsum_scal. rewrite sum_xy by assumption. lra.
  - intros i Hi. rewrite hsum_tuples. rewrite <- rsum_scal. apply rsum_ext. intros j Hj. unfold freq. cbn [tuples map hsum fold_right]. rewrite Nat.add_0_r. cbn [combine map fst snd]. unfold lvl. field. lra.
Qed.
Lemma hsum_contingency1 t x ax : table_ok t -> t_rows t <> [] -> consecutive t x ax -> hsum (contingency t [x] [ax]) = length (t_rows t).
Proof.
  intros W NE Cx. apply INR_eq. unfold contingency. cbn [map]. rewrite hsum_tuples. pose proof (N_pos t NE) as HN.
  rewrite (rsum_ext _ _ (fun i => INR (length (t_rows t)) * freq t [(x, lvl ax i)]))%R.
  - rewrite rsum_scal. rewrite sum_x by assumption. lra.
  - intros i Hi. unfold freq. cbn [tuples map hsum fold_right]. rewrite Nat.add_0_r. cbn [combine map fst snd]. unfold lvl. field. lra.
Qed.
