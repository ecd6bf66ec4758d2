(** DiscFacts.v -- facts about discretize. *)
From Verif Require Import Py Num BayesNet Data SpecData GraphNet DataUtils.
Open Scope nat_scope.

Lemma linspace_point a b n : linspace a b n = map (point a b n) (seq 0 n).
Proof. unfold linspace, point. apply map_ext. intros i. unfold Qcdiv. ring. Qed.
Lemma point_step lo hi n : 2 <= n -> (lo < hi)%Qc -> (0 < (hi - lo) / nQc (n - 1))%Qc.
Proof.
  intros N L. assert (P : (0 < nQc (n - 1))%Qc) by (apply nQc_pos; lia). unfold Qcdiv.
  assert (I : (0 < / nQc (n - 1))%Qc). { apply Qcnot_le_lt. intros C. assert (E : (nQc (n - 1) * / nQc (n - 1) = 1)%Qc) by (apply Qcmult_inv_r; intros Z; rewrite Z in P; discriminate).
    revert P C E. generalize (/ nQc (n - 1))%Qc. generalize (nQc (n - 1)). intros b a P C E. assert (H : (a * b <= 0 * b)%Qc) by (apply Qcmult_le_compat_r; [exact C|apply Qclt_le_weak; exact P]). rewrite Qcmult_0_l, Qcmult_comm, E in H. exact (H eq_refl). }
  revert I L. generalize (/ nQc (n - 1))%Qc. intros a I L. assert (D : (0 < hi - lo)%Qc) by qclra. revert D. generalize (hi - lo)%Qc. intros d D. rewrite <- (Qcmult_0_l a). apply Qcmult_lt_compat_r; assumption.
Qed.
Lemma point_mono lo hi n i j : 2 <= n -> (lo < hi)%Qc -> i <= j -> (point lo hi n i <= point lo hi n j)%Qc.
Proof. intros N L IJ. unfold point. pose proof (point_step lo hi n N L) as D. pose proof (nQc_le i j IJ) as H. revert D H. generalize ((hi - lo) / nQc (n - 1))%Qc, (nQc i), (nQc j). intros; qcnra. Qed.
Lemma nQc_lt a b : a < b -> (nQc a < nQc b)%Qc.
Proof. intros H. replace b with (a + (b - a)) by lia. rewrite nQc_plus. pose proof (nQc_pos (b - a) ltac:(lia)) as P. revert P. generalize (nQc a), (nQc (b - a)). intros; qclra. Qed.
Lemma point_lt lo hi n i j : 2 <= n -> (lo < hi)%Qc -> i < j -> (point lo hi n i < point lo hi n j)%Qc.
Proof. intros N L IJ. unfold point. pose proof (point_step lo hi n N L) as D. pose proof (nQc_lt i j IJ) as H. revert D H. generalize ((hi - lo) / nQc (n - 1))%Qc, (nQc i), (nQc j). intros; qcnra. Qed.
Lemma point_0 lo hi n : point lo hi n 0 = lo.
Proof. unfold point. rewrite nQc_0. ring. Qed.
Lemma point_last lo hi n : 2 <= n -> point lo hi n (n - 1) = hi.
Proof. intros N. unfold point. rewrite Qcmult_div_r. - ring. - intros Z. pose proof (nQc_pos (n - 1) ltac:(lia)) as P. rewrite Z in P. discriminate. Qed.

Lemma filter_threshold (p : nat -> bool) : forall m s, (forall i j, i <= j -> p j = true -> p i = true) ->
  exists k, k <= m /\ length (filter p (seq s m)) = k /\ (forall i, s <= i < s + k -> p i = true) /\ (forall i, s + k <= i < s + m -> p i = false).
Proof.
  intros m s M. revert s. induction m as [|m IH]; intros s; [exists 0; simpl; split; [lia|]; split; [reflexivity|]; split; intros; lia|].
  cbn [seq filter]. destruct (p s) eqn:E.
  - destruct (IH (S s)) as (k & Lk & Ek & A & B). exists (S k). cbn [length]. split; [lia|]. split; [lia|]. split; intros i Hi; [|apply B; lia]. destruct (Nat.eq_dec i s) as [->|]; [exact E|]. apply A. lia.
  - exists 0. split; [lia|]. assert (F : forall i, s <= i -> p i = false) by (intros i Hi; destruct (p i) eqn:Ei; [rewrite (M s i Hi Ei) in E; discriminate|reflexivity]).
    split; [|split; intros; [lia|apply F; lia]]. assert (Z : forall l, (forall i, In i l -> p i = false) -> filter p l = []) by (induction l as [|x l IHl]; intros H; [reflexivity|]; simpl; rewrite H by (now left); apply IHl; intros; apply H; now right).
    rewrite Z; [reflexivity|]. intros i Hi. apply in_seq in Hi. apply F. lia.
Qed.
Lemma filter_map_length {A B} (p : B -> bool) (f : A -> B) l : length (filter p (map f l)) = length (filter (fun x => p (f x)) l).
Proof. induction l as [|x l IH]; [reflexivity|]. simpl. destruct (p (f x)); simpl; now rewrite IH. Qed.
(** the code of x is the interval that contains it *)
Lemma digitize_interval lo hi n x : 2 <= n -> (lo < hi)%Qc -> (lo <= x)%Qc -> in_interval lo hi n (digitize (linspace lo hi n) x) x.
Proof.
  intros N L X. unfold digitize. rewrite linspace_point, filter_map_length.
  destruct (filter_threshold (fun i => negb (qltb x (point lo hi n i))) n 0) as (k & Lk & Ek & A & B).
  { intros i j IJ. pose proof (point_mono lo hi n i j N L IJ). destruct (qltb_spec x (point lo hi n j)); [discriminate|]. destruct (qltb_spec x (point lo hi n i)); [exfalso; qclra|reflexivity]. }
  cbn [Nat.add] in *. rewrite Ek. assert (K : 1 <= k).
  { destruct k; [|lia]. specialize (B 0 ltac:(lia)). rewrite point_0 in B. destruct (qltb_spec x lo) as [C|]; [exfalso; qclra|discriminate]. }
  split; [lia|]. split.
  - specialize (A (k - 1) ltac:(lia)). destruct (qltb_spec x (point lo hi n (k - 1))); [discriminate|]. qclra.
  - intros Kn. specialize (B k ltac:(lia)). destruct (qltb_spec x (point lo hi n k)); [assumption|discriminate].
Qed.
(** intervals are disjoint and ordered *)
Lemma interval_mono lo hi n k k' x y : 2 <= n -> (lo < hi)%Qc -> in_interval lo hi n k x -> in_interval lo hi n k' y -> (x <= y)%Qc -> k <= k'.
Proof.
  intros N L (K1 & K2 & K3) (J1 & J2 & J3) XY. destruct (Nat.le_gt_cases k k') as [|G]; [assumption|exfalso].
  assert (P : (point lo hi n k' <= point lo hi n (k - 1))%Qc) by (apply point_mono; [exact N|exact L|lia]). specialize (J3 ltac:(lia)). qclra.
Qed.

Lemma qmin_list_ok l : l <> [] -> is_min l (qmin_list l).
Proof.
  destruct l as [|x l]; [congruence|]. intros _. unfold qmin_list.
  assert (G : forall l a, let m := fold_left (fun a b => if qltb b a then b else a) l a in (m = a \/ In m l) /\ (m <= a)%Qc /\ forall y, In y l -> (m <= y)%Qc).
  { clear. induction l as [|y l IH]; intros a; cbn [fold_left]; [split; [now left|]; split; [apply Qcle_refl|intros ? []]|].
    destruct (IH (if qltb y a then y else a)) as (A & B & C). destruct (qltb_spec y a) as [Ha|Ha].
    - split; [destruct A as [->|A]; [right; now left|right; now right]|]. split; [qclra|]. intros z [<-|Hz]; [exact B|auto].
    - split; [destruct A as [->|A]; [now left|right; now right]|]. split; [exact B|]. intros z [<-|Hz]; [qclra|auto]. }
  destruct (G l x) as (A & B & C). split; [destruct A as [->|A]; [now left|now right]|]. intros y [<-|Hy]; auto.
Qed.
Lemma qmax_list_ok l : l <> [] -> is_max l (qmax_list l).
Proof.
  destruct l as [|x l]; [congruence|]. intros _. unfold qmax_list.
  assert (G : forall l a, let m := fold_left (fun a b => if qltb a b then b else a) l a in (m = a \/ In m l) /\ (a <= m)%Qc /\ forall y, In y l -> (y <= m)%Qc).
  { clear. induction l as [|y l IH]; intros a; cbn [fold_left]; [split; [now left|]; split; [apply Qcle_refl|intros ? []]|].
    destruct (IH (if qltb a y then y else a)) as (A & B & C). destruct (qltb_spec a y) as [Ha|Ha].
    - split; [destruct A as [->|A]; [right; now left|right; now right]|]. split; [qclra|]. intros z [<-|Hz]; [exact B|auto].
    - split; [destruct A as [->|A]; [now left|right; now right]|]. split; [exact B|]. intros z [<-|Hz]; [qclra|auto]. }
  destruct (G l x) as (A & B & C). split; [destruct A as [->|A]; [now left|now right]|]. intros y [<-|Hy]; auto.
Qed.
Lemma truncz_nat n : truncz (nQc n) = Z.of_nat n.
Proof. unfold truncz, nQc. replace (this (Q2Qc (inject_Z (Z.of_nat n)))) with (inject_Z (Z.of_nat n)). - cbn [inject_Z Qnum Qden]. apply Z.quot_1_r. - symmetry. change (Qred (Z.of_nat n # 1) = Z.of_nat n # 1). apply Qred_identity. cbn [Qnum Qden]. apply Z.gcd_1_r. Qed.

Lemma mapM_nth {A B} (f : A -> res B) l : (forall x, In x l -> exists y, f x = Ok y) -> exists ys, mapM f l = Ok ys /\ length ys = length l /\ forall i x, nth_error l i = Some x -> exists y, nth_error ys i = Some y /\ f x = Ok y.
Proof.
  induction l as [|x l IH]; intros H; [exists []; split; [reflexivity|]; split; [reflexivity|intros [|i]; discriminate]|].
  destruct (H x (or_introl eq_refl)) as [y Ey]. destruct IH as (ys & E & L & N); [intros; apply H; now right|]. exists (y :: ys). cbn [mapM]. rewrite Ey. cbn [bind]. rewrite E. split; [reflexivity|]. split; [simpl; lia|].
  intros [|i] z Hz; simpl in *; [injection Hz as <-; eauto|auto].
Qed.
(** one column *)
Lemma discretize_col_ok ncols bins mm rows c lohi n : (forall r, In r rows -> length r = ncols) -> c < ncols -> nth_error mm c = Some lohi -> nth_error bins c = Some n ->
  exists out, discretize_col bins mm rows c = Ok out /\ length out = length rows /\ (forall r, In r out -> length r = ncols) /\
  forall r c' x, qcell rows r c' = Some x -> qcell out r c' = Some (if c' =? c then nQc (digitize (linspace (fst lohi) (snd lohi) n) x) else x).
Proof.
  intros W Hc Hm Hb. unfold discretize_col, nget at 1 2. rewrite Hm, Hb. cbn [bind].
  destruct (mapM_nth (fun r => do x <- nget r c ;; Ok (upd_nth c (nQc (digitize (linspace (fst lohi) (snd lohi) n) x)) r)) rows) as (out & E & L & H).
  { intros r Hr. destruct (nth_error r c) as [x|] eqn:Ex; [|apply nth_error_None in Ex; rewrite (W r Hr) in Ex; lia]. unfold nget. rewrite Ex. cbn [bind]. eauto. }
  rewrite E. exists out. split; [reflexivity|]. split; [exact L|]. split.
  - intros o Ho. apply In_nth_error in Ho as [i Ei]. destruct (nth_error rows i) as [r|] eqn:Er; [|apply nth_error_None in Er; assert (i < length out) by (apply nth_error_Some; congruence); lia].
    destruct (H i r Er) as (y & Ey & Fy). rewrite Ei in Ey. injection Ey as <-. unfold nget in Fy. destruct (nth_error r c); [|discriminate]. cbn [bind] in Fy. injection Fy as <-. rewrite upd_nth_length. apply W. eapply nth_error_In; exact Er.
  - intros r c' x Hx. unfold qcell in *. destruct (nth_error rows r) as [row|] eqn:Er; [|discriminate]. destruct (H r row Er) as (y & -> & Fy).
    unfold nget in Fy. destruct (nth_error row c) as [z|] eqn:Ez; [|discriminate]. cbn [bind] in Fy. injection Fy as <-. rewrite nth_error_upd_nth.
    assert (Lc : c < length row) by (apply nth_error_Some; congruence). rewrite Nat.eqb_sym. destruct (Nat.eqb_spec c' c) as [->|]; [|exact Hx]. apply Nat.ltb_lt in Lc. rewrite Lc. rewrite Ez in Hx. injection Hx as ->. reflexivity.
Qed.
(** the whole table *)
Lemma discretize_cols_ok ncols bins mm : forall cols rows, NoDup cols -> (forall r, In r rows -> length r = ncols) -> (forall c, In c cols -> c < ncols) -> length mm = ncols -> (forall c, In c cols -> c < length bins) ->
  exists out, foldM (discretize_col bins mm) cols rows = Ok out /\ length out = length rows /\ (forall r, In r out -> length r = ncols) /\
  forall r c x, qcell rows r c = Some x -> qcell out r c = Some (if existsb (Nat.eqb c) cols then nQc (digitize (linspace (fst (nth c mm (0%Qc, 0%Qc))) (snd (nth c mm (0%Qc, 0%Qc))) (nth c bins 0)) x) else x).
Proof.
  induction cols as [|c cols IH]; intros rows ND W Hc Lm Hb; [exists rows; split; [reflexivity|]; split; [reflexivity|]; split; [exact W|]; auto|].
  inversion ND as [|? ? Nc Nd]; subst. assert (Cn : c < length mm) by (apply Hc; now left). assert (Cb : c < length bins) by (apply Hb; now left).
  destruct (discretize_col_ok (length mm) bins mm rows c (nth c mm (0%Qc, 0%Qc)) (nth c bins 0) W Cn) as (out1 & E1 & L1 & W1 & H1); [apply nth_error_nth'; lia|apply nth_error_nth'; lia|].
  destruct (IH out1 Nd W1) as (out & E & L & Wo & H); [intros; apply Hc; now right|reflexivity|intros; apply Hb; now right|].
  exists out. cbn [foldM]. rewrite E1. cbn [bind]. split; [exact E|]. split; [lia|]. split; [exact Wo|].
  intros r c' x Hx. specialize (H1 r c' x Hx). cbn [existsb]. destruct (Nat.eqb_spec c' c) as [->|D].
  - apply H in H1. rewrite H1. assert (F : existsb (Nat.eqb c) cols = false). { destruct (existsb (Nat.eqb c) cols) eqn:Q; [|reflexivity]. apply existsb_exists in Q as (y & Hy & Ey). apply Nat.eqb_eq in Ey as <-. contradiction. } rewrite F. reflexivity.
  - apply H in H1. exact H1.
Qed.
