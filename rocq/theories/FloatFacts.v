(** FloatFacts.v -- the floating point run of variable elimination follows the exact run
    step by step, with a controlled relative error. *)
From Verif Require Import Py Num BayesNet Factor SpecFactor Rounding Factorization SpecInference Float SpecFloat.
Open Scope nat_scope.

(** ** powers *)
Lemma pw_S q k : (Qcpower q (S k) = q * Qcpower q k)%Qc.
Proof. reflexivity. Qed.
Lemma pw_add q a b : (Qcpower q (a + b) = Qcpower q a * Qcpower q b)%Qc.
Proof. induction a as [|a IH]; simpl; [ring|]. rewrite IH. ring. Qed.
Lemma one_q : (this 1%Qc == 1)%Q.
Proof. reflexivity. Qed.

(** ** two runs: both succeed with related results or both raise the same error *)
Definition rres {A B} (R : A -> B -> Prop) (m : res A) (m' : res B) : Prop :=
  match m, m' with Ok x, Ok y => R x y | Raise e, Raise e' => e = e' | _, _ => False end.
Lemma rres_bind {A B C D} (R : A -> B -> Prop) (Q : C -> D -> Prop) m m' k k' :
  rres R m m' -> (forall x y, R x y -> rres Q (k x) (k' y)) -> rres Q (bind m k) (bind m' k').
Proof. destruct m, m'; simpl; auto; try tauto. Qed.
Lemma rres_same {A C D} (Q : C -> D -> Prop) (m : res A) k k' :
  (forall x, m = Ok x -> rres Q (k x) (k' x)) -> rres Q (bind m k) (bind m k').
Proof. destruct m; simpl; auto. Qed.

Lemma F2_nth {A B} (R : A -> B -> Prop) l l' : Forall2 R l l' -> forall i,
  match nth_error l i, nth_error l' i with Some x, Some y => R x y | None, None => True | _, _ => False end.
Proof. induction 1 as [|x y l l' H HF IH]; intros [|i]; simpl; auto. apply IH. Qed.
Lemma F2_nget {A B} (R : A -> B -> Prop) l l' i : Forall2 R l l' -> rres R (nget l i) (nget l' i).
Proof. intros H. pose proof (F2_nth R l l' H i) as N. unfold nget. destruct (nth_error l i), (nth_error l' i); simpl; tauto. Qed.
Lemma F2_len {A B} (R : A -> B -> Prop) l l' : Forall2 R l l' -> length l' = length l.
Proof. induction 1; simpl; congruence. Qed.
Lemma F2_pyget {A B} (R : A -> B -> Prop) l l' i : Forall2 R l l' -> rres R (pyget l i) (pyget l' i).
Proof.
  intros H. unfold pyget. rewrite (F2_len R l l' H). cbv zeta.
  match goal with |- context [(?a <? 0)%Z || ?b] => destruct ((a <? 0)%Z || b) | |- context [if (?a <? 0)%Z then Raise _ else _] => destruct (a <? 0)%Z end; [reflexivity|];
  match goal with |- context [nth_error l ?i] => pose proof (F2_nth R l l' H i) as N; destruct (nth_error l i), (nth_error l' i); simpl; tauto end.
Qed.
Lemma F2_skipn {A B} (R : A -> B -> Prop) n : forall l l', Forall2 R l l' -> Forall2 R (skipn n l) (skipn n l').
Proof. induction n as [|n IH]; intros l l' H; [exact H|]. destruct H; simpl; auto. Qed.
Lemma F2_firstn {A B} (R : A -> B -> Prop) n : forall l l', Forall2 R l l' -> Forall2 R (firstn n l) (firstn n l').
Proof. induction n as [|n IH]; intros l l' H; simpl; [constructor|]. destruct H; simpl; auto. Qed.

Lemma unit_mult a b : (0 < a /\ a <= 1 -> 0 < b /\ b <= 1 -> 0 < a * b /\ a * b <= 1)%Qc.
Proof. pose proof one_q. intros. split; qcnra. Qed.
Lemma one_mult a b : (1 <= a -> 1 <= b -> 1 <= a * b)%Qc.
Proof. pose proof one_q. intros. qcnra. Qed.

Lemma shrink a b : (0 <= a -> b <= 1 -> a * b <= a)%Qc.
Proof. pose proof one_q. intros. qcnra. Qed.
Lemma grow a b : (0 <= a -> 1 <= b -> a <= a * b)%Qc.
Proof. pose proof one_q. intros. qcnra. Qed.

Lemma out_loop_sim (R : Qc -> Qc -> Prop) cell cell' c c' p s n0 : (forall k, rres R (cell c k s n0) (cell' c' k s n0)) ->
  forall n k, rres (Forall2 R) (out_loop cell c p s n0 n k) (out_loop cell' c' p s n0 n k).
Proof.
  intros H. induction n as [|n IH]; intros k; cbn [out_loop]; [constructor|].
  eapply rres_bind; [apply H|]. intros x y Hx. eapply rres_bind; [apply IH|]. intros r r' Hr. simpl. now constructor.
Qed.

Lemma lower_cards_same f f' s : f_stride f' = f_stride f -> f_card f' = f_card f -> f_scope f' = f_scope f -> lower_cards f' s = lower_cards f s.
Proof. intros E1 E2 E3. unfold lower_cards. now rewrite E1, E2, E3. Qed.

Lemma reduce_loop_sim (R : Qc -> Qc -> Prop) card stride c c' : Forall2 R c c' -> forall fuel idx n,
  rres (Forall2 R) (reduce_loop fuel c card stride idx n) (reduce_loop fuel c' card stride idx n).
Proof.
  intros H. induction fuel as [|fuel IH]; intros idx n; cbn [reduce_loop]; destruct (n =? 0); try constructor.
  assert (HS : Forall2 R (slice c idx (idx + stride)) (slice c' idx (idx + stride))) by (unfold slice; now apply F2_firstn, F2_skipn).
  rewrite (F2_len _ _ _ HS). destruct (_ <? _); [reflexivity|].
  eapply rres_bind; [apply IH|]. intros r r' Hr. simpl. now apply Forall2_app.
Qed.

Section Unit.
Variable u : Qc.
Hypothesis Hu : (0 <= u /\ u < 1)%Qc.

Definition dn (k : nat) : Qc := Qcpower (1 - u) k.
Definition up (k : nat) : Qc := Qcpower (1 + u) k.
Lemma dn_S k : dn (S k) = ((1 - u) * dn k)%Qc. Proof. reflexivity. Qed.
Lemma up_S k : up (S k) = ((1 + u) * up k)%Qc. Proof. reflexivity. Qed.
Lemma dn_0 : dn 0 = 1%Qc. Proof. reflexivity. Qed.
Lemma up_0 : up 0 = 1%Qc. Proof. reflexivity. Qed.
Lemma dn_add a b : dn (a + b) = (dn a * dn b)%Qc. Proof. apply pw_add. Qed.
Lemma up_add a b : up (a + b) = (up a * up b)%Qc. Proof. apply pw_add. Qed.
Lemma dn_bounds k : (0 < dn k /\ dn k <= 1)%Qc.
Proof.
  pose proof one_q as O. induction k as [|k IH]; [rewrite dn_0; split; [reflexivity|apply Qcle_refl]|].
  rewrite dn_S. generalize dependent (dn k). intros p Hp. split; qcnra.
Qed.
Lemma up_bounds k : (1 <= up k)%Qc.
Proof.
  pose proof one_q as O. induction k as [|k IH]; [rewrite up_0; apply Qcle_refl|].
  rewrite up_S. generalize dependent (up k). intros p Hp. qcnra.
Qed.
Lemma dn_mono a b : a <= b -> (dn b <= dn a)%Qc.
Proof.
  intros H. replace b with (a + (b - a)) by lia. rewrite dn_add.
  pose proof (dn_bounds a). pose proof (dn_bounds (b - a)). generalize dependent (dn a). generalize dependent (dn (b - a)).
  intros p Hp q Hq. pose proof one_q. qcnra.
Qed.
Lemma up_mono a b : a <= b -> (up a <= up b)%Qc.
Proof.
  intros H. replace b with (a + (b - a)) by lia. rewrite up_add.
  pose proof (up_bounds a). pose proof (up_bounds (b - a)). generalize dependent (up a). generalize dependent (up (b - a)).
  intros p Hp q Hq. pose proof one_q. qcnra.
Qed.
(** Bernoulli and its counterpart *)
Lemma dn_bernoulli k : (1 - nQc k * u <= dn k)%Qc.
Proof.
  pose proof one_q as O. induction k as [|k IH]; [rewrite dn_0, nQc_0; qclra|].
  rewrite dn_S, nQc_S. pose proof (nQc_nonneg k). generalize dependent (dn k). generalize dependent (nQc k). intros n Hn p Hp. qcnra.
Qed.
Lemma up_bernoulli k : (nQc 2 * nQc k * u <= 1 -> up k <= 1 + nQc 2 * nQc k * u)%Qc.
Proof.
  pose proof one_q as O. assert (T : (this (nQc 2) == 2)%Q) by reflexivity.
  assert (G : (up k * (1 - nQc k * u) <= 1)%Qc).
  { induction k as [|k IH]; [rewrite up_0, nQc_0; qclra|].
    rewrite up_S, nQc_S. pose proof (nQc_nonneg k). pose proof (up_bounds k). generalize dependent (up k). generalize dependent (nQc k).
    intros n Hn p Hp H1.
    assert (E : ((1 + u) * p * (1 - (1 + n) * u) = p * (1 - n * u) - p * (u * u * (1 + n)))%Qc) by ring.
    rewrite E. assert (0 <= p * (u * u * (1 + n)))%Qc; [|qclra].
    apply Qcmult_nonneg; [qclra|]. apply Qcmult_nonneg; [apply Qcmult_nonneg; qclra|qclra]. }
  intros H. pose proof (nQc_nonneg k) as Hn. pose proof (up_bounds k) as Hp. generalize dependent (up k). generalize dependent (nQc k).
  intros n H Hn p G Hp. assert (0 <= n * u)%Qc as Hx by (apply Qcmult_nonneg; qclra).
  replace (nQc 2 * n * u)%Qc with (nQc 2 * (n * u))%Qc in * by ring. generalize dependent (n * u)%Qc. intros x G H Hx.
  (* p (1-x) <= 1, 2x <= 1 -> p <= 1 + 2x *)
  destruct (Qclt_le_dec (1 + nQc 2 * x) p) as [C|C]; [|assumption]. exfalso. qcnra.
Qed.

(** ** exact value [x], computed value [y] *)
Definition near (k : nat) (L M x y : Qc) : Prop :=
  (x = 0%Qc \/ (L <= x)%Qc) /\ (x <= M)%Qc /\ (x * dn k <= y /\ y <= x * up k)%Qc.

Lemma near_nonneg k L M x y : (0 < L)%Qc -> near k L M x y -> (0 <= x)%Qc.
Proof. intros HL ([->|H] & _); [apply Qcle_refl|qclra]. Qed.

Lemma near_mono k L M k' L' M' x y : (0 < L')%Qc -> k <= k' -> (L' <= L)%Qc -> (M <= M')%Qc -> near k L M x y -> near k' L' M' x y.
Proof.
  intros P Hk HL HM N. assert (X : (0 <= x)%Qc) by (apply (near_nonneg k L M x y); [qclra|assumption]).
  destruct N as (H1 & H2 & H3 & H4). split; [destruct H1; [now left|right; qclra]|]. split; [qclra|].
  pose proof (dn_mono k k' Hk). pose proof (up_mono k k' Hk). split.
  - apply Qcle_trans with (x * dn k)%Qc; [|assumption]. rewrite !(Qcmult_comm x). now apply Qcmult_le_compat_r.
  - apply Qcle_trans with (x * up k)%Qc; [assumption|]. rewrite !(Qcmult_comm x). now apply Qcmult_le_compat_r.
Qed.

Lemma le_mult (a b c d : Qc) : (0 <= a -> a <= b -> 0 <= c -> c <= d -> a * c <= b * d)%Qc.
Proof.
  intros. apply Qcle_trans with (b * c)%Qc; [now apply Qcmult_le_compat_r|].
  rewrite !(Qcmult_comm b). apply Qcmult_le_compat_r; qclra.
Qed.

Lemma near_mult k1 L1 M1 x1 y1 k2 L2 M2 x2 y2 : (0 < L1)%Qc -> (0 < L2)%Qc ->
  near k1 L1 M1 x1 y1 -> near k2 L2 M2 x2 y2 -> near (k1 + k2) (L1 * L2) (M1 * M2) (x1 * x2) (y1 * y2).
Proof.
  intros P1 P2 N1 N2. pose proof (near_nonneg _ _ _ _ _ P1 N1) as X1. pose proof (near_nonneg _ _ _ _ _ P2 N2) as X2.
  destruct N1 as (A1 & B1 & C1 & D1), N2 as (A2 & B2 & C2 & D2).
  pose proof (dn_bounds k1) as Q1. pose proof (dn_bounds k2) as Q2. pose proof (up_bounds k1) as R1. pose proof (up_bounds k2) as R2.
  split; [|split; [now apply le_mult|split]].
  - destruct A1 as [->|A1]; [left; ring|]. destruct A2 as [->|A2]; [left; ring|]. right. apply le_mult; qclra.
  - rewrite dn_add. replace (x1 * x2 * (dn k1 * dn k2))%Qc with ((x1 * dn k1) * (x2 * dn k2))%Qc by ring.
    apply le_mult; try assumption; apply Qcmult_nonneg; try assumption; qclra.
  - rewrite up_add. replace (x1 * x2 * (up k1 * up k2))%Qc with ((x1 * up k1) * (x2 * up k2))%Qc by ring.
    apply le_mult; try assumption.
    + apply Qcle_trans with (x1 * dn k1)%Qc; [apply Qcmult_nonneg; [assumption|qclra]|assumption].
    + apply Qcle_trans with (x2 * dn k2)%Qc; [apply Qcmult_nonneg; [assumption|qclra]|assumption].
Qed.

Lemma near_plus k L M1 M2 x1 y1 x2 y2 : (0 < L)%Qc -> near k L M1 x1 y1 -> near k L M2 x2 y2 -> near k L (M1 + M2) (x1 + x2) (y1 + y2).
Proof.
  intros P N1 N2. pose proof (near_nonneg _ _ _ _ _ P N1) as X1. pose proof (near_nonneg _ _ _ _ _ P N2) as X2.
  destruct N1 as (A1 & B1 & C1 & D1), N2 as (A2 & B2 & C2 & D2). split; [|split; [qclra|]].
  - destruct A1 as [->|A1]; [rewrite Qcplus_0_l; exact A2|]. right. qclra.
  - rewrite !Qcmult_plus_distr_l. split; qclra.
Qed.

(** [rnd] is accurate wherever a computation with parameters up to k, L, M can get *)
Definition safe (rnd : Qc -> Qc) (k : nat) (L M : Qc) : Prop := accurate rnd u (L * dn k) (M * up k).

Lemma safe_mono rnd k L M k' L' M' : (0 < L)%Qc -> (0 <= M')%Qc -> k' <= k -> (L <= L')%Qc -> (M' <= M)%Qc -> safe rnd k L M -> safe rnd k' L' M'.
Proof.
  intros P PM Hk HL HM S z [Z|[Z1 Z2]]; apply S; [now left|right].
  pose proof (dn_mono k' k Hk). pose proof (up_mono k' k Hk). pose proof (dn_bounds k). pose proof (up_bounds k').
  split.
  - apply Qcle_trans with (L' * dn k')%Qc; [|assumption]. apply le_mult; qclra.
  - apply Qcle_trans with (M' * up k')%Qc; [assumption|]. pose proof one_q. apply le_mult; qclra.
Qed.

Lemma near_round rnd k L M x z : (0 < L)%Qc -> safe rnd k L M -> near k L M x z -> near (S k) L M x (rnd z).
Proof.
  intros P S N. pose proof (near_nonneg _ _ _ _ _ P N) as X. destruct N as (A & B & C & D).
  pose proof (dn_bounds k) as Q. pose proof (up_bounds k) as R. pose proof one_q as O.
  assert (Z : (z * (1 - u) <= rnd z /\ rnd z <= z * (1 + u))%Qc).
  { apply S. destruct A as [->|A].
    - left. rewrite Qcmult_0_l in C, D. now apply Qcle_antisym.
    - right. split.
      + apply Qcle_trans with (x * dn k)%Qc; [|assumption]. apply Qcmult_le_compat_r; [assumption|qclra].
      + apply Qcle_trans with (x * up k)%Qc; [assumption|]. apply Qcmult_le_compat_r; [assumption|qclra]. }
  split; [assumption|]. split; [assumption|]. rewrite dn_S, up_S. destruct Z as [Z1 Z2]. split.
  - apply Qcle_trans with (z * (1 - u))%Qc; [|assumption]. replace (x * ((1 - u) * dn k))%Qc with (x * dn k * (1 - u))%Qc by ring.
    apply Qcmult_le_compat_r; [assumption|qclra].
  - apply Qcle_trans with (z * (1 + u))%Qc; [assumption|]. replace (x * ((1 + u) * up k))%Qc with (x * up k * (1 + u))%Qc by ring.
    apply Qcmult_le_compat_r; [assumption|qclra].
Qed.

(** ** factors *)
Record frel (k : nat) (L M : Qc) (f f' : factor) : Prop := {
  fr_L : (0 < L /\ L <= 1)%Qc; fr_M : (1 <= M)%Qc;
  fr_bn : f_bn f' = f_bn f; fr_var : f_var f' = f_var f; fr_scope : f_scope f' = f_scope f;
  fr_card : f_card f' = f_card f; fr_stride : f_stride f' = f_stride f;
  fr_cpt : Forall2 (near k L M) (f_cpt f) (f_cpt f') }.

Lemma mul_loop_sim rnd k1 L1 M1 k2 L2 M2 sc1 sc2 card1 card2 st1 st2 c1 c2 c1' c2' rvs :
  (0 < L1)%Qc -> (0 < L2)%Qc -> safe rnd (k1 + k2) (L1 * L2) (M1 * M2) ->
  Forall2 (near k1 L1 M1) c1 c1' -> Forall2 (near k2 L2 M2) c2 c2' -> forall n asg j k,
  rres (Forall2 (near (S (k1 + k2)) (L1 * L2) (M1 * M2)))
    (mul_loop sc1 sc2 card1 card2 st1 st2 c1 c2 rvs n asg j k)
    (fl_mul_loop rnd sc1 sc2 card1 card2 st1 st2 c1' c2' rvs n asg j k).
Proof.
  intros P1 P2 S F1 F2. assert (P : (0 < L1 * L2)%Qc) by qcnra.
  induction n as [|n IH]; intros asg j k; cbn [mul_loop fl_mul_loop]; [constructor|].
  apply (rres_bind (near k1 L1 M1)); [now apply F2_pyget|]. intros x y N1.
  apply (rres_bind (near k2 L2 M2)); [now apply F2_pyget|]. intros x' y' N2.
  apply rres_same. intros [[asg' j'] k'] _.
  apply (rres_bind (Forall2 (near (Datatypes.S (k1 + k2)) (L1 * L2) (M1 * M2)))); [apply IH|]. intros r r' H. simpl. constructor; [|assumption].
  apply near_round; [assumption|assumption|]. now apply near_mult.
Qed.

Lemma mul_sim rnd o k1 L1 M1 k2 L2 M2 f g f' g' : frel k1 L1 M1 f f' -> frel k2 L2 M2 g g' -> safe rnd (k1 + k2) (L1 * L2) (M1 * M2) ->
  rres (frel (S (k1 + k2)) (L1 * L2) (M1 * M2)) (factor_mul o f g) (fl_mul rnd o f' g').
Proof.
  intros F G S. pose proof (unit_mult L1 L2 (fr_L _ _ _ _ _ F) (fr_L _ _ _ _ _ G)) as PL.
  pose proof (one_mult M1 M2 (fr_M _ _ _ _ _ F) (fr_M _ _ _ _ _ G)) as PM.
  destruct F as [fL fM fb fv fs fc ft fF], G as [gL gM gb gv gs gc gt gF].
  unfold factor_mul, multiply_factor, fl_mul, self_is_phi1. rewrite fs, gs. destruct (_ <=? _).
  - rewrite fs, gs, fc, gc, ft, gt, fb, fv.
    pose proof (mul_loop_sim rnd k1 L1 M1 k2 L2 M2 (f_scope f) (f_scope g) (dupdate (f_card f) (f_card g)) (f_card g) (f_stride f) (f_stride g)
      _ _ _ _ (sorted_by (stride_key (f_stride f)) (ask (sub o 1) (dkeys (f_stride f))) ++ ask (sub o 2) (set_diff (f_scope g) (f_scope f)))
      (proj1 fL) (proj1 gL) S fF gF (nprod (map snd (dupdate (f_card f) (f_card g))))
      (dict_of (map (fun rv => (rv, 0)) (set_union (f_scope f) (f_scope g)))) 0%Z 0%Z) as H.
    destruct (mul_loop _ _ _ _ _ _ _ _ _ _ _ _ _), (fl_mul_loop _ _ _ _ _ _ _ _ _ _ _ _ _ _); cbn [bind rres] in *; try tauto.
    destruct (run_strides _ _ _ _); cbn [bind rres fst]; [|reflexivity]. now constructor.
  - rewrite fs, gs, fc, gc, ft, gt, fb, fv.
    assert (S' : safe rnd (k2 + k1) (L2 * L1) (M2 * M1)) by now rewrite (Nat.add_comm k2), (Qcmult_comm L2), (Qcmult_comm M2).
    pose proof (mul_loop_sim rnd k2 L2 M2 k1 L1 M1 (f_scope g) (f_scope f) (dupdate (f_card g) (f_card f)) (f_card f) (f_stride g) (f_stride f)
      _ _ _ _ (sorted_by (stride_key (f_stride g)) (ask (sub o 1) (dkeys (f_stride g))) ++ ask (sub o 2) (set_diff (f_scope f) (f_scope g)))
      (proj1 gL) (proj1 fL) S' gF fF (nprod (map snd (dupdate (f_card g) (f_card f))))
      (dict_of (map (fun rv => (rv, 0)) (set_union (f_scope g) (f_scope f)))) 0%Z 0%Z) as H.
    rewrite (Nat.add_comm k2), (Qcmult_comm L2), (Qcmult_comm M2) in H.
    destruct (mul_loop _ _ _ _ _ _ _ _ _ _ _ _ _), (fl_mul_loop _ _ _ _ _ _ _ _ _ _ _ _ _ _); cbn [bind rres] in *; try tauto.
    destruct (run_strides _ _ _ _); cbn [bind rres fst]; [|reflexivity]. now constructor.
Qed.

Lemma sum_cells_sim rnd k L M c c' : (0 < L)%Qc -> (1 <= M)%Qc -> Forall2 (near k L M) c c' -> forall n, safe rnd (k + n) L (M * nQc n) ->
  forall i s, rres (near (k + n) L (M * nQc n)) (sum_cells c i s n) (fl_sum_cells rnd c' i s n).
Proof.
  intros P PM F n S i s. unfold sum_cells, fl_sum_cells.
  assert (G : forall m st j acc acc', st + m = n -> near (k + st) L (M * nQc st) acc acc' ->
     rres (near (k + n) L (M * nQc n))
       (foldM (fun a q => do x <- nget c (i + s * q) ;; Ok (a + x)%Qc) (seq j m) acc)
       (foldM (fun a q => do x <- nget c' (i + s * q) ;; Ok (rnd (a + x)%Qc)) (seq j m) acc')).
  { induction m as [|m IH]; intros st j acc acc' Hs N; cbn [seq foldM].
    - simpl. replace n with st by lia. exact N.
    - pose proof (F2_nget _ _ _ (i + s * j) F) as H.
      destruct (nget c (i + s * j)), (nget c' (i + s * j)); cbn [rres bind] in *; try tauto.
      apply (IH (Datatypes.S st)); [lia|].
      replace (k + Datatypes.S st) with (Datatypes.S (k + st)) by lia.
      assert (E : (M * nQc (Datatypes.S st) = M * nQc st + M)%Qc) by (rewrite nQc_S; ring).
      apply near_round; [assumption| |].
      + assert (Hle : (nQc (Datatypes.S st) <= nQc n)%Qc) by (apply nQc_le; lia). pose proof (nQc_nonneg (Datatypes.S st)). pose proof one_q.
        eapply safe_mono; [| | | | |exact S]; [assumption| |lia|apply Qcle_refl|].
        * apply Qcmult_nonneg; [qclra|assumption].
        * rewrite !(Qcmult_comm M). apply Qcmult_le_compat_r; [assumption|qclra].
      + rewrite E. apply near_plus; [assumption|assumption|].
        apply (near_mono k L M); [assumption|lia|apply Qcle_refl|apply Qcle_refl|assumption]. }
  apply (G n 0 0); [lia|]. rewrite nQc_0, Qcmult_0_r. split; [now left|]. split; [apply Qcle_refl|]. rewrite !Qcmult_0_l. split; apply Qcle_refl.
Qed.



Lemma sumout_sim rnd o k L M f f' v n : frel k L M f f' -> (forall c, dget (f_card f) v = Some c -> c = n) -> safe rnd (k + n) L (M * nQc n) ->
  rres (frel (k + n) L (M * nQc n)) (sumout_var o f v) (fl_sumout rnd o f' v).
Proof.
  intros F Hn S. unfold sumout_var, fl_sumout, out_var. destruct F as [fL fM fb fv fs fc ft fF].
  rewrite fc, ft. apply rres_same. intros c Hc. unfold getitem in Hc. destruct (dget (f_card f) v) as [c0|] eqn:Ec; [|discriminate].
  inversion Hc; subst c0. assert (c = n) by now apply Hn. subst n. destruct (Nat.eqb_spec c 0) as [Z|Z]; [reflexivity|].
  rewrite (F2_len _ _ _ fF). apply rres_same. intros s _. rewrite (lower_cards_same f f' s ft fc fs). apply rres_same. intros p _.
  eapply rres_bind.
  { apply (out_loop_sim (near (k + c) L (M * nQc c))). intros i. apply sum_cells_sim; [apply fL|assumption|assumption|assumption]. }
  intros r r' Hr. apply rres_same. intros d _. rewrite fs. apply rres_same. intros sc _. simpl. rewrite fb, fv. constructor; auto.
  apply one_mult; [assumption|]. change 1%Qc with (nQc 1). apply nQc_le. lia.
Qed.


Lemma reduce_sim o k L M f f' v x : frel k L M f f' -> rres (frel k L M) (reduce_factor o f v x) (reduce_factor o f' v x).
Proof.
  intros F. unfold reduce_factor. destruct F as [fL fM fb fv fs fc ft fF].
  rewrite fc, ft, fb, fv, fs, (F2_len _ _ _ fF). apply rres_same. intros c _. destruct (c =? 0); [reflexivity|].
  apply rres_same. intros d _. apply rres_same. intros i _. apply rres_same. intros s _.
  eapply rres_bind; [apply (reduce_loop_sim _ c s _ _ fF)|]. intros r r' Hr. apply rres_same. intros dd _. apply rres_same. intros sc _.
  simpl. now constructor.
Qed.

(** ** lists of factors: [B] bounds the operations, [L] and [M] the sizes *)
Inductive budget : nat -> Qc -> Qc -> list factor -> list factor -> Prop :=
| bud_nil : budget 0 1 1 [] []
| bud_cons k L M f f' B L' M' fs fs' : frel k L M f f' -> budget B L' M' fs fs' -> budget (S k + B) (L * L') (M * M') (f :: fs) (f' :: fs').

Lemma budget_bounds B L M fs fs' : budget B L M fs fs' -> (0 < L /\ L <= 1 /\ 1 <= M)%Qc.
Proof.
  induction 1 as [|k L M f f' B L' M' fs fs' F H IH]; [pose proof one_q; repeat split; qclra|].
  destruct F as [fL fM]. destruct (unit_mult L L' fL) as [A C]; [tauto|]. split; [assumption|]. split; [assumption|]. apply one_mult; tauto.
Qed.
Lemma budget_app B1 L1 M1 fs fs' B2 L2 M2 gs gs' : budget B1 L1 M1 fs fs' -> budget B2 L2 M2 gs gs' ->
  budget (B1 + B2) (L1 * L2) (M1 * M2) (fs ++ gs) (fs' ++ gs').
Proof.
  induction 1 as [|k L M f f' B L' M' fs fs' F H IH]; intros G; simpl.
  - now rewrite !Qcmult_1_l.
  - rewrite <- Nat.add_assoc, <- !Qcmult_assoc. apply (bud_cons k L M f f' (B + B2) (L' * L2) (M' * M2)); [assumption|now apply IH].
Qed.
Lemma budget_filter p B L M fs fs' : (forall f f', f_scope f' = f_scope f -> p f' = p f) -> budget B L M fs fs' ->
  exists B1 L1 M1 B2 L2 M2, B1 + B2 = B /\ (L1 * L2 = L)%Qc /\ (M1 * M2 = M)%Qc /\
    budget B1 L1 M1 (filter p fs) (filter p fs') /\ budget B2 L2 M2 (filter (fun f => negb (p f)) fs) (filter (fun f => negb (p f)) fs').
Proof.
  intros Hp. induction 1 as [|k L M f f' B L' M' fs fs' F H IH].
  - exists 0, 1%Qc, 1%Qc, 0, 1%Qc, 1%Qc. split; [reflexivity|]. split; [ring|]. split; [ring|]. split; constructor.
  - destruct IH as (B1 & L1 & M1 & B2 & L2 & M2 & E1 & E2 & E3 & G1 & G2). cbn [filter].
    rewrite (Hp f f' (fr_scope _ _ _ _ _ F)). subst. destruct (p f); cbn [negb].
    + exists (S k + B1), (L * L1)%Qc, (M * M1)%Qc, B2, L2, M2. split; [lia|]. split; [ring|]. split; [ring|]. split; [now constructor|assumption].
    + exists B1, L1, M1, (S k + B2), (L * L2)%Qc, (M * M2)%Qc. split; [lia|]. split; [ring|]. split; [ring|]. split; [assumption|now constructor].
Qed.

Lemma mul_all_sim rnd B L M fs fs' : budget B L M fs fs' -> forall o k L0 M0 f f', frel k L0 M0 f f' -> safe rnd (k + B) (L0 * L) (M0 * M) ->
  rres (frel (k + B) (L0 * L) (M0 * M)) (mul_all o f fs) (fl_mul_all rnd o f' fs').
Proof.
  induction 1 as [|k1 L1 M1 g g' B L M fs fs' G H IH]; intros o k L0 M0 f f' F S.
  - simpl. now rewrite Nat.add_0_r, !Qcmult_1_r.
  - cbn [mul_all fl_mul_all]. destruct (budget_bounds _ _ _ _ _ H) as (b1 & b2 & b3).
    pose proof (fr_L _ _ _ _ _ F) as fL. pose proof (fr_L _ _ _ _ _ G) as gL. pose proof (fr_M _ _ _ _ _ F) as fM. pose proof (fr_M _ _ _ _ _ G) as gM.
    assert (S1 : safe rnd (k + k1) (L0 * L1) (M0 * M1)).
    { destruct (unit_mult L0 L1 fL gL) as [p1 p2]. pose proof (one_mult M0 M1 fM gM). pose proof one_q.
      eapply safe_mono; [| | | | |exact S]; [|qclra|lia| |].
      - rewrite Qcmult_assoc. now apply unit_mult.
      - rewrite Qcmult_assoc. apply shrink; qclra.
      - rewrite Qcmult_assoc. apply grow; qclra. }
    eapply rres_bind; [now apply (mul_sim rnd (sub o 0) k L0 M0 k1 L1 M1)|]. intros x y Hx.
    replace (k + (Datatypes.S k1 + B)) with (Datatypes.S (k + k1) + B) in * by lia. rewrite !Qcmult_assoc in *. now apply IH.
Qed.

Lemma product_sim rnd o v B L M fs fs' : budget B L M fs fs' -> safe rnd B L M ->
  exists B1 L1 M1 B2 L2 M2, S B1 + B2 = B /\ (L1 * L2 = L)%Qc /\ (M1 * M2 = M)%Qc /\
    rres (frel B1 L1 M1) (product_relevant o v fs) (fl_product_relevant rnd o v fs') /\
    budget B2 L2 M2 (irrelevant_factors v fs) (irrelevant_factors v fs')
  \/ (product_relevant o v fs = Raise IndexError /\ fl_product_relevant rnd o v fs' = Raise IndexError).
Proof.
  intros H S. destruct (budget_filter (fun f => mem v (f_scope f)) B L M fs fs') as (B1 & L1 & M1 & B2 & L2 & M2 & E1 & E2 & E3 & G1 & G2); [now intros f f' ->|assumption|].
  unfold product_relevant, fl_product_relevant. fold (relevant_factors v fs) (relevant_factors v fs') in G1.
  inversion G1 as [e1 e2 e3 e4 e5|k L0 M0 f f' B' L' M' r r' F H' e1 e2 e3 e4 e5].
  - exists 0, 1%Qc, 1%Qc, 0, 1%Qc, 1%Qc. right. auto.
  - destruct (budget_bounds _ _ _ _ _ G2) as (b1 & b2 & b3). destruct (budget_bounds _ _ _ _ _ G1) as (c1 & c2 & c3).
    exists (k + B'), L1, M1, B2, L2, M2. left. split; [lia|]. split; [assumption|]. split; [assumption|]. split; [|exact G2].
    rewrite <- e2, <- e3. apply (mul_all_sim rnd _ _ _ _ _ H' o k L0 M0 f f' F).
    rewrite e2, e3. pose proof one_q. eapply safe_mono; [| | | | |exact S]; [|qclra|lia| |]; rewrite <- ?E2, <- ?E3.
    + now apply unit_mult.
    + apply shrink; qclra.
    + apply grow; qclra.
Qed.

Definition zrel (B : nat) (L M : Qc) (z z' : factorization) : Prop :=
  fz_bn z' = fz_bn z /\ budget B L M (fz_phi z) (fz_phi z').

Lemma sum_elim_sim rnd o cd v B L M z z' : zrel B L M z z' -> 0 < cd ->
  (forall f c, product_relevant (sub o 0) v (fz_phi z) = Ok f -> dget (f_card f) v = Some c -> c = cd) ->
  safe rnd (B + cd) L (M * nQc cd) ->
  rres (zrel (B + cd) L (M * nQc cd)) (fz_sum_elim o z v) (fl_sum_elim rnd o z' v).
Proof.
  intros [Zb Z] Pc HC S. unfold fz_sum_elim, fl_sum_elim. destruct (budget_bounds _ _ _ _ _ Z) as (b1 & b2 & b3).
  assert (PC : (1 <= nQc cd)%Qc) by (change 1%Qc with (nQc 1); apply nQc_le; lia). pose proof one_q as O.
  assert (S0 : safe rnd B L M).
  { eapply safe_mono; [| | | | |exact S]; [assumption|qclra|lia|apply Qcle_refl|]. apply grow; qclra. }
  destruct (product_sim rnd (sub o 0) v B L M _ _ Z S0) as (B1 & L1 & M1 & B2 & L2 & M2 & [(E1 & E2 & E3 & G1 & G2)|[R1 R2]]).
  2:{ rewrite R1, R2. reflexivity. }
  destruct (product_relevant (sub o 0) v (fz_phi z)) as [f|e] eqn:Ef; destruct (fl_product_relevant rnd (sub o 0) v (fz_phi z')) as [f'|e'] eqn:Ef'; cbn [rres bind] in *; try tauto.
  destruct (budget_bounds _ _ _ _ _ G2) as (c1 & c2 & c3).
  pose proof (fr_L _ _ _ _ _ G1) as fL. pose proof (fr_M _ _ _ _ _ G1) as fM.
  eapply rres_bind.
  { apply (sumout_sim rnd (sub o 1) B1 L1 M1 f f' v cd G1); [intros c; now apply HC|].
    eapply safe_mono; [| | | | |exact S]; [assumption| |lia| |].
    - apply Qcmult_nonneg; qclra.
    - rewrite <- E2. apply shrink; qclra.
    - rewrite <- E3. rewrite <- (Qcmult_assoc M1), (Qcmult_comm M2), Qcmult_assoc.
      assert (1 <= M1 * nQc cd)%Qc by now apply one_mult. apply grow; qclra. }
  intros g g' Hg. simpl. split; [assumption|]. cbn [fz_phi].
  assert (GG : budget (B2 + (Datatypes.S (B1 + cd) + 0)) (L2 * (L1 * 1)) (M2 * (M1 * nQc cd * 1)) (irrelevant_factors v (fz_phi z) ++ [g]) (irrelevant_factors v (fz_phi z') ++ [g'])).
  { apply budget_app; [assumption|]. constructor; [assumption|constructor]. }
  replace (B2 + (Datatypes.S (B1 + cd) + 0)) with (B + cd) in GG by lia.
  replace (L2 * (L1 * 1))%Qc with L in GG by (rewrite <- E2; ring).
  replace (M2 * (M1 * nQc cd * 1))%Qc with (M * nQc cd)%Qc in GG by (rewrite <- E3; ring). exact GG.
Qed.
End Unit.
