(** LawFacts.v -- finite probability: averages over lists of independent equiprobable cases. *)
From Verif Require Import Py Num BayesNet Factor SpecFactor SpecInference SpecLaw SumOver SampleLaws.
Open Scope nat_scope.

Lemma lists_of_length {A} (l : list A) n : length (lists_of l n) = length l ^ n.
Proof.
  induction n as [|n IH]; [reflexivity|]. cbn [lists_of Nat.pow]. rewrite <- IH. generalize (lists_of l n). clear. intros m.
  induction l as [|x l IH]; [reflexivity|]. cbn [flat_map length]. rewrite app_length, map_length, IH. lia.
Qed.
Lemma lists_of_In {A} (l : list A) n c : In c (lists_of l n) -> length c = n /\ incl c l.
Proof.
  revert c. induction n as [|n IH]; intros c H; cbn [lists_of] in H.
  - destruct H as [<-|[]]. split; [reflexivity|intros x []].
  - apply in_flat_map in H as (x & Hx & H). apply in_map_iff in H as (r & <- & Hr). destruct (IH r Hr) as [E I]. split; [simpl; lia|].
    intros y [<-|Hy]; auto.
Qed.
Lemma qsum_flat {A B} (f : B -> Qc) (g : A -> list B) l : qsum (map f (flat_map g l)) = qsum (map (fun x => qsum (map f (g x))) l).
Proof. induction l as [|x l IH]; [reflexivity|]. cbn [flat_map]. rewrite map_app, qsum_app, IH. reflexivity. Qed.
(** a sum over the lists splits into the head and the rest *)
Lemma qsum_lists_S {A} (l : list A) n (f : list A -> Qc) :
  qsum (map f (lists_of l (S n))) = qsum (map (fun x => qsum (map (fun r => f (x :: r)) (lists_of l n))) l).
Proof. cbn [lists_of]. rewrite qsum_flat. apply qsum_map_ext. intros x _. now rewrite map_map. Qed.

(** a product of one factor per position *)
Lemma qsum_lists_prod {A} (l : list A) (d : A) n : forall (g : nat -> A -> Qc),
  qsum (map (fun c => qprod (map (fun i => g i (nth i c d)) (seq 0 n))) (lists_of l n)) =
  qprod (map (fun i => qsum (map (g i) l)) (seq 0 n)).
Proof.
  induction n as [|n IH]; intros g; [cbn; ring|]. rewrite qsum_lists_S.
  rewrite (qsum_map_ext _ (fun x => (g 0%nat x * qprod (map (fun i => qsum (map (g (S i)) l)) (seq 0 n)))%Qc)).
  - rewrite qsum_map_mult_r. cbn [seq map qprod fold_right]. rewrite <- seq_shift, map_map. reflexivity.
  - intros x _. rewrite <- IH, <- qsum_map_mult_l. apply qsum_map_ext. intros r _. cbn [seq map qprod fold_right]. rewrite <- seq_shift, map_map. reflexivity.
Qed.

Section Lists.
Variable A : Type.
Variable l : list A.
Hypothesis ne : l <> [].
Variable d : A.
Let N := nQc (length l).
Lemma N_nz : N <> 0%Qc. Proof. apply nQc_nz. destruct l; [contradiction|simpl; lia]. Qed.
Lemma len_nz n : nQc (length (lists_of l n)) <> 0%Qc.
Proof. apply nQc_nz. rewrite lists_of_length. assert (length l <> 0) by (destruct l; [contradiction|discriminate]). generalize (Nat.pow_nonzero _ n H). lia. Qed.
Lemma len_S n : nQc (length (lists_of l (S n))) = (N * nQc (length (lists_of l n)))%Qc.
Proof. rewrite !lists_of_length. cbn [Nat.pow]. now rewrite nQc_mult. Qed.

Lemma average_const {B} (m : list B) c : m <> [] -> average m (fun _ => c) = c.
Proof.
  intros H. unfold average. rewrite (qsum_map_ext _ (fun _ => c * 1)%Qc) by (intros; ring). rewrite qsum_map_mult_l, qsum_ones. field. apply nQc_nz. destruct m; [contradiction|simpl; lia].
Qed.
Lemma average_plus {B} (m : list B) f g : average m (fun x => f x + g x)%Qc = (average m f + average m g)%Qc.
Proof. unfold average. rewrite qsum_map_plus. unfold Qcdiv. ring. Qed.
Lemma average_scale {B} (m : list B) c f : average m (fun x => c * f x)%Qc = (c * average m f)%Qc.
Proof. unfold average. rewrite qsum_map_mult_l. unfold Qcdiv. ring. Qed.
Lemma average_ext {B} (m : list B) f g : (forall x, In x m -> f x = g x) -> average m f = average m g.
Proof. intros H. unfold average. now rewrite (qsum_map_ext f g). Qed.
Lemma average_le {B} (m : list B) f g : m <> [] -> (forall x, In x m -> f x <= g x)%Qc -> (average m f <= average m g)%Qc.
Proof. intros NE H. unfold average. apply div_le; [apply nQc_pos; destruct m; [contradiction|simpl; lia]|]. now apply qsum_le. Qed.

Lemma average_lists_S n (f : list A -> Qc) : average (lists_of l (S n)) f = average l (fun x => average (lists_of l n) (fun r => f (x :: r))).
Proof.
  unfold average. rewrite qsum_lists_S, len_S, qsum_div. fold N. field. split; [apply len_nz|apply N_nz].
Qed.
Lemma lists_ne n : lists_of l n <> [].
Proof. intros E. apply (len_nz n). now rewrite E. Qed.

(** independence: products *)
Lemma average_prod n : forall (g : nat -> A -> Qc),
  average (lists_of l n) (fun c => qprod (map (fun i => g i (nth i c d)) (seq 0 n))) = qprod (map (fun i => average l (g i)) (seq 0 n)).
Proof.
  induction n as [|n IH]; intros g; [cbn; reflexivity|]. rewrite average_lists_S.
  rewrite (average_ext l _ (fun x => qprod (map (fun i => average l (g (S i))) (seq 0 n)) * g 0%nat x)%Qc).
  - rewrite average_scale. cbn [seq map qprod fold_right]. rewrite <- seq_shift, map_map. unfold qprod. ring.
  - intros x _. rewrite <- IH. rewrite (average_ext _ _ (fun r => g 0%nat x * qprod (map (fun i => g (S i) (nth i r d)) (seq 0 n)))%Qc).
    + rewrite average_scale. ring.
    + intros r _. cbn [seq map qprod fold_right]. rewrite <- seq_shift, map_map. reflexivity.
Qed.
(** linearity *)
Lemma average_sum n : forall (g : nat -> A -> Qc),
  average (lists_of l n) (fun c => qsum (map (fun i => g i (nth i c d)) (seq 0 n))) = qsum (map (fun i => average l (g i)) (seq 0 n)).
Proof.
  induction n as [|n IH]; intros g; [cbn; reflexivity|]. rewrite average_lists_S.
  rewrite (average_ext l _ (fun x => g 0%nat x + qsum (map (fun i => average l (g (S i))) (seq 0 n)))%Qc).
  - rewrite average_plus, average_const by assumption. cbn [seq map qsum fold_right]. rewrite <- seq_shift, map_map. reflexivity.
  - intros x _. rewrite <- IH. rewrite (average_ext _ _ (fun r => g 0%nat x + qsum (map (fun i => g (S i) (nth i r d)) (seq 0 n)))%Qc).
    + rewrite average_plus, average_const by apply lists_ne. reflexivity.
    + intros r _. cbn [seq map qsum fold_right]. rewrite <- seq_shift, map_map. reflexivity.
Qed.
(** the square of a sum of independent centred terms *)
Lemma average_square n : forall (g : nat -> A -> Qc), (forall i, i < n -> average l (g i) = 0%Qc) ->
  average (lists_of l n) (fun c => qsum (map (fun i => g i (nth i c d)) (seq 0 n)) * qsum (map (fun i => g i (nth i c d)) (seq 0 n)))%Qc =
  qsum (map (fun i => average l (fun x => g i x * g i x)%Qc) (seq 0 n)).
Proof.
  induction n as [|n IH]; intros g Z; [cbn; reflexivity|]. rewrite average_lists_S.
  assert (Zs : average (lists_of l n) (fun r => qsum (map (fun i => g (S i) (nth i r d)) (seq 0 n))) = 0%Qc).
  { rewrite (average_sum n (fun i => g (S i))). apply qsum_zero. intros i Hi. apply in_seq in Hi. apply Z. lia. }
  assert (Q := IH (fun i => g (S i)) ltac:(intros i Hi; apply Z; lia)). cbn zeta in *.
  rewrite (average_ext l _ (fun x => g 0%nat x * g 0%nat x + qsum (map (fun i => average l (fun x => g (S i) x * g (S i) x)%Qc) (seq 0 n)))%Qc).
  - rewrite average_plus, average_const by assumption. cbn [seq map qsum fold_right]. rewrite <- seq_shift, map_map. reflexivity.
  - intros x _. rewrite <- Q. set (T := fun r => qsum (map (fun i => g (S i) (nth i r d)) (seq 0 n))).
    rewrite (average_ext _ _ (fun r => g 0%nat x * g 0%nat x + ((1 + 1) * g 0%nat x * T r + T r * T r))%Qc).
    + rewrite average_plus, average_plus, average_const, average_scale by apply lists_ne. unfold T at 1. rewrite Zs. unfold T. ring.
    + intros r _. unfold T. cbn [seq map qsum fold_right]. rewrite <- seq_shift, map_map. unfold qsum. cbn [nth]. ring.
Qed.
End Lists.

Lemma fraction_average {A} (l : list A) p : fraction l p = average l (fun x => if p x then 1%Qc else 0%Qc).
Proof.
  unfold fraction, average. f_equal. induction l as [|x l IH]; [reflexivity|]. cbn [filter map qsum fold_right]. unfold qsum in IH. rewrite <- IH.
  destruct (p x); [cbn [length]; now rewrite nQc_S|]. ring.
Qed.
(** Markov / Chebyshev *)
Lemma chebyshev {A} (l : list A) (X : A -> Qc) m e V : l <> [] -> (0 < e)%Qc -> (average l (fun c => (X c - m) * (X c - m)) <= V)%Qc ->
  (fraction l (fun c => off_by e (X c) m) <= V / (e * e))%Qc.
Proof.
  intros NE E H. rewrite fraction_average.
  assert (Ee : (0 < e * e)%Qc) by qcnra.
  assert (NZ : (e * e)%Qc <> 0%Qc) by (intros Z; rewrite Z in Ee; discriminate).
  apply (Qcle_trans _ (average l (fun c => (/ (e * e)) * ((X c - m) * (X c - m))))%Qc).
  - apply average_le; [assumption|]. intros c _. unfold off_by.
    assert (I : (0 < / (e * e))%Qc).
    { destruct (Qclt_le_dec 0 (/ (e * e))) as [P|P]; [exact P|]. exfalso. assert (O := Qcmult_inv_r (e * e)%Qc NZ).
      revert P Ee O. generalize (/ (e * e))%Qc; generalize (e * e)%Qc. intros b a ? ? O. assert (this (b * a)%Qc = 1)%Q by (rewrite O; reflexivity). assert (B := this_mult b a). rewrite H0 in B. unfold Qcle, Qclt in *. simpl in *. nra. }
    assert (Sq : (0 <= (X c - m) * (X c - m))%Qc) by (generalize (X c - m)%Qc; intros; qcnra).
    destruct (qleb_spec e (X c - m)) as [G|G]; [|destruct (qleb_spec e (m - X c)) as [G'|G']]; cbn [orb].
    + rewrite <- (Qcmult_inv_l (e * e)) by assumption. assert (L : (e * e <= (X c - m) * (X c - m))%Qc) by (revert G; generalize (X c - m)%Qc; intros; qcnra).
      revert I L. generalize (/ (e * e))%Qc; generalize (e * e)%Qc ((X c - m) * (X c - m))%Qc. intros; qcnra.
    + rewrite <- (Qcmult_inv_l (e * e)) by assumption. assert (L : (e * e <= (X c - m) * (X c - m))%Qc) by (replace ((X c - m) * (X c - m))%Qc with ((m - X c) * (m - X c))%Qc by ring; revert G'; generalize (m - X c)%Qc; intros; qcnra).
      revert I L. generalize (/ (e * e))%Qc; generalize (e * e)%Qc ((X c - m) * (X c - m))%Qc. intros; qcnra.
    + revert I Sq. generalize (/ (e * e))%Qc ((X c - m) * (X c - m))%Qc. intros; qcnra.
  - rewrite average_scale. replace (V / (e * e))%Qc with (/ (e * e) * V)%Qc by (unfold Qcdiv; ring).
    assert (I := div_le _ _ (e * e)%Qc Ee H). unfold Qcdiv in I. rewrite !(Qcmult_comm (/ (e * e))). exact I.
Qed.
Lemma fraction_or {A} (l : list A) p q r : l <> [] -> (forall x, In x l -> p x = true -> q x = true \/ r x = true) -> (fraction l p <= fraction l q + fraction l r)%Qc.
Proof.
  intros NE H. rewrite !fraction_average, <- average_plus. apply average_le; [assumption|]. intros x Hx. specialize (H x Hx).
  destruct (p x), (q x), (r x); try discriminate. destruct H as [H|H]; auto; discriminate.
Qed.
