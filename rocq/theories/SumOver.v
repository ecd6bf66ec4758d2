(** SumOver.v -- finite sums over assignments. *)
From Verif Require Import Py Num BayesNet Factor SpecFactor Radix.
Open Scope nat_scope.

Definition ext (phi : asg -> Qc) : Prop := forall a b, (forall v, a v = b v) -> phi a = phi b.

Lemma upd_ext a b v x : (forall w, a w = b w) -> forall w, upd a v x w = upd b v x w.
Proof. intros H w. unfold upd. destruct (name_eqb w v); auto. Qed.
Lemma upd_comm a v x w y : v <> w -> forall u, upd (upd a v x) w y u = upd (upd a w y) v x u.
Proof.
  intros Ne u. unfold upd. destruct (name_eqb_spec u w), (name_eqb_spec u v); congruence.
Qed.
Lemma upd_twice a v x y : forall u, upd (upd a v x) v y u = upd a v y u.
Proof. intros u. unfold upd. destruct (name_eqb u v); congruence. Qed.
Lemma upd_id a v : forall u, upd a v (a v) u = a u.
Proof. intros u. unfold upd. destruct (name_eqb_spec u v); congruence. Qed.

Lemma val_ext f : ext (val f).
Proof. intros a b H. unfold val. f_equal. apply lookup_ext. auto. Qed.

Lemma sum_values_ext cd v phi : ext phi -> ext (sum_values cd v phi).
Proof.
  intros E a b H. unfold sum_values. apply qsum_map_ext. intros x _. apply E. now apply upd_ext.
Qed.
Lemma sum_over_ext cd vs phi : ext phi -> ext (sum_over cd vs phi).
Proof. intros E. induction vs as [|v r IH]; simpl; [assumption|]. now apply sum_values_ext. Qed.

Lemma sum_values_congr cd v phi psi a :
  (forall x, x < cd v -> phi (upd a v x) = psi (upd a v x)) -> sum_values cd v phi a = sum_values cd v psi a.
Proof.
  intros H. unfold sum_values. apply qsum_map_ext. intros x Hx. apply H. apply in_seq in Hx. lia.
Qed.

Lemma sum_over_congr cd vs phi psi a :
  (forall b, (forall w, ~ In w vs -> b w = a w) -> (NoDup vs -> valid cd vs b) -> phi b = psi b) ->
  sum_over cd vs phi a = sum_over cd vs psi a.
Proof.
  revert a. induction vs as [|v r IH]; simpl; intros a H.
  - apply H; [reflexivity|]. intros _ w [].
  - apply sum_values_congr. intros x Hx. apply IH. intros b Hb Vb. apply H.
    + intros w Hw. rewrite Hb by tauto. apply upd_other. intros ->. apply Hw. now left.
    + intros ND. inversion ND; subst. apply valid_cons. split; [|auto].
      rewrite Hb by assumption. now rewrite upd_same.
Qed.

Lemma sum_over_swap cd r v phi a : ext phi -> ~ In v r ->
  sum_over cd r (sum_values cd v phi) a = sum_values cd v (sum_over cd r phi) a.
Proof.
  intros E. revert a. induction r as [|w r IH]; simpl; intros a Hv; [reflexivity|].
  transitivity (sum_values cd w (sum_values cd v (sum_over cd r phi)) a).
  - apply sum_values_congr. intros x _. apply IH. tauto.
  - unfold sum_values at 1 2 3 4. rewrite qsum_swap. apply qsum_map_ext. intros x _.
    apply qsum_map_ext. intros y _. apply sum_over_ext; [assumption|]. apply upd_comm. intros ->. apply Hv. now left.
Qed.

Lemma sum_over_app cd p q phi a : sum_over cd (p ++ q) phi a = sum_over cd p (sum_over cd q phi) a.
Proof.
  revert a. induction p as [|v r IH]; simpl; intros a; [reflexivity|].
  apply sum_values_congr. intros x _. apply IH.
Qed.

Lemma sum_over_perm cd p q phi a : ext phi -> NoDup p -> Permutation p q ->
  sum_over cd p phi a = sum_over cd q phi a.
Proof.
  intros E ND P. revert a ND. induction P as [|v l l' P IH|v w l|l1 l2 l3 P1 IH1 P2 IH2]; intros a ND.
  - reflexivity.
  - simpl. inversion ND; subst. apply sum_values_congr. auto.
  - simpl. unfold sum_values. rewrite qsum_swap. apply qsum_map_ext. intros x _. apply qsum_map_ext. intros y _.
    apply sum_over_ext; [assumption|]. apply upd_comm. intros ->. inversion ND; subst. simpl in *. tauto.
  - rewrite IH1 by assumption. apply IH2. now apply (Permutation_NoDup P1).
Qed.

Lemma qsum_seq_shift h i n : qsum (map h (seq i n)) = qsum (map (fun j => h (i + j)) (seq 0 n)).
Proof.
  revert h i. induction n as [|n IH]; intros h i; simpl; [reflexivity|].
  rewrite Nat.add_0_r. f_equal. rewrite IH, (IH _ 1). apply qsum_map_ext. intros x _. f_equal. lia.
Qed.
Lemma qsum_seq_app h n m : qsum (map h (seq 0 (n + m))) = (qsum (map h (seq 0%nat n)) + qsum (map (fun j => h (n + j)%nat) (seq 0%nat m)))%Qc.
Proof. rewrite seq_app, map_app, qsum_app. f_equal. simpl. apply qsum_seq_shift. Qed.

(** a sum over c*m indices, regrouped *)
Lemma qsum_regroup h c m :
  qsum (map h (seq 0 (c * m))) = qsum (map (fun x => qsum (map (fun j => h (x + c * j)) (seq 0 m))) (seq 0 c)).
Proof.
  rewrite qsum_swap. induction m as [|m IH].
  - rewrite Nat.mul_0_r. reflexivity.
  - replace (c * S m) with (c * m + c) by lia. rewrite qsum_seq_app, IH.
    rewrite seq_S, map_app, qsum_app. simpl. f_equal. rewrite Qcplus_0_r.
    apply qsum_map_ext. intros x _. f_equal. lia.
Qed.

(** a sum over all assignments of [ord] is a sum over all indices *)
Lemma sum_over_index cd ord phi h a : NoDup ord ->
  (forall b, (forall w, ~ In w ord -> b w = a w) -> valid cd ord b -> phi b = h (radix cd ord b)) ->
  sum_over cd ord phi a = qsum (map h (seq 0 (size cd ord))).
Proof.
  revert h a. induction ord as [|v r IH]; intros h a ND H.
  - simpl. rewrite (H a); [simpl; ring|auto|intros w []].
  - inversion ND as [|? ? Hn Hr]; subst.
    assert (size cd (v :: r) = cd v * size cd r) as -> by reflexivity.
    rewrite qsum_regroup. cbn [sum_over]. unfold sum_values. apply qsum_map_ext. intros x Hx. apply in_seq in Hx.
    apply (IH (fun j => h (x + cd v * j))); [assumption|].
    intros b Hb Vb. assert (Ev : b v = x) by (rewrite Hb by assumption; apply upd_same).
    rewrite (H b).
    + cbn [radix]. now rewrite Ev.
    + intros w Hw. rewrite Hb by (intros I; apply Hw; now right). apply upd_other. intros ->. apply Hw. now left.
    + apply valid_cons. split; [lia|assumption].
Qed.

Lemma sum_over_nonneg cd vs phi a :
  (forall b, (forall w, ~ In w vs -> b w = a w) -> (NoDup vs -> valid cd vs b) -> 0 <= phi b)%Qc ->
  (0 <= sum_over cd vs phi a)%Qc.
Proof.
  revert a. induction vs as [|v r IH]; simpl; intros a H.
  - apply H; [reflexivity|]. intros _ w [].
  - apply qsum_nonneg. intros y Hy. apply in_map_iff in Hy as (x & <- & Hx). apply in_seq in Hx.
    apply IH. intros b Hb Vb. apply H.
    + intros w Hw. rewrite Hb by tauto. apply upd_other. intros ->. apply Hw. now left.
    + intros ND. inversion ND; subst. apply valid_cons. split; [|auto].
      rewrite Hb by assumption. rewrite upd_same. lia.
Qed.
