(** VETotal.v -- the joint of an acyclic normalised network sums to 1. *)
From Verif Require Import Py Num BayesNet Factor SpecFactor Radix SumOver FactorMul FactorOut FactorMore FactorLaws Rounding Factorization SpecInference VE VEShape.
Open Scope nat_scope.

Lemma cond_prob_nonneg bn v a : nonneg_net bn -> In v (bn_V bn) -> (0 <= getq (cond_prob bn v a))%Qc.
Proof.
  intros N Hv. unfold cond_prob. destruct (nth_error (ncpt bn v) _) as [x|] eqn:E; simpl; [|apply Qcle_refl].
  apply nth_error_In in E. now apply (N v x).
Qed.
Lemma joint_nonneg bn a : nonneg_net bn -> (0 <= joint bn a)%Qc.
Proof.
  intros N. unfold joint. apply qprod_nonneg. intros x Hx. apply in_map_iff in Hx as (v & <- & Hv). now apply cond_prob_nonneg.
Qed.

Definition pjoint (bn : bayesnet) (vs : list name) (a : asg) : Qc :=
  qprod (map (fun v => getq (cond_prob bn v a)) vs).
Lemma pjoint_ext bn vs : ext (pjoint bn vs).
Proof. intros a b H. unfold pjoint. apply qprod_map_ext. intros v _. f_equal. apply cond_prob_ext. auto. Qed.

Lemma topo_sum bn : wfnet bn -> normalised bn -> forall p q, Permutation (p ++ q) (bn_V bn) ->
  (forall p1 v q1, p = p1 ++ v :: q1 -> incl (nparents bn v) p1) ->
  forall a, valid (ncard bn) (bn_V bn) a -> sum_over (ncard bn) p (pjoint bn p) a = 1%Qc.
Proof.
  intros W N p. induction p as [|v p IH] using rev_ind; intros q P T a Va; [reflexivity|].
  assert (NDp : NoDup ((p ++ [v]) ++ q)) by (eapply Permutation_NoDup; [symmetry; exact P|apply W]).
  assert (Hv : In v (bn_V bn)). { apply (Permutation_in _ P). rewrite !in_app_iff. simpl. auto. }
  assert (Np : ~ In v p).
  { intros H. rewrite <- app_assoc in NDp. simpl in NDp. apply NoDup_remove_2 in NDp. apply NDp. apply in_or_app. auto. }
  rewrite sum_over_app. rewrite <- (IH (v :: q)) with (a := a); [|now rewrite <- app_assoc in P| |assumption].
  2:{ intros p1 u q1 E. apply (T p1 u (q1 ++ [v])). rewrite E, <- app_assoc. reflexivity. }
  apply sum_over_congr. intros b Hb Vb.
  assert (NDpp : NoDup p) by (rewrite <- app_assoc in NDp; clear - NDp; induction p; [constructor|]; simpl in NDp; inversion NDp; subst; constructor; [|auto]; intros H; apply H1; apply in_or_app; auto).
  specialize (Vb NDpp). simpl. unfold sum_values.
  transitivity (qsum (map (fun x => pjoint bn p b * getq (cond_prob bn v (upd b v x)))%Qc (seq 0 (ncard bn v)))).
  - apply qsum_map_ext. intros x _. unfold pjoint. rewrite map_app, qprod_app. simpl. rewrite Qcmult_1_r. f_equal.
    apply qprod_map_ext. intros u Hu. f_equal. apply cond_prob_ext. intros w Hw.
    apply upd_other. intros ->. apply in_split in Hu as (p1 & q1 & ->). 
    destruct Hw as [->|Hw]; [apply Np; apply in_or_app; simpl; auto|].
    apply Np. apply in_or_app. left. apply (T p1 u (q1 ++ [v])); [|assumption]. now rewrite <- app_assoc.
  - rewrite qsum_map_mult_l.
    assert (VB : valid (ncard bn) (bn_V bn) b).
    { intros w Hw. destruct (in_dec name_eq_dec w p) as [I|I]; [now apply Vb|]. rewrite Hb by assumption. now apply Va. }
    rewrite (N v b Hv VB). ring.
Qed.

Lemma valid_zero bn : wfnet bn -> valid (ncard bn) (bn_V bn) (fun _ => 0).
Proof.
  intros W v Hv. destruct (wn_vals _ W v Hv) as [_ H]. unfold nvalues in H. unfold ncard.
  destruct (dget (bn_F bn) v) as [d|]; [|contradiction]. destruct (f_values d); [contradiction|simpl; lia].
Qed.

Lemma joint_total bn : wfnet bn -> normalised bn -> acyclic_net bn ->
  sum_over (ncard bn) (bn_V bn) (joint bn) (fun _ => 0) = 1%Qc.
Proof.
  intros W N (ord & P & T).
  rewrite (sum_over_perm _ _ ord); [|apply joint_ext|apply W|now symmetry].
  rewrite <- (topo_sum bn W N ord []) with (a := fun _ => 0).
  - apply sum_over_congr. intros b _ _. unfold joint, pjoint. apply qprod_perm. apply Permutation_map. now symmetry.
  - now rewrite app_nil_r.
  - exact T.
  - now apply valid_zero.
Qed.

(** sum of the marginal vector *)
Lemma marginal_sum bn target ev : wfnet bn -> In target (bn_V bn) ->
  qsum (map (marginal bn target ev) (seq 0 (ncard bn target))) = evidence_prob bn ev.
Proof.
  intros W Ht. unfold evidence_prob, prob_of.
  assert (Ex : ext (fun a => if agrees bn ev a then joint bn a else 0%Qc)).
  { intros a b H. rewrite (agrees_ext bn ev a b H), (joint_ext bn a b H). reflexivity. }
  rewrite (sum_over_perm _ _ (target :: remove1 target (bn_V bn))); [|assumption|apply W|now apply remove1_perm].
  simpl. unfold sum_values. apply qsum_map_ext. intros x Hx. apply in_seq in Hx.
  unfold marginal, prob_of.
  transitivity (sum_over (ncard bn) (bn_V bn) (fun b => if b target =? x then (if agrees bn ev b then joint bn b else 0%Qc) else 0%Qc) (fun _ => 0)).
  - apply sum_over_congr. intros b _ _. destruct (b target =? x); reflexivity.
  - apply sum_indicator; [apply W|assumption|lia|assumption].
Qed.
Lemma evidence_prob_nil bn : wfnet bn -> normalised bn -> acyclic_net bn -> evidence_prob bn [] = 1%Qc.
Proof. intros W N A. unfold evidence_prob, prob_of. simpl. now apply joint_total. Qed.
Lemma marginal_nonneg bn target ev x : nonneg_net bn -> (0 <= marginal bn target ev x)%Qc.
Proof.
  intros N. unfold marginal, prob_of. apply sum_over_nonneg. intros b _ _.
  destruct (_ && _); [now apply joint_nonneg|apply Qcle_refl].
Qed.
Lemma marginal_perm bn target ev ev' x : Permutation ev ev' -> marginal bn target ev x = marginal bn target ev' x.
Proof.
  intros P. unfold marginal, prob_of. apply sum_over_congr. intros b _ _.
  assert (agrees bn ev b = agrees bn ev' b) as ->; [|reflexivity].
  unfold agrees. clear -P. induction P as [|p l l' P IH|p q l|l1 l2 l3 P1 IH1 P2 IH2]; cbn [forallb]; [reflexivity|now rewrite IH| |congruence].
  rewrite !andb_assoc. f_equal. apply andb_comm.
Qed.
