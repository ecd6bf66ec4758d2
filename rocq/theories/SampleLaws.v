(** SampleLaws.v -- facts about samples and answer tables used by Properties_Sample.v. *)
From Verif Require Import Py Num BayesNet Factor SpecFactor Radix FactorOut FactorMore SpecInference VE VETotal GraphNet Rounding ParamLearn ParamFacts ParamMain NaiveFacts SpecSample Sampling SampleFacts GraphCheck SampleMain.
Open Scope nat_scope.

Lemma qsum_delta (n k : nat) (w : Qc) : k < n -> qsum (map (fun x => if k =? x then w else 0%Qc) (seq 0 n)) = w.
Proof.
  induction n as [|n IH]; intros L; [lia|]. rewrite seq_S, map_app, qsum_app. cbn [map plus]. unfold qsum at 2. cbn [fold_right].
  destruct (Nat.eqb_spec k n) as [-> |N].
  - assert (Z : qsum (map (fun x => if n =? x then w else 0%Qc) (seq 0 n)) = 0%Qc).
    { rewrite (qsum_map_ext _ (fun _ => 0%Qc)).
      - clear. induction (seq 0 n); simpl; [reflexivity|]. rewrite IHl. ring.
      - intros x Hx. apply in_seq in Hx. destruct (Nat.eqb_spec n x); [lia|reflexivity]. }
    rewrite Z. ring.
  - rewrite IH by lia. ring.
Qed.
Lemma whits_sum s w is v n : (forall i, In i is -> s i v < n) ->
  qsum (map (whits s w is v) (seq 0 n)) = qsum (map w is).
Proof.
  induction is as [|i is IH]; intros H.
  - unfold whits. simpl. clear. induction (seq 0 n); simpl; [reflexivity|]. rewrite IHl. ring.
  - rewrite (qsum_map_ext _ (fun x => (if s i v =? x then w i else 0) + whits s w is v x)%Qc) by reflexivity.
    rewrite (qsum_map_plus (fun x => if s i v =? x then w i else 0%Qc)). rewrite qsum_delta by (apply H; now left).
    rewrite IH by (intros j Hj; apply H; now right). reflexivity.
Qed.
Lemma hits_whits s is v x : nQc (hits s is v x) = whits s (fun _ => 1%Qc) is v x.
Proof.
  induction is as [|i is IH]; [reflexivity|]. rewrite hits_cons, nQc_plus, IH. unfold whits at 2. cbn [map qsum fold_right].
  destruct (s i v =? x); rewrite ?nQc_1, ?nQc_0; reflexivity.
Qed.
Lemma qsum_ones {A} (l : list A) : qsum (map (fun _ => 1%Qc) l) = nQc (length l).
Proof. induction l as [|x l IH]; [reflexivity|]. cbn [map length]. replace (S (length l)) with (1 + length l)%nat by reflexivity. rewrite nQc_plus, <- IH, nQc_1. reflexivity. Qed.
Lemma hits_sum s is v n : (forall i, In i is -> s i v < n) -> qsum (map (fun x => nQc (hits s is v x)) (seq 0 n)) = nQc (length is).
Proof.
  intros H. rewrite (qsum_map_ext _ (whits s (fun _ => 1%Qc) is v)) by (intros x _; apply hits_whits).
  rewrite whits_sum by assumption. apply qsum_ones.
Qed.
Lemma qsum_div {A} (f : A -> Qc) (d : Qc) l : qsum (map (fun x => f x / d)%Qc l) = (qsum (map f l) / d)%Qc.
Proof. unfold Qcdiv. induction l as [|x l IH]; simpl; [ring|]. rewrite IH. ring. Qed.
Lemma nQc_nz n : 0 < n -> nQc n <> 0%Qc.
Proof. intros P Z. apply nQc_pos in P. rewrite Z in P. discriminate. Qed.

(** the draws determine the sample *)
Lemma cum_mono bn v a : nonneg_net bn -> In v (bn_V bn) -> forall k m, k <= m -> (cum bn v a k <= cum bn v a m)%Qc.
Proof.
  intros NN Hv k m L. induction L as [|m L IH]; [apply Qcle_refl|]. rewrite cum_S.
  assert (P := cond_prob_nonneg bn v (upd a v m) NN Hv). revert IH P. generalize (cum bn v a k) (cum bn v a m) (getq (cond_prob bn v (upd a v m))). intros; qclra.
Qed.
Lemma div_le (a b T : Qc) : (0 < T -> a <= b -> a / T <= b / T)%Qc.
Proof.
  intros P L. assert (NZ : T <> 0%Qc) by (intros Z; rewrite Z in P; discriminate).
  assert (E : (a / T * T = a)%Qc) by (field; assumption). assert (F : (b / T * T = b)%Qc) by (field; assumption).
  destruct (Qclt_le_dec (b / T) (a / T)) as [H|H]; [|exact H]. exfalso.
  rewrite <- E, <- F in L. revert L H P. generalize (a / T)%Qc (b / T)%Qc. intros; qcnra.
Qed.
Lemma drawn_unique bn v a b u : samplable bn -> In v (bn_V bn) -> valid (ncard bn) (nparents bn v) a ->
  (forall w, In w (nparents bn v) -> a w = b w) -> drawn_by bn v a u -> drawn_by bn v b u -> a v = b v.
Proof.
  intros Sm Hv V E (L1 & A1 & B1) (L2 & A2 & B2). destruct (near_cum bn v a Sm Hv V) as [N1 _]. pose proof Sm as (_ & NN & _).
  rewrite <- !(cum_ext bn v a b) in A2, B2 by assumption.
  assert (tol : (this choice_tol == 1 # 100000000)%Q) by reflexivity. assert (one : this 1%Qc = 1%Q) by reflexivity.
  set (T := cum bn v a (ncard bn v)) in *. assert (Tp : (0 < T)%Qc) by (assert (zero : this 0%Qc = 0%Q) by reflexivity; clear - N1 tol one zero; qclra).
  destruct (Nat.lt_trichotomy (a v) (b v)) as [H|[H|H]]; [exfalso|assumption|exfalso].
  - assert (M := div_le _ _ T Tp (cum_mono bn v a NN Hv (S (a v)) (b v) H)). clear - M A2 B1. qclra.
  - assert (M := div_le _ _ T Tp (cum_mono bn v a NN Hv (S (b v)) (a v) H)). clear - M A1 B2. qclra.
Qed.
Lemma nth_of_split {A} (p q : list A) v : nth_error (p ++ v :: q) (length p) = Some v.
Proof. rewrite nth_error_app2, Nat.sub_diag by lia. reflexivity. Qed.
Lemma ancestral_unique bn u a b : samplable bn -> nodes_topological bn -> ancestral bn u a -> ancestral bn u b ->
  forall v, In v (bn_V bn) -> a v = b v.
Proof.
  intros Sm Top A B. assert (Va := ancestral_valid _ _ _ A).
  assert (G : forall q p, bn_V bn = p ++ q -> (forall v, In v p -> a v = b v) -> forall v, In v (bn_V bn) -> a v = b v).
  { induction q as [|w q IH]; intros p E H.
    - rewrite app_nil_r in E. rewrite E. exact H.
    - apply (IH (p ++ [w])); [rewrite E; now rewrite <- app_assoc|]. intros v Hv. apply in_app_or in Hv as [Hv|[<-|[]]]; [now apply H|].
      assert (Hw : In w (bn_V bn)) by (rewrite E; apply in_or_app; right; now left).
      assert (Pw := Top p w q E).
      assert (N : nth_error (bn_V bn) (length p) = Some w) by (rewrite E; apply nth_of_split).
      apply (drawn_unique bn w a b (u (length p)) Sm Hw).
      + intros x Hx. apply Va. rewrite E. apply in_or_app. left. now apply Pw.
      + intros x Hx. apply H. now apply Pw.
      + now apply A.
      + now apply B. }
  apply (G (bn_V bn) []); [reflexivity|intros v []].
Qed.
Lemma weighted_unique bn ev u a b : samplable bn -> nodes_topological bn -> weighted_sample bn ev u a -> weighted_sample bn ev u b ->
  valid (ncard bn) (bn_V bn) a -> forall v, In v (bn_V bn) -> a v = b v.
Proof.
  intros Sm Top A B Va.
  assert (G : forall q p, bn_V bn = p ++ q -> (forall v, In v p -> a v = b v) -> forall v, In v (bn_V bn) -> a v = b v).
  { induction q as [|w q IH]; intros p E H.
    - rewrite app_nil_r in E. rewrite E. exact H.
    - apply (IH (p ++ [w])); [rewrite E; now rewrite <- app_assoc|]. intros v Hv. apply in_app_or in Hv as [Hv|[<-|[]]]; [now apply H|].
      assert (Hw : In w (bn_V bn)) by (rewrite E; apply in_or_app; right; now left).
      assert (Pw := Top p w q E).
      assert (N : nth_error (bn_V bn) (length p) = Some w) by (rewrite E; apply nth_of_split).
      specialize (A _ _ N). specialize (B _ _ N). destruct (dget ev w) as [x|]; [congruence|].
      apply (drawn_unique bn w a b (u (length p)) Sm Hw); [|intros x Hx; apply H; now apply Pw|exact A|exact B].
      intros x Hx. apply Va. rewrite E. apply in_or_app. left. now apply Pw. }
  apply (G (bn_V bn) []); [reflexivity|intros v []].
Qed.
Lemma normalised_nearly bn : normalised bn -> nearly_normalised bn.
Proof.
  intros N v a Hv V. unfold cum. rewrite (N v a Hv V). assert (one : this 1%Qc = 1%Q) by reflexivity.
  assert (tol : (this (Q2Qc (1 # 100000000)) == 1 # 100000000)%Q) by reflexivity. split; qclra.
Qed.
(** a node whose distribution does not depend on parents and is not normalised *)
Lemma choice_rejects u vals p : length vals <> 0 -> length p = length vals ->
  (choice_tol < qsum p - 1 \/ choice_tol < 1 - qsum p)%Qc -> np_choice u vals p = Raise ValueError.
Proof.
  intros L1 L2 H. unfold np_choice. destruct (Nat.eqb_spec (length vals) 0); [contradiction|]. rewrite L2, Nat.eqb_refl. cbn [negb].
  destruct (existsb _ p); [reflexivity|].
  destruct (qltb_spec choice_tol (qsum p - 1)) as [|N1]; [reflexivity|]. destruct (qltb_spec choice_tol (1 - qsum p)) as [|N2]; [reflexivity|].
  exfalso. destruct H; [apply N1|apply N2]; assumption.
Qed.
Lemma root_dist bn v a : wfnet bn -> In v (bn_V bn) -> nparents bn v = [] -> dist bn v a = ncpt bn v.
Proof.
  intros W Hv P. unfold dist. assert (L := wn_cpt _ W v Hv). rewrite P in L. cbn [map] in L. unfold nprod in L. cbn [fold_right] in L. rewrite Nat.mul_1_r in L.
  rewrite <- L. rewrite (map_nth_seq (ncpt bn v) 0%Qc) at 2. apply map_ext_in. intros x Hx. apply in_seq in Hx.
  unfold cond_prob. rewrite P. cbn [radix]. rewrite upd_same. rewrite Nat.mul_0_r, Nat.add_0_r. rewrite (nth_error_nth' _ 0%Qc) by lia. reflexivity.
Qed.
