(** FloatMain.v -- marginal_ve_e in floating point: the whole run. *)
From Verif Require Import Py Num BayesNet Factor SpecFactor FactorMul FactorOut Rounding Factorization SpecInference VE VEShape VETotal CliqueMain Float SpecFloat FloatFacts.
Open Scope nat_scope.

(** ** with the identity as rounding function the programs coincide *)
Lemma fl_mul_loop_id sc1 sc2 card1 card2 st1 st2 c1 c2 rvs n : forall asg j k,
  fl_mul_loop (fun x => x) sc1 sc2 card1 card2 st1 st2 c1 c2 rvs n asg j k = mul_loop sc1 sc2 card1 card2 st1 st2 c1 c2 rvs n asg j k.
Proof.
  induction n as [|n IH]; intros asg j k; cbn [mul_loop fl_mul_loop]; [reflexivity|].
  destruct (pyget c1 j); cbn [bind]; [|reflexivity]. destruct (pyget c2 k); cbn [bind]; [|reflexivity].
  destruct (bump _ _ _ _ _ _ _ _ _ _) as [[[a' j'] k']|]; cbn [bind]; [|reflexivity]. now rewrite IH.
Qed.
Lemma fl_mul_id o f g : fl_mul (fun x => x) o f g = factor_mul o f g.
Proof.
  unfold fl_mul, factor_mul, multiply_factor. cbv zeta. rewrite fl_mul_loop_id.
  destruct (mul_loop _ _ _ _ _ _ _ _ _ _ _ _ _); cbn [bind]; [|reflexivity]. destruct (run_strides _ _ _ _); reflexivity.
Qed.
Lemma fl_mul_all_id fs : forall o f, fl_mul_all (fun x => x) o f fs = mul_all o f fs.
Proof. induction fs as [|g r IH]; intros o f; simpl; [reflexivity|]. rewrite fl_mul_id. destruct (factor_mul _ _ _); simpl; [apply IH|reflexivity]. Qed.
Lemma fl_product_id o v fs : fl_product_relevant (fun x => x) o v fs = product_relevant o v fs.
Proof. unfold fl_product_relevant, product_relevant. destruct (relevant_factors v fs); [reflexivity|apply fl_mul_all_id]. Qed.
Lemma fl_sum_elim_id o z v : fl_sum_elim (fun x => x) o z v = fz_sum_elim o z v.
Proof. unfold fl_sum_elim, fz_sum_elim. now rewrite fl_product_id. Qed.
Lemma fl_max_elim_id o z v : fl_max_elim (fun x => x) o z v = fz_max_elim o z v.
Proof. unfold fl_max_elim, fz_max_elim. now rewrite fl_product_id. Qed.
Lemma elim_all_ext e e' order : (forall o z v, e o z v = e' o z v) -> forall o z, elim_all e o z order = elim_all e' o z order.
Proof. intros H. induction order as [|v r IH]; intros o z; simpl; [reflexivity|]. rewrite H. destruct (e' (sub o 0) z v); simpl; [apply IH|reflexivity]. Qed.
Lemma fl_marginal_id o bn t ev : fl_marginal_factor (fun x => x) o bn t ev = marginal_factor o bn t ev.
Proof.
  unfold fl_marginal_factor, marginal_factor. destruct (fz_init bn); cbn [bind]; [|reflexivity]. destruct (list_remove _ _); cbn [bind]; [|reflexivity].
  destruct (apply_evidence _ _ _ _); cbn [bind]; [|reflexivity]. now rewrite (elim_all_ext _ _ _ fl_sum_elim_id).
Qed.

(** ** sums and products of cardinalities over the eliminated variables *)
Lemma nsum_remove1 (f : name -> nat) v l : nsum (map f (remove1 v l)) <= nsum (map f l).
Proof. induction l as [|w r IH]; simpl; [lia|]. destruct (name_eqb v w); simpl; lia. Qed.
Lemma nprod_remove1 (f : name -> nat) v l : (forall w, In w l -> 0 < f w) -> nprod (map f (remove1 v l)) <= nprod (map f l).
Proof.
  induction l as [|w r IH]; intros P; simpl; [lia|]. assert (0 < f w) by (apply P; now left).
  assert (nprod (map f (remove1 v r)) <= nprod (map f r)) by (apply IH; intros; apply P; now right).
  destruct (name_eqb v w); simpl; fold (nprod (map f r)); fold (nprod (map f (remove1 v r))); nia.
Qed.
Lemma remove1_in v w l : In w (remove1 v l) -> In w l.
Proof. induction l as [|x r IH]; simpl; [tauto|]. destruct (name_eqb v x); simpl; tauto. Qed.
Lemma nsum_minus (f : name -> nat) ks : forall l, nsum (map f (minus l ks)) <= nsum (map f l).
Proof. unfold minus. induction ks as [|k r IH]; intros l; simpl; [lia|]. pose proof (IH (remove1 k l)). pose proof (nsum_remove1 f k l). lia. Qed.
Lemma nprod_minus (f : name -> nat) ks : forall l, (forall w, In w l -> 0 < f w) -> nprod (map f (minus l ks)) <= nprod (map f l).
Proof.
  unfold minus. induction ks as [|k r IH]; intros l P; simpl; [lia|].
  pose proof (IH (remove1 k l)) as A. pose proof (nprod_remove1 f k l P).
  assert (forall w, In w (remove1 k l) -> 0 < f w) as Q by (intros w Hw; apply P; now apply remove1_in in Hw). specialize (A Q). lia.
Qed.

Lemma F2_mono {A B} (R Q : A -> B -> Prop) l l' : (forall x y, R x y -> Q x y) -> Forall2 R l l' -> Forall2 Q l l'.
Proof. intros H. induction 1; constructor; auto. Qed.

Section Unit.
Variable u : Qc.
Hypothesis Hu : (0 <= u /\ u < 1)%Qc.

Lemma reduce_all_sim v x B L M fs fs' : budget u B L M fs fs' -> forall o, rres (budget u B L M) (reduce_all o v x fs) (reduce_all o v x fs').
Proof.
  induction 1 as [|k L M f f' B L' M' fs fs' F H IH]; intros o; cbn [reduce_all]; [constructor|].
  rewrite (fr_scope _ _ _ _ _ _ F). apply (rres_bind (frel u k L M)).
  { destruct (mem v (f_scope f)); [now apply reduce_sim|exact F]. }
  intros g g' G. eapply rres_bind; [apply IH|]. intros r r' R. simpl. now constructor.
Qed.

Lemma apply_evidence_sim ev B L M : forall o z z' order, zrel u B L M z z' ->
  rres (fun p p' => zrel u B L M (fst p) (fst p') /\ snd p' = snd p) (apply_evidence o z order ev) (apply_evidence o z' order ev).
Proof.
  induction ev as [|[E e] r IH]; intros o z z' order [Zb Z]; cbn [apply_evidence].
  - simpl. split; [now split|reflexivity].
  - unfold fz_sub. pose proof (reduce_all_sim E e B L M _ _ Z (sub o 0)) as H.
    destruct (reduce_all (sub o 0) E e (fz_phi z)), (reduce_all (sub o 0) E e (fz_phi z')); cbn [rres bind] in *; try tauto.
    apply rres_same. intros order' _. apply IH. split; [exact Zb|exact H].
Qed.

Lemma sum_all_sim rnd cd bn order : forall o z z' B L M, good o -> fine cd bn (fz_phi z) -> NoDup order ->
  (forall v, In v order -> in_scopes (fz_phi z) v) -> zrel u B L M z z' ->
  safe u rnd (B + nsum (map cd order)) L (M * nQc (nprod (map cd order))) ->
  rres (zrel u (B + nsum (map cd order)) L (M * nQc (nprod (map cd order)))) (elim_all fz_sum_elim o z order) (elim_all (fl_sum_elim rnd) o z' order).
Proof.
  induction order as [|v r IH]; intros o z z' B L M Go F ND I Z S.
  - cbn. now rewrite Nat.add_0_r, Qcmult_1_r.
  - inversion ND as [|? ? Hn Hr]; subst. cbn [elim_all map nsum nprod fold_right] in *. fold (nsum (map cd r)) in *. fold (nprod (map cd r)) in *.
    pose proof (sum_elim_ok cd bn (sub o 0) z v (good_sub _ 0 Go) F (I v (or_introl eq_refl))) as (psi' & E & F1 & _ & S1 & _).
    destruct (product_relevant_ok cd bn (sub (sub o 0) 0) v _ (good_sub _ 0 (good_sub _ 0 Go)) F (I v (or_introl eq_refl))) as (h & Eh & Rh & _ & Sh).
    assert (Hv : In v (f_scope h)).
    { apply Sh. destruct (I v (or_introl eq_refl)) as (f & Hf & Hw). exists f. split; [now apply In_relevant|assumption]. }
    assert (Pc : 0 < cd v) by (apply (proj1 Rh); assumption).
    destruct Z as [Zb Z]. destruct (budget_bounds u Hu _ _ _ _ _ Z) as (b1 & b2 & b3).
    assert (Pr : forall w, In w r -> 0 < cd w).
    { intros w Hw. destruct (I w (or_intror Hw)) as (f & Hf & Hs). destruct (F f Hf) as [Wf _]. now apply Wf. }
    assert (P1 : (1 <= nQc (cd v))%Qc) by (rewrite <- nQc_1; apply nQc_le; lia).
    assert (P2 : (1 <= nQc (nprod (map cd r)))%Qc).
    { rewrite <- nQc_1. apply nQc_le. assert (0 < nprod (map cd r)); [|lia]. apply nprod_pos. intros x Hx. apply in_map_iff in Hx as (w & <- & Hw). now apply Pr. }
    rewrite nQc_mult, Nat.add_assoc, Qcmult_assoc in *. pose proof one_q as O.
    pose proof (one_mult M (nQc (cd v)) b3 P1) as b4.
    assert (S0 : safe u rnd (B + cd v) L (M * nQc (cd v))).
    { eapply (safe_mono u Hu); [| | | | |exact S]; [assumption|qclra|lia|apply Qcle_refl|]. apply grow; qclra. }
    pose proof (sum_elim_sim u Hu rnd (sub o 0) (cd v) v B L M z z' (conj Zb Z) Pc) as H.
    assert (HC : forall f c, product_relevant (sub (sub o 0) 0) v (fz_phi z) = Ok f -> dget (f_card f) v = Some c -> c = cd v).
    { intros f c Ef Ec. rewrite Eh in Ef. inversion Ef; subst f. rewrite (wf_card _ _ (proj1 Rh) v Hv) in Ec. now inversion Ec. }
    specialize (H HC S0). rewrite E in *. destruct (fl_sum_elim rnd (sub o 0) z' v) as [z1'|]; cbn [rres bind] in *; [|tauto].
    apply IH; auto; [now apply good_sub|]. intros w Hw. cbn [fz_phi]. apply S1. split; [apply I; now right|congruence].
Qed.

Lemma near_exact d x : x = 0%Qc \/ (d <= x /\ x <= 1)%Qc -> (0 < d)%Qc -> near u 0 d 1 x x.
Proof.
  intros H P. pose proof one_q. split; [destruct H; tauto|]. split.
  - destruct H as [->|H]; [discriminate|tauto].
  - rewrite dn_0, up_0, Qcmult_1_r. split; apply Qcle_refl.
Qed.

Lemma init_budget bn d vs fs : wfnet bn -> entries_within bn d -> (0 < d /\ d <= 1)%Qc -> incl vs (bn_V bn) ->
  mapM (factor_init bn) vs = Ok fs -> budget u (length vs) (Qcpower d (length vs)) 1 fs fs.
Proof.
  intros W H P. revert fs. induction vs as [|v r IH]; intros fs I E.
  - inversion E. simpl. constructor.
  - cbn [mapM] in E. destruct (init_ok bn v W (I v (or_introl eq_refl))) as (f & Ef & S & Vr & B & C & _). rewrite Ef in E. cbn [bind] in E.
    destruct (mapM (factor_init bn) r) as [fs0|] eqn:Er; cbn [bind] in E; [|discriminate]. inversion E; subst fs.
    replace 1%Qc with (1 * 1)%Qc by ring. change (length (v :: r)) with (1 + length r).
    change (Qcpower d (1 + length r)) with (d * Qcpower d (length r))%Qc.
    constructor; [|apply IH; [intros w Hw; apply I; now right|reflexivity]].
    constructor; auto; [apply Qcle_refl|]. rewrite C. clear - H P I Hu. assert (G : incl (ncpt bn v) (ncpt bn v)) by apply incl_refl.
    revert G. generalize (ncpt bn v) at 1 3 4. induction l as [|x l IH]; intros G; constructor.
    + apply near_exact; [apply (H v); [apply I; now left|apply G; now left]|apply P].
    + apply IH. intros y Hy. apply G. now right.
Qed.

(** the loop of the program, exact and in floating point, on the same network *)
Lemma marginal_sim rnd bn target ev o d : wfnet bn -> In target (bn_V bn) -> good_evidence bn ev -> ~ In target (map fst ev) -> good o ->
  entries_within bn d -> (0 < d /\ d <= 1)%Qc ->
  safe u rnd (operations bn) (Qcpower d (length (bn_V bn))) (nQc (assignments bn)) ->
  rres (frel u (operations bn) (Qcpower d (length (bn_V bn))) (nQc (assignments bn))) (marginal_factor o bn target ev) (fl_marginal_factor rnd o bn target ev).
Proof.
  intros W Ht GE Nt Go HE Pd S. destruct (fz_init_ok bn W) as (fs & E & F & _ & Sc & _).
  set (z := mkFz bn fs [] []) in *. unfold marginal_factor, fl_marginal_factor.
  assert (NDV : NoDup (bn_V bn)) by apply W.
  assert (ND1 : NoDup (remove1 target (bn_V bn))) by now apply NoDup_remove1.
  assert (I1 : incl (map fst ev) (remove1 target (bn_V bn))).
  { intros w Hw. apply In_remove1; [assumption|]. split; [|congruence].
    apply in_map_iff in Hw as ([q y] & <- & Hq). now apply (proj2 GE) in Hq. }
  destruct (apply_evidence_ok bn ev W (sub o 0) z (remove1 target (bn_V bn)) GE F ND1 I1) as (z1 & E1 & _ & _ & F1 & S1 & _ & _ & _).
  pose proof (Forall2_scopes_ev _ _ _ S1) as SS1.
  set (order := minus (remove1 target (bn_V bn)) (map fst ev)) in *.
  assert (NDo : NoDup order) by now apply NoDup_minus.
  assert (Ho : forall w, In w order <-> In w (bn_V bn) /\ w <> target /\ ~ In w (map fst ev)).
  { intros w. unfold order. rewrite In_minus by assumption. rewrite In_remove1 by assumption. tauto. }
  assert (Z0 : zrel u (length (bn_V bn)) (Qcpower d (length (bn_V bn))) 1 z z).
  { split; [reflexivity|]. apply (init_budget bn d); auto; [apply incl_refl|]. unfold fz_init in E. fold (bn_nodes bn).
    destruct (mapM (factor_init bn) (bn_nodes bn)); cbn [bind] in E; [|discriminate]. now inversion E. }
  assert (Pc : forall w, In w (bn_V bn) -> 0 < ncard bn w) by (intros w Hw; now apply card_pos_wf).
  assert (LS : length (bn_V bn) + nsum (map (ncard bn) order) <= operations bn).
  { unfold operations, order. pose proof (nsum_minus (ncard bn) (map fst ev) (remove1 target (bn_V bn))). pose proof (nsum_remove1 (ncard bn) target (bn_V bn)). lia. }
  assert (LP : nprod (map (ncard bn) order) <= assignments bn).
  { unfold assignments, order. pose proof (nprod_remove1 (ncard bn) target (bn_V bn) Pc).
    pose proof (nprod_minus (ncard bn) (map fst ev) (remove1 target (bn_V bn))) as A.
    assert (forall w, In w (remove1 target (bn_V bn)) -> 0 < ncard bn w) as Q by (intros w Hw; apply Pc; now apply remove1_in in Hw). specialize (A Q). lia. }
  assert (LQ : 0 < nprod (map (ncard bn) order)).
  { apply nprod_pos. intros x Hx. apply in_map_iff in Hx as (w & <- & Hw). apply Pc. now apply Ho in Hw. }
  destruct (budget_bounds u Hu _ _ _ _ _ (proj2 Z0)) as (b1 & b2 & _). pose proof one_q as O.
  assert (S0 : safe u rnd (length (bn_V bn) + nsum (map (ncard bn) order)) (Qcpower d (length (bn_V bn))) (1 * nQc (nprod (map (ncard bn) order)))).
  { rewrite Qcmult_1_l. eapply (safe_mono u Hu); [| | | | |exact S]; [assumption|apply nQc_nonneg|assumption|apply Qcle_refl|now apply nQc_le]. }
  rewrite E. cbn [bind]. unfold list_remove, bn_nodes. assert (Mt : mem target (bn_V bn) = true) by now apply mem_In. rewrite Mt. cbn [bind].
  pose proof (apply_evidence_sim ev _ _ _ (sub o 0) z z (remove1 target (bn_V bn)) Z0) as H.
  rewrite E1 in *. cbn [bind rres fst snd] in *. destruct H as [H _].
  pose proof (sum_all_sim rnd (ncard bn) bn order (sub o 1) z1 z1 (length (bn_V bn)) (Qcpower d (length (bn_V bn))) 1%Qc (good_sub _ 1 Go) F1 NDo) as G.
  assert (I2 : forall v, In v order -> in_scopes (fz_phi z1) v) by (intros v Hv; apply SS1; apply Ho in Hv; split; [apply Sc; tauto|tauto]).
  specialize (G I2 H S0). eapply rres_bind; [exact G|]. intros z2 z2' [_ Zf]. rewrite Qcmult_1_l in Zf.
  assert (EM : (nQc (nprod (map (ncard bn) order)) <= nQc (assignments bn))%Qc) by now apply nQc_le.
  assert (EL : (1 <= nQc (assignments bn))%Qc) by (rewrite <- nQc_1; apply nQc_le; lia).
  clear - Hu Zf EM EL LS b1 b2. revert Zf EM EL b1 b2. generalize (nQc (nprod (map (ncard bn) order))) (nQc (assignments bn)) (Qcpower d (length (bn_V bn))).
  intros MM AA DD Zf EM EL b1 b2.
  inversion Zf as [e1 e2 e3 e4 e5|k L M f f' B L' M' r r' Ff Hr e1 e2 e3 e4 e5]; cbn [consolidate]; [reflexivity|].
  destruct Hr as [|k2 L2 M2 g g' B2 L2' M2' r r' Fg Hr]; cbn [consolidate rres]; [|reflexivity].
  rewrite Nat.add_0_r in e1. rewrite Qcmult_1_r in e2, e3.
  destruct Ff as [q1 q2 q3 q4 q5 q6 q7 q8]. rewrite Qcmult_1_r. constructor; auto.
  eapply F2_mono; [|exact q8]. intros x y N. apply (near_mono u Hu k L M); auto; [tauto|lia|apply Qcle_refl|now rewrite e3].
Qed.
End Unit.
