(** LearnLaw.v -- facts for C114. *)
From Verif Require Import Py Num BayesNet Factor SpecFactor Radix SpecInference VE VETotal SpecSample Sampling SampleFacts SampleMain SampleLaws SumOver Data SpecLearn ParamLearn ParamFacts ParamMain
  SpecLaw LawFacts GraphCheck Mst Rounding Properties_Sample LawMain LawUse SpecLearnLaw Properties_Learn Properties_Law.
Open Scope nat_scope.

Lemma NoDup_prefix {A} (l m : list A) : NoDup (l ++ m) -> NoDup l.
Proof. induction l as [|x l IH]; intros H; [constructor|]. inversion H; subst. constructor; [|auto]. intros I. apply H2. apply in_or_app. now left. Qed.
(** ** in a topological network the CPT entries are the conditional probabilities *)
Section Prefix.
Variable bn : bayesnet.
Hypothesis W : wfnet bn.
Hypothesis N : normalised bn.
Hypothesis Top : nodes_topological bn.
Let cp v a := getq (cond_prob bn v a).
Lemma norm_any v a : In v (bn_V bn) -> valid (ncard bn) (nparents bn v) a -> qsum (map (fun x => cp v (upd a v x)) (seq 0 (ncard bn v))) = 1%Qc.
Proof.
  intros Hv V. set (b := fun w => if mem w (nparents bn v) then a w else 0).
  rewrite <- (N v b Hv).
  - apply qsum_map_ext. intros x _. unfold cp. f_equal. apply cond_prob_ext. intros w [<-|Hw]; [now rewrite !upd_same|]. unfold upd. destruct (name_eqb w v); [reflexivity|].
    unfold b. apply mem_In in Hw. now rewrite Hw.
  - intros w Hw. unfold b. destruct (mem w (nparents bn v)) eqn:E; [apply V; now apply mem_In|]. now apply (card_pos bn w W).
Qed.
Lemma prefix_sum (phi : asg -> Qc) : forall q p, bn_V bn = p ++ q -> (forall a b, (forall w, In w p -> a w = b w) -> phi a = phi b) ->
  forall a0, sum_over (ncard bn) (bn_V bn) (fun a => phi a * qprod (map (fun v => cp v a) (bn_V bn)))%Qc a0 =
  sum_over (ncard bn) p (fun a => phi a * qprod (map (fun v => cp v a) p))%Qc a0.
Proof.
  assert (G : forall q p r, bn_V bn = p ++ rev q ++ r -> (forall a b, (forall w, In w p -> a w = b w) -> phi a = phi b) ->
    forall a0, sum_over (ncard bn) (p ++ rev q) (fun a => phi a * qprod (map (fun v => cp v a) (p ++ rev q)))%Qc a0 = sum_over (ncard bn) p (fun a => phi a * qprod (map (fun v => cp v a) p))%Qc a0).
  { induction q as [|v q IH]; intros p r E Hp a0; [cbn [rev]; now rewrite app_nil_r|]. cbn [rev] in *. rewrite <- (IH p ([v] ++ r)); [|now rewrite E, <- !app_assoc|assumption].
    rewrite app_assoc. rewrite sum_over_app. assert (ND := wn_V _ W). assert (E' : bn_V bn = (p ++ rev q) ++ v :: r) by (rewrite E, <- !app_assoc; reflexivity).
    rewrite E' in ND. assert (Nv : ~ In v (p ++ rev q)). { apply NoDup_remove_2 in ND. intros I. apply ND. apply in_or_app. now left. }
    assert (NDp : NoDup (p ++ rev q)) by (exact (NoDup_prefix _ _ ND)).
    assert (Hv : In v (bn_V bn)) by (rewrite E'; apply in_or_app; right; now left).
    apply sum_over_congr. intros b _ Vb. specialize (Vb NDp). cbn [sum_over]. unfold sum_values.
    rewrite (qsum_map_ext _ (fun x => (phi b * qprod (map (fun v => cp v b) (p ++ rev q))) * cp v (upd b v x))%Qc).
    - rewrite qsum_map_mult_l, norm_any; [ring|assumption|]. intros w Hw. apply Vb. now apply (Top _ _ _ E').
    - intros x _. rewrite map_app, qprod_app. cbn [map qprod fold_right]. rewrite (Hp (upd b v x) b).
      2:{ intros w Hw. apply upd_other. intros ->. apply Nv. apply in_or_app. now left. }
      replace (map (fun v0 => cp v0 (upd b v x)) (p ++ rev q)) with (map (fun v0 => cp v0 b) (p ++ rev q)); [unfold qprod; ring|].
      apply map_ext_in. intros w Hw. unfold cp. f_equal. apply cond_prob_ext. intros z Hz. symmetry. apply upd_other. intros ->.
      apply in_split in Hw as (p1 & p2 & Ep). apply Nv. destruct Hz as [->|Hz]; [rewrite Ep; apply in_or_app; right; now left|].
      assert (I := Top p1 w (p2 ++ v :: r) ltac:(rewrite E', Ep, <- app_assoc; reflexivity)). rewrite Ep. apply in_or_app. left. now apply I. }
  intros q p E Hp a0. assert (X := G (rev q) p []). rewrite rev_involutive, app_nil_r, <- E in X. now apply X.
Qed.
Lemma sum_over_indep cd vs phi c : forall a, (forall b, phi b = c * phi b)%Qc -> sum_over cd vs phi a = (c * sum_over cd vs phi a)%Qc.
Proof. intros a H. rewrite <- sum_over_scale. apply sum_over_congr. intros b _ _. apply H. Qed.
Lemma match_on_spec vs a b : match_on vs a b = true <-> forall w, In w vs -> b w = a w.
Proof. unfold match_on. rewrite forallb_forall. split; intros H w Hw; specialize (H w Hw); now apply Nat.eqb_eq. Qed.
Lemma match_on_ext vs a b b' : (forall w, In w vs -> b w = b' w) -> match_on vs a b = match_on vs a b'.
Proof.
  intros H. induction vs as [|w vs IH]; [reflexivity|]. unfold match_on in *. cbn [forallb]. rewrite (H w) by (now left). f_equal. apply IH. intros; apply H; now right.
Qed.
Lemma cpt_is_conditional v a : In v (bn_V bn) -> valid (ncard bn) (v :: nparents bn v) a ->
  prob_of bn (match_on (v :: nparents bn v) a) = (cp v a * prob_of bn (match_on (nparents bn v) a))%Qc.
Proof.
  intros Hv Va. apply in_split in Hv as Hs. destruct Hs as (p & q & E). assert (I := Top p v q E). assert (ND := wn_V _ W). rewrite E in ND.
  assert (Nv : ~ In v p). { apply NoDup_remove_2 in ND. intros J. apply ND. apply in_or_app. now left. }
  assert (NDp : NoDup p) by (exact (NoDup_prefix _ _ ND)).
  assert (NDv : NoDup (v :: nparents bn v)) by (now apply (wn_scope _ W)). inversion NDv as [|? ? Nvp _]; subst.
  set (ph := fun vs b => if match_on vs a b then 1%Qc else 0%Qc).
  assert (PH : forall vs, prob_of bn (match_on vs a) = sum_over (ncard bn) (bn_V bn) (fun b => ph vs b * qprod (map (fun w => cp w b) (bn_V bn)))%Qc (fun _ => 0)).
  { intros vs. unfold prob_of. apply sum_over_congr. intros b _ _. unfold ph, joint, cp. destruct (match_on vs a b); ring. }
  rewrite !PH.
  rewrite (prefix_sum (ph (v :: nparents bn v)) q (p ++ [v])).
  2:{ rewrite E, <- app_assoc. reflexivity. }
  2:{ intros b b' H. unfold ph. rewrite (match_on_ext (v :: nparents bn v) a b b'); [reflexivity|]. intros w [<-|Hw]; apply H; apply in_or_app; [right; now left|left; now apply I]. }
  rewrite (prefix_sum (ph (nparents bn v)) (v :: q) p E).
  2:{ intros b b' H. unfold ph. rewrite (match_on_ext (nparents bn v) a b b'); [reflexivity|]. intros w Hw; apply H; now apply I. }
  rewrite sum_over_app, <- sum_over_scale. apply sum_over_congr. intros b _ Vb. cbn [sum_over]. unfold sum_values.
  rewrite (qsum_map_ext _ (fun x => if a v =? x then cp v a * (ph (nparents bn v) b * qprod (map (fun w => cp w b) p)) else 0)%Qc).
  - apply qsum_delta. apply Va. now left.
  - intros x _. rewrite map_app, qprod_app. cbn [map qprod fold_right].
    replace (map (fun w => cp w (upd b v x)) p) with (map (fun w => cp w b) p).
    2:{ apply map_ext_in. intros w Hw. unfold cp. f_equal. apply cond_prob_ext. intros z Hz. symmetry. apply upd_other. intros ->.
        apply in_split in Hw as (p1 & p2 & Ep). apply Nv. destruct Hz as [->|Hz]; [rewrite Ep; apply in_or_app; right; now left|].
        assert (J := Top p1 w (p2 ++ v :: q) ltac:(rewrite E, Ep, <- app_assoc; reflexivity)). rewrite Ep. apply in_or_app. left. now apply J. }
    unfold ph. unfold match_on at 1. cbn [forallb]. rewrite upd_same. fold (match_on (nparents bn v) a (upd b v x)).
    rewrite (match_on_ext (nparents bn v) a (upd b v x) b) by (intros w Hw; apply upd_other; intros ->; contradiction).
    rewrite (Nat.eqb_sym x). destruct (Nat.eqb_spec (a v) x) as [Ex|Ex]; cbn [andb]; [|ring].
    destruct (match_on (nparents bn v) a b) eqn:Mt; [|ring].
    replace (cp v (upd b v x)) with (cp v a); [unfold qprod; ring|]. unfold cp. f_equal. apply cond_prob_ext. intros w [<-|Hw]; [now rewrite upd_same|].
    rewrite upd_other by (intros ->; contradiction). symmetry. now apply (proj1 (match_on_spec _ _ _) Mt).
Qed.
End Prefix.

(** ** ratios of counts over independent rows *)
Definition count_rows (s : nat -> asg) (n : nat) (e : asg -> bool) : nat := length (filter (fun i => e (s i)) (seq 0 n)).
Definition bext (bn : bayesnet) (e : asg -> bool) : Prop := forall a b, (forall v, In v (bn_V bn) -> a v = b v) -> e a = e b.
Lemma ratio_law bn M d n (e1 e0 : asg -> bool) t (P : list (list nat) -> bool) : wfnet bn -> nonneg_net bn -> normalised bn -> nodes_topological bn -> denominator bn M -> positions d ->
  bext bn e1 -> bext bn e0 -> (forall a, e1 a = true -> e0 a = true) -> 0 < n -> (0 < t)%Qc -> (0 < prob_of bn e0)%Qc ->
  let A := prob_of bn e0 in let q := (prob_of bn e1 / A)%Qc in
  (forall c, In c (cells M n (length (bn_V bn))) -> P c = true -> forall s, (forall i, i < n -> ancestral bn (draws M d c i) (s i)) ->
     0 < count_rows s n e0 -> (nQc n * A < nQc (count_rows s n e0) * Q2Qc 2)%Qc ->
     ~ (nQc (count_rows s n e1) / nQc (count_rows s n e0) - q < t /\ q - nQc (count_rows s n e1) / nQc (count_rows s n e0) < t)%Qc) ->
  (fraction (cells M n (length (bn_V bn))) P <= Q2Qc 4 * (1 + q * (1 - q) / (t * t)) / (nQc n * A))%Qc.
Proof.
  intros W NN N Top Den D B1 B0 Imp Hn Ht HA A q HP.
  assert (ANZ : A <> 0%Qc) by (intros Z; fold A in HA; rewrite Z in HA; discriminate).
  assert (TNZ : t <> 0%Qc) by (intros Z; rewrite Z in Ht; discriminate).
  assert (NZ := nQc_nz n Hn). assert (Np := nQc_pos n Hn).
  set (Z := fun a => if e0 a then 1%Qc else 0%Qc). set (X := fun a => if e1 a then 1%Qc else 0%Qc). set (Y := fun a => (X a - q * Z a)%Qc).
  assert (EZ : exton bn Z) by (intros a b H; unfold Z; now rewrite (B0 a b H)).
  assert (EY : exton bn Y) by (intros a b H; unfold Y, X; now rewrite (EZ a b H), (B1 a b H)).
  assert (mu0 : sum_over (ncard bn) (bn_V bn) (fun a => joint bn a * Z a)%Qc (fun _ => 0) = A).
  { unfold A, prob_of. apply sum_over_congr. intros a _ _. unfold Z. destruct (e0 a); ring. }
  assert (mu1 : sum_over (ncard bn) (bn_V bn) (fun a => joint bn a * X a)%Qc (fun _ => 0) = (q * A)%Qc).
  { transitivity (prob_of bn e1); [|unfold q; field; assumption]. unfold prob_of. apply sum_over_congr. intros a _ _. unfold X. destruct (e1 a); ring. }
  assert (F0 : (fraction (cells M n (length (bn_V bn))) (fun c => off_by (A / Q2Qc 2) (qsum (map (fun i => rowval bn M [] (d i) Z (nth i c [])) (seq 0 n)) / nQc n) A) <= A / nQc n / (A / Q2Qc 2 * (A / Q2Qc 2)))%Qc).
  { apply (mean_cheb bn M d [] Z A A (A / Q2Qc 2)%Qc n); auto; [apply ge_nil| | |].
    - assert (H2 : (A / Q2Qc 2 * Q2Qc 2 = A)%Qc) by (field; discriminate). fold A in HA. rewrite <- H2 in HA. revert HA. generalize (A / Q2Qc 2)%Qc. intros; qclra.
    - intros i. now rewrite (rowval_nil_average bn M W NN N Den d D i Z).
    - intros i. rewrite (rowval_nil_average bn M W NN N Den d D i).
      rewrite (sum_over_congr _ _ _ (fun a => (1 - A - A) * (joint bn a * Z a) + A * A * joint bn a)%Qc) by (intros a _ _; unfold Z; destruct (e0 a); ring).
      rewrite sum_over_plus, !sum_over_scale, mu0, (total_one bn M W NN N Top Den d D). generalize A. intros; qcnra. }
  set (e1' := (t * A / Q2Qc 2)%Qc).
  assert (Pe1 : (0 < e1')%Qc).
  { assert (H2 : (e1' * Q2Qc 2 = t * A)%Qc) by (unfold e1'; field; discriminate). assert (H3 : (0 < t * A)%Qc) by (fold A in HA; revert Ht HA; generalize A; intros; qcnra). rewrite <- H2 in H3. revert H3. generalize e1'. intros; qclra. }
  assert (F1 : (fraction (cells M n (length (bn_V bn))) (fun c => off_by e1' (qsum (map (fun i => rowval bn M [] (d i) Y (nth i c [])) (seq 0 n)) / nQc n) 0) <= A * (q * (1 - q)) / nQc n / (e1' * e1'))%Qc).
  { apply (mean_cheb bn M d [] Y 0%Qc (A * (q * (1 - q)))%Qc e1' n); auto; [apply ge_nil| |].
    - intros i. rewrite (rowval_nil_average bn M W NN N Den d D i Y). rewrite (sum_over_congr _ _ _ (fun a => joint bn a * X a + - q * (joint bn a * Z a))%Qc) by (intros a _ _; unfold Y; ring).
      rewrite sum_over_plus, sum_over_scale, mu1, mu0. ring.
    - intros i. rewrite (rowval_nil_average bn M W NN N Den d D i). rewrite (sum_over_congr _ _ _ (fun a => (1 - q - q) * (joint bn a * X a) + q * q * (joint bn a * Z a))%Qc).
      + rewrite sum_over_plus, !sum_over_scale, mu1, mu0. replace (A * (q * (1 - q)))%Qc with ((1 - q - q) * (q * A) + q * q * A)%Qc by ring. apply Qcle_refl.
      + intros a _ _. unfold Y, X, Z. specialize (Imp a). destruct (e1 a); [rewrite Imp by reflexivity; ring|]. destruct (e0 a); ring. }
  replace (Q2Qc 4 * (1 + q * (1 - q) / (t * t)) / (nQc n * A))%Qc with (A / nQc n / (A / Q2Qc 2 * (A / Q2Qc 2)) + A * (q * (1 - q)) / nQc n / (e1' * e1'))%Qc.
  2:{ unfold e1'. replace (Q2Qc 4) with (Q2Qc 2 * Q2Qc 2)%Qc by (apply Qc_is_canon; reflexivity). field. repeat split; auto; discriminate. }
  eapply Qcle_trans; [|apply Qcplus_le_compat; [exact F0|exact F1]].
  apply fraction_or; [now apply cells_ne|]. intros c Hc Pc. destruct (off_by (A / Q2Qc 2) _ A) eqn:O0; [now left|]. right.
  destruct (off_by e1' _ 0) eqn:O1; [reflexivity|exfalso]. apply off_false in O0 as [_ O0]. apply off_false in O1 as [O1 O1'].
  destruct (forward_ok bn id_oracle (draws M d c) n (sm bn W NN N) Top (draws_unit bn M Den d D n c Hc) Hn) as (s & Hs & _).
  assert (Row : forall g i, exton bn g -> i < n -> rowval bn M [] (d i) g (nth i c []) = g (s i)).
  { intros g i Eg Hi. assert (An := Hs i Hi). apply (rowval_ok bn M [] W NN N Top Den (ge_nil bn) (d i) g (nth i c []) (s i) (D i)); [now apply (cells_row bn M n)|assumption|now apply (ancestral_valid _ _ _ An)|now apply weighted_nil]. }
  assert (Cnt : forall e, nQc (count_rows s n e) = qsum (map (fun i => if e (s i) then 1%Qc else 0%Qc) (seq 0 n))).
  { intros e. unfold count_rows. generalize (seq 0 n). intros is. induction is as [|i is IH]; [reflexivity|]. cbn [filter map qsum fold_right]. unfold qsum in IH. destruct (e (s i)); [cbn [length]; now rewrite nQc_S, IH|]. rewrite IH. ring. }
  assert (T0 : qsum (map (fun i => rowval bn M [] (d i) Z (nth i c [])) (seq 0 n)) = nQc (count_rows s n e0)).
  { rewrite Cnt. apply qsum_map_ext. intros i Hi. apply in_seq in Hi. apply Row; [assumption|lia]. }
  assert (T1 : qsum (map (fun i => rowval bn M [] (d i) Y (nth i c [])) (seq 0 n)) = (nQc (count_rows s n e1) - q * nQc (count_rows s n e0))%Qc).
  { rewrite !Cnt. replace (q * qsum (map (fun i => if e0 (s i) then 1%Qc else 0%Qc) (seq 0 n)))%Qc with (- (- q * qsum (map (fun i => if e0 (s i) then 1%Qc else 0%Qc) (seq 0 n))))%Qc by ring.
    rewrite <- qsum_map_mult_l. transitivity (qsum (map (fun i => (if e1 (s i) then 1 else 0) + - q * (if e0 (s i) then 1 else 0))%Qc (seq 0 n))).
    - apply qsum_map_ext. intros i Hi. apply in_seq in Hi. rewrite (Row Y i EY ltac:(lia)). unfold Y, X, Z. ring.
    - rewrite qsum_map_plus. ring. }
  rewrite T0 in O0. rewrite T1 in O1, O1'. specialize (HP c Hc Pc s Hs). revert HP O0 O1 O1'.
  assert (PosN : (0 < nQc (count_rows s n e0))%Qc -> 0 < count_rows s n e0) by (intros H; destruct (count_rows s n e0); [discriminate|lia]).
  revert PosN. generalize (nQc (count_rows s n e0)) (nQc (count_rows s n e1)). intros total wh PosN HP O0 O1 O1'.
  assert (Tb : (nQc n * A < total * Q2Qc 2)%Qc).
  { assert (H : (total / nQc n * nQc n = total)%Qc) by (field; assumption). assert (B : (A / Q2Qc 2 * Q2Qc 2 = A)%Qc) by (field; discriminate).
    rewrite <- H. revert O0 Np. rewrite <- B at 1 3. generalize (total / nQc n)%Qc (A / Q2Qc 2)%Qc (nQc n). intros a b m H1 H2. qcnra. }
  assert (Tp : (0 < total)%Qc) by (fold A in HA; revert Tb HA Np; generalize total A (nQc n); intros a b m; intros; qcnra).
  assert (TZ : total <> 0%Qc) by (intros Z0; rewrite Z0 in Tp; discriminate).
  assert (Db : (wh - q * total < t * total /\ q * total - wh < t * total)%Qc).
  { assert (H : ((wh - q * total) / nQc n * nQc n = wh - q * total)%Qc) by (field; assumption). assert (B : (e1' * Q2Qc 2 = t * A)%Qc) by (unfold e1'; field; discriminate).
    assert (C : (t * (nQc n * A) < t * (total * Q2Qc 2))%Qc) by (revert Tb Ht; generalize (nQc n * A)%Qc (total * Q2Qc 2)%Qc; intros; qcnra).
    replace (t * (nQc n * A))%Qc with (nQc n * (e1' * Q2Qc 2))%Qc in C by (rewrite B; ring).
    replace (t * (total * Q2Qc 2))%Qc with ((t * total) * Q2Qc 2)%Qc in C by ring.
    replace (q * total - wh)%Qc with (- (wh - q * total))%Qc by ring. rewrite <- H.
    revert O1 O1' C Np. generalize ((wh - q * total) / nQc n)%Qc (t * total)%Qc e1' (nQc n). intros a b e m H1 H2 H3 H4. split; qcnra. }
  apply HP; [now apply PosN|exact Tb|].
  assert (H : (wh / total * total = wh)%Qc) by (field; assumption). rewrite <- H in Db. revert Db Tp. generalize (wh / total)%Qc total. intros a b [H1 H2] H3. split; qcnra.
Qed.
