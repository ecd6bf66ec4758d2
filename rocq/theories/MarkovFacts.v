(** MarkovFacts.v -- sums over ancestral sets, and the factorisation behind conditional independence. *)
From Verif Require Import Py Num BayesNet Factor SpecFactor Radix SumOver Rounding SpecInference VE VETotal CliqueBP SpecMarkov.
Open Scope nat_scope.

(** ** closures *)
Lemma closure_exists (step : name -> list name) V t : NoDup V -> (forall v, In v V -> incl (step v) V) -> incl t V ->
  exists R, NoDup R /\ incl R V /\ incl t R /\ (forall v, In v R -> incl (step v) R) /\
    forall w, In w R -> exists s, In s t /\ clos_refl_trans _ (fun a b => In b (step a)) s w.
Proof.
  intros NV Cl Ht.
  assert (G : forall k R, length V - length R <= k -> NoDup R -> incl R V -> incl t R -> (forall w, In w R -> exists s, In s t /\ clos_refl_trans _ (fun a b => In b (step a)) s w) ->
    exists R', NoDup R' /\ incl R' V /\ incl t R' /\ (forall v, In v R' -> incl (step v) R') /\ forall w, In w R' -> exists s, In s t /\ clos_refl_trans _ (fun a b => In b (step a)) s w).
  { induction k as [|k IH]; intros R L N I T P.
    - exists R. split; [assumption|]. split; [assumption|]. split; [assumption|]. split; [|assumption].
      assert (incl V R). { apply NoDup_length_incl; [assumption|lia|assumption]. } intros v Hv w Hw. apply H. now apply (Cl v (I v Hv)).
    - destruct (find (fun v => negb (forallb (fun w => mem w R) (step v))) R) as [v|] eqn:F.
      + apply find_some in F as [Hv F]. apply negb_true_iff in F.
        assert (exists w, In w (step v) /\ ~ In w R) as (w & Hw & Nw).
        { clear -F. induction (step v) as [|w l IHl]; [discriminate|]. cbn [forallb] in F. destruct (mem_spec w R) as [M|M]; [|exists w; split; [now left|exact M]].
          destruct (IHl F) as (u & Hu & Nu). exists u. split; [now right|exact Nu]. }
        assert (Iw : In w V) by (now apply (Cl v (I v Hv))).
        apply (IH (w :: R)).
        * cbn [length]. lia.
        * now constructor.
        * intros u [<-|Hu]; auto.
        * intros u Hu. right. auto.
        * intros u [<-|Hu]; [|auto]. destruct (P v Hv) as (s & Hs & Ps). exists s. split; [exact Hs|]. eapply rt_trans; [exact Ps|]. now apply rt_step.
      + exists R. split; [assumption|]. split; [assumption|]. split; [assumption|]. split; [|assumption]. intros v Hv w Hw.
        apply (find_none _ _ F) in Hv. apply negb_false_iff in Hv. rewrite forallb_forall in Hv. apply mem_In. now apply Hv. }
  apply (G (length V) (nodup name_eq_dec t)); [lia|apply NoDup_nodup|intros v Hv; apply nodup_In in Hv; auto|intros v Hv; now apply nodup_In|].
  intros w Hw. apply nodup_In in Hw. exists w. split; [assumption|apply rt_refl].
Qed.

Lemma nodup_app_l {A} (p q : list A) : NoDup (p ++ q) -> NoDup p.
Proof. induction p as [|x p IH]; intros H; [constructor|]. inversion H; subst. constructor; [intros I; apply H2; apply in_or_app; now left|auto]. Qed.
Lemma nodup_app_r {A} (p q : list A) : NoDup (p ++ q) -> NoDup q.
Proof. induction p as [|x p IH]; intros H; [exact H|]. inversion H; subst. auto. Qed.

(** ** sums *)
Lemma sum_over_dep cd P phi (D : name -> Prop) : (forall a b, (forall w, D w -> a w = b w) -> phi a = phi b) ->
  forall a b, (forall w, D w -> ~ In w P -> a w = b w) -> sum_over cd P phi a = sum_over cd P phi b.
Proof.
  intros H. induction P as [|v r IH]; intros a b E; cbn [sum_over]; [apply H; intros w Dw; apply E; [exact Dw|intros []]|].
  unfold sum_values. apply qsum_map_ext. intros x _. apply IH. intros w Dw Nw. unfold upd. destruct (name_eqb_spec w v) as [-> |N]; [reflexivity|].
  apply E; [exact Dw|]. intros [<-|I]; [congruence|contradiction].
Qed.
Lemma pjoint_dep bn vs a b : (forall v w, In v vs -> In w (v :: nparents bn v) -> a w = b w) -> pjoint bn vs a = pjoint bn vs b.
Proof. intros H. unfold pjoint. apply qprod_map_ext. intros v Hv. f_equal. apply cond_prob_ext. intros w Hw. now apply (H v). Qed.
Lemma pjoint_app bn p q a : pjoint bn (p ++ q) a = (pjoint bn p a * pjoint bn q a)%Qc.
Proof. unfold pjoint. now rewrite map_app, qprod_app. Qed.
Lemma pjoint_perm bn p q a : Permutation p q -> pjoint bn p a = pjoint bn q a.
Proof. intros P. unfold pjoint. apply qprod_perm. now apply Permutation_map. Qed.
Lemma filter_split {A} (f : A -> bool) l : Permutation l (filter f l ++ filter (fun x => negb (f x)) l).
Proof.
  induction l as [|x l IH]; [constructor|]. cbn [filter]. destruct (f x); cbn [negb app]; [now constructor|]. apply Permutation_cons_app. exact IH.
Qed.

(** summing out nodes that come after their parents and are nobody else's parents *)
Lemma tail_sum bn : wfnet bn -> normalised bn -> forall q p r, Permutation ((p ++ q) ++ r) (bn_V bn) ->
  (forall v, In v p -> forall w, In w q -> ~ In w (nparents bn v)) -> (forall q1 v q2, q = q1 ++ v :: q2 -> incl (nparents bn v) (p ++ q1)) ->
  forall a, valid (ncard bn) (bn_V bn) a -> sum_over (ncard bn) q (pjoint bn (p ++ q)) a = pjoint bn p a.
Proof.
  intros W N q. induction q as [|v q IH] using rev_ind; intros p r P Pp T a Va; [now rewrite app_nil_r|].
  assert (ND : NoDup ((p ++ q ++ [v]) ++ r)) by (eapply Permutation_NoDup; [symmetry; exact P|apply W]).
  assert (Hv : In v (bn_V bn)) by (apply (Permutation_in _ P); rewrite !in_app_iff; simpl; auto).
  assert (Nv : ~ In v (p ++ q)). { intros H. rewrite app_assoc, <- (app_assoc (p ++ q)) in ND. simpl in ND. apply NoDup_remove_2 in ND. apply ND. apply in_or_app. auto. }
  rewrite sum_over_app. rewrite <- (IH p (v :: r)) with (a := a); [| | | |assumption].
  2:{ rewrite <- P. rewrite <- !app_assoc. reflexivity. }
  2:{ intros u Hu w Hw. apply Pp; [assumption|]. apply in_or_app. auto. }
  2:{ intros q1 u q2 E. apply (T q1 u (q2 ++ [v])). rewrite E, <- app_assoc. reflexivity. }
  apply sum_over_congr. intros b Hb Vb. cbn [sum_over]. unfold sum_values.
  assert (NDq : NoDup q). { apply (nodup_app_l q [v]). apply (nodup_app_r p). apply (nodup_app_l _ r). exact ND. }
  specialize (Vb NDq).
  transitivity (qsum (map (fun x => pjoint bn (p ++ q) b * getq (cond_prob bn v (upd b v x)))%Qc (seq 0 (ncard bn v)))).
  - apply qsum_map_ext. intros x _. rewrite app_assoc, pjoint_app. f_equal.
    + apply pjoint_dep. intros u w Hu Hw. apply upd_other. intros ->. destruct Hw as [->|Hw]; [contradiction|].
      apply in_app_or in Hu as [Hu|Hu]; [apply (Pp u Hu v); [apply in_or_app; simpl; auto|exact Hw]|].
      apply in_split in Hu as (q1 & q2 & ->). apply Nv. assert (In v (p ++ q1)) by (apply (T q1 u (q2 ++ [v])); [now rewrite <- app_assoc|exact Hw]).
      rewrite in_app_iff in *. rewrite in_app_iff. tauto.
    + unfold pjoint. cbn [map qprod fold_right]. ring.
  - rewrite qsum_map_mult_l.
    assert (VB : valid (ncard bn) (bn_V bn) b). { intros w Hw. destruct (in_dec name_eq_dec w q) as [I|I]; [now apply Vb|]. rewrite Hb by assumption. now apply Va. }
    rewrite (N v b Hv VB). ring.
Qed.

(** the sum over an ancestral set *)
Definition psum (bn : bayesnet) (A : list name) (c : asg -> bool) : Qc :=
  sum_over (ncard bn) A (fun a => if c a then pjoint bn A a else 0%Qc) (fun _ => 0).
Lemma cond_ext (c : asg -> bool) bn A : (forall a b, (forall w, a w = b w) -> c a = c b) -> ext (fun a => if c a then pjoint bn A a else 0%Qc).
Proof. intros H a b E. rewrite (H a b E). now rewrite (pjoint_ext bn A a b E). Qed.
Lemma prob_psum bn c : prob_of bn c = psum bn (bn_V bn) c.
Proof. reflexivity. Qed.
Lemma ancestral_prob bn A c : wfnet bn -> normalised bn -> acyclic_net bn -> ancestral_set bn A ->
  (forall a b, (forall w, In w A -> a w = b w) -> c a = c b) -> prob_of bn c = psum bn A c.
Proof.
  intros W N (ord & P & T) (NA & IA & CA) Hc. unfold prob_of, psum.
  assert (Hc' : forall a b, (forall w, a w = b w) -> c a = c b) by (intros a b H; apply Hc; auto).
  set (p := filter (fun v => mem v A) ord). set (q := filter (fun v => negb (mem v A)) ord).
  assert (NDo : NoDup ord) by (eapply Permutation_NoDup; [symmetry; exact P|apply W]).
  assert (Po : Permutation ord (p ++ q)) by apply filter_split.
  assert (PA : Permutation p A). { apply NoDup_Permutation; [now apply NoDup_filter|assumption|]. intros w. unfold p. rewrite filter_In, mem_In. split; [tauto|]. intros H. split; [|exact H]. apply (Permutation_in w (Permutation_sym P)). auto. }
  assert (PV : Permutation (p ++ q) (bn_V bn)) by (rewrite <- Po; exact P).
  rewrite (sum_over_perm _ _ (p ++ q)); [|now apply (cond_ext c bn (bn_V bn))|apply W|now symmetry].
  rewrite (sum_over_perm _ A p); [|now apply cond_ext|assumption|now symmetry].
  rewrite sum_over_app. apply sum_over_congr. intros b Hb Vb.
  assert (NDp : NoDup p) by now apply NoDup_filter. specialize (Vb NDp).
  transitivity (sum_over (ncard bn) q (fun a => if c b then pjoint bn (p ++ q) a else 0%Qc) b).
  { apply sum_over_congr. intros a Ha _. rewrite (Hc a b). 2:{ intros w Hw. apply Ha. unfold q. rewrite filter_In. intros [_ M]. apply mem_In in Hw. now rewrite Hw in M. }
    destruct (c b); [|reflexivity]. symmetry. now apply pjoint_perm. }
  destruct (c b); [|apply sum_over_zero; reflexivity]. rewrite (pjoint_perm bn A p) by now symmetry.
  apply (tail_sum bn W N q p []).
  - now rewrite app_nil_r.
  - intros v Hv w Hw I. unfold p, q in *. apply filter_In in Hv as [_ Hv], Hw as [_ Hw]. apply mem_In in Hv. apply negb_true_iff, mem_false in Hw. apply Hw. now apply (CA v).
  - intros q1 v q2 E u Hu. unfold q in E. assert (Hv : In v ord) by (assert (X : In v (q1 ++ v :: q2)) by (apply in_or_app; simpl; auto); rewrite <- E in X; now apply filter_In in X).
    apply in_split in Hv as (o1 & o2 & Eo). assert (Hu' : In u o1) by (now apply (T o1 v o2 Eo)).
    destruct (mem u A) eqn:Mu.
    + apply in_or_app. left. unfold p. apply filter_In. split; [|exact Mu]. rewrite Eo. apply in_or_app. auto.
    + apply in_or_app. right. assert (Nvo : ~ In v o1 /\ ~ In v o2). { rewrite Eo in NDo. apply NoDup_remove_2 in NDo. rewrite in_app_iff in NDo. tauto. }
      assert (NDq : NoDup (q1 ++ v :: q2)) by (rewrite <- E; now apply NoDup_filter).
      assert (Mv : mem v A = false). { assert (X : In v (q1 ++ v :: q2)) by (apply in_or_app; simpl; auto). rewrite <- E in X. apply filter_In in X as [_ X]. now apply negb_true_iff in X. }
      rewrite Eo, filter_app in E. cbn [filter] in E. rewrite Mv in E. cbn [negb] in E.
      assert (Q : q1 = filter (fun v => negb (mem v A)) o1).
      { clear - E Nvo NDq. set (f1 := filter _ o1) in *. assert (Nf : ~ In v f1) by (unfold f1; rewrite filter_In; tauto). assert (Nq : ~ In v q1). { apply NoDup_remove_2 in NDq. intros H. apply NDq. apply in_or_app. auto. }
        clearbody f1. revert f1 E Nf. clear NDq. induction q1 as [|x q1 IH]; intros [|y f1] E Nf; cbn [app] in E; [reflexivity| | |].
        - injection E as -> _. exfalso. apply Nf. now left.
        - injection E as <- _. exfalso. apply Nq. now left.
        - injection E as -> E. f_equal. apply IH; [intros H; apply Nq; now right|exact E|intros H; apply Nf; now right]. }
      rewrite Q. apply filter_In. split; [exact Hu'|]. now rewrite Mu.
  - intros w Hw. destruct (in_dec name_eq_dec w p) as [I|I]; [now apply Vb|]. rewrite Hb by assumption. now apply valid_zero.
Qed.

(** ** the factorisation *)
Definition s0 (bn : bayesnet) (ev : list (name * name)) : asg := asg_of bn ev.
Lemma agrees_s0 bn ev a w : NoDup (map fst ev) -> agrees bn ev a = true -> In w (map fst ev) -> a w = s0 bn ev w.
Proof.
  intros ND Ag Hw. apply in_map_iff in Hw as ([u x] & <- & Hx). cbn [fst]. unfold agrees in Ag. rewrite forallb_forall in Ag. specialize (Ag _ Hx). cbn [fst snd] in Ag.
  unfold s0, asg_of. assert (D : dget ev u = Some x). { clear -ND Hx. induction ev as [|[v y] ev IH]; [destruct Hx|]. cbn [map fst] in ND. inversion ND as [|? ? N1 N2]; subst. cbn [dget]. destruct Hx as [E|Hx].
    - injection E as -> ->. now rewrite name_eqb_refl.
    - destruct (name_eqb_spec u v) as [-> |]; [|auto]. exfalso. apply N1. apply in_map_iff. exists (v, x). auto. }
  rewrite D. destruct (val_index bn u x); [|discriminate]. now apply Nat.eqb_eq.
Qed.
Lemma agrees_dep bn ev a b : (forall w, In w (map fst ev) -> a w = b w) -> agrees bn ev a = agrees bn ev b.
Proof.
  intros H. unfold agrees. induction ev as [|[v x] ev IH]; [reflexivity|]. cbn [forallb fst snd map] in *. rewrite IH by (intros w Hw; apply H; now right). rewrite (H v) by now left. reflexivity.
Qed.
Lemma agrees_app bn ev ev' a : agrees bn (ev ++ ev') a = agrees bn ev a && agrees bn ev' a.
Proof. unfold agrees. apply forallb_app. Qed.

Section Split.
Variables (bn : bayesnet) (A : list name) (ev : list (name * name)) (R : name -> bool).
Hypothesis AN : NoDup A.
Hypothesis AV : forall v, In v A -> incl (nparents bn v) A.
Hypothesis EN : NoDup (map fst ev).
Hypothesis RS : forall w, In w (map fst ev) -> R w = false.
Hypothesis RF : forall c a b, In c A -> In a (c :: nparents bn c) -> In b (c :: nparents bn c) -> R a = true -> R b = true \/ In b (map fst ev).
Let P := filter R A.
Let Q := filter (fun v => negb (R v)) A.
Let touches c := existsb R (c :: nparents bn c).
Let A1 := filter touches A.
Let A2 := filter (fun c => negb (touches c)) A.
Lemma split_sum c1 c2 : (forall a b, (forall w, In w A -> R w = true -> a w = b w) -> c1 a = c1 b) -> (forall a b, (forall w, In w A -> R w = false -> a w = b w) -> c2 a = c2 b) ->
  psum bn A (fun a => c1 a && (agrees bn ev a && c2 a)) =
  (sum_over (ncard bn) P (fun a => if c1 a then pjoint bn A1 a else 0%Qc) (s0 bn ev) *
   sum_over (ncard bn) Q (fun a => if agrees bn ev a && c2 a then pjoint bn A2 a else 0%Qc) (fun _ => 0%nat))%Qc.
Proof.
  intros H1 H2. unfold psum.
  assert (PQ : Permutation A (Q ++ P)) by (rewrite (filter_split R A) at 1; apply Permutation_app_comm).
  assert (J : forall a, pjoint bn A a = (pjoint bn A1 a * pjoint bn A2 a)%Qc) by (intros a; rewrite <- pjoint_app; apply pjoint_perm; apply filter_split).
  rewrite (sum_over_perm _ A (Q ++ P)); [|apply cond_ext; intros a b E; rewrite (agrees_ext bn ev a b E), (H1 a b), (H2 a b) by auto; reflexivity|exact AN|exact PQ].
  rewrite sum_over_app. rewrite Qcmult_comm. rewrite <- sum_over_mul_const. apply sum_over_congr. intros b Hb _.
  assert (D2 : forall a, (forall w, ~ In w P -> a w = b w) -> agrees bn ev a = agrees bn ev b /\ c2 a = c2 b /\ pjoint bn A2 a = pjoint bn A2 b).
  { intros a Ha. assert (NR : forall w, R w = false -> a w = b w) by (intros w Rw; apply Ha; unfold P; rewrite filter_In; intros [_ X]; congruence). split; [apply agrees_dep; auto|]. split; [apply H2; auto|].
    apply pjoint_dep. intros v w Hv Hw. apply NR. unfold A2, touches in Hv. apply filter_In in Hv as [_ Hv]. apply negb_true_iff in Hv. destruct (R w) eqn:Rw; [|reflexivity].
    exfalso. assert (X : existsb R (v :: nparents bn v) = true) by (apply existsb_exists; eauto). congruence. }
  transitivity (sum_over (ncard bn) P (fun a => (if c1 a then pjoint bn A1 a else 0) * (if agrees bn ev b && c2 b then pjoint bn A2 b else 0))%Qc b).
  { apply sum_over_congr. intros a Ha _. destruct (D2 a Ha) as (E1 & E2 & E3). rewrite J, E1, E2, E3. destruct (c1 a), (agrees bn ev b), (c2 b); cbn [andb]; ring. }
  rewrite sum_over_mul_const. destruct (agrees bn ev b) eqn:Ag; cbn [andb]; [|ring]. rewrite Qcmult_comm. f_equal.
  apply (sum_over_dep _ _ _ (fun w => In w A /\ (R w = true \/ In w (map fst ev)))).
  - intros a a' E. rewrite (H1 a a') by (intros w Hw Rw; apply E; auto). destruct (c1 a'); [|reflexivity]. apply pjoint_dep. intros v w Hv Hw. unfold A1, touches in Hv. apply filter_In in Hv as [Hv T].
    apply existsb_exists in T as (u & Hu & Ru). apply E. split; [destruct Hw as [<-|Hw]; [assumption|now apply (AV v Hv)]|]. now apply (RF v u w).
  - intros w [Hw D] Nw. apply agrees_s0; [assumption|assumption|]. destruct D as [Rw|D]; [|exact D]. exfalso. apply Nw. unfold P. apply filter_In. auto.
Qed.
End Split.

(** the evidence cuts the target off *)
Lemma cut_irrelevant bn A ev ev' t : wfnet bn -> NoDup A -> incl A (bn_V bn) -> (forall v, In v A -> incl (nparents bn v) A) ->
  NoDup (map fst (ev ++ ev')) -> In t A -> ~ In t (map fst ev) -> incl (map fst ev') A ->
  (forall w, In w (map fst ev') -> cut bn A (map fst ev) t w) ->
  forall x, (psum bn A (fun a => (a t =? x)%nat && agrees bn (ev ++ ev') a) * psum bn A (agrees bn ev) = psum bn A (fun a => (a t =? x)%nat && agrees bn ev a) * psum bn A (agrees bn (ev ++ ev')))%Qc.
Proof.
  intros W NA IA CA ND Ht Nt Ie' Cut x. set (S := map fst ev).
  set (step := fun a => filter (fun b => negb (mem b S) && existsb (fun c => mem a (c :: nparents bn c) && mem b (c :: nparents bn c)) A) A).
  assert (ST : forall a b, In b (step a) <-> In b A /\ ~ In b S /\ family_link bn A a b).
  { intros a b. unfold step. rewrite filter_In, andb_true_iff, negb_true_iff, mem_false, existsb_exists. unfold family_link. split.
    - intros (H1 & H2 & c & H3 & H4). apply andb_true_iff in H4 as [H4 H5]. rewrite !mem_In in *. eauto 6.
    - intros (H1 & H2 & c & H3 & H4 & H5). split; [exact H1|]. split; [exact H2|]. exists c. split; [exact H3|]. apply andb_true_iff. now rewrite !mem_In. }
  destruct (closure_exists step A [t] NA) as (L & NL & IL & TL & CL & PL); [intros v _ b Hb; now apply ST in Hb|intros v [<-|[]]; exact Ht|].
  assert (PL' : forall w, In w L -> clos_refl_trans _ (fun a b => ~ In b S /\ family_link bn A a b) t w).
  { intros w Hw. destruct (PL w Hw) as (s & [<-|[]] & Ps). clear -Ps ST. induction Ps as [a b H| |a b c H1 IH1 H2 IH2]; [apply rt_step; apply ST in H; tauto|apply rt_refl|eapply rt_trans; eauto]. }
  set (R := fun w => mem w L). assert (ED : NoDup (map fst ev) /\ NoDup (map fst ev')). { rewrite map_app in ND. split; [eapply nodup_app_l; exact ND|eapply nodup_app_r; exact ND]. }
  assert (NS : forall w, In w L -> ~ In w S).
  { intros w Hw. apply PL' in Hw. apply clos_rt_rtn1 in Hw. destruct Hw as [|y z [H _] _]; assumption. }
  assert (RS : forall w, In w (map fst ev) -> R w = false) by (intros w Hw; apply mem_false; intros I; now apply (NS w)).
  assert (RE : forall w, In w (map fst ev') -> R w = false) by (intros w Hw; apply mem_false; intros I; apply (Cut w Hw); now apply PL').
  assert (RF : forall c a b, In c A -> In a (c :: nparents bn c) -> In b (c :: nparents bn c) -> R a = true -> R b = true \/ In b (map fst ev)).
  { intros c a b Hc Ha Hb Ra. apply mem_In in Ra. destruct (in_dec name_eq_dec b (map fst ev)) as [I|I]; [now right|]. left. apply mem_In. apply (CL a Ra). apply ST. split; [|split; [exact I|exists c; auto]].
    destruct Hb as [<-|Hb]; [assumption|now apply (CA c)]. }
  assert (Rt : R t = true) by (apply mem_In; apply TL; now left).
  assert (Sp := split_sum bn A ev R NA CA (proj1 ED) RS RF).
  assert (T1 : forall a b : asg, (forall w, In w A -> R w = true -> a w = b w) -> (a t =? x) = (b t =? x)) by (intros a b H; now rewrite (H t Ht Rt)).
  assert (T0 : forall a b : asg, (forall w, In w A -> R w = true -> a w = b w) -> true = true) by reflexivity.
  assert (E1 : forall a b, (forall w, In w A -> R w = false -> a w = b w) -> agrees bn ev' a = agrees bn ev' b) by (intros a b H; apply agrees_dep; intros w Hw; apply H; auto).
  assert (E0 : forall a b : asg, (forall w, In w A -> R w = false -> a w = b w) -> true = true) by reflexivity.
  assert (PE : forall c c', (forall a, c a = c' a) -> psum bn A c = psum bn A c') by (intros c c' H; unfold psum; apply sum_over_congr; intros b _ _; now rewrite H).
  rewrite (PE (fun a => (a t =? x) && agrees bn (ev ++ ev') a) (fun a => (a t =? x) && (agrees bn ev a && agrees bn ev' a))) by (intros a; now rewrite agrees_app).
  rewrite (PE (agrees bn ev) (fun a => true && (agrees bn ev a && true))) by (intros a; cbn [andb]; now rewrite andb_true_r).
  rewrite (PE (fun a => (a t =? x) && agrees bn ev a) (fun a => (a t =? x) && (agrees bn ev a && true))) by (intros a; now rewrite andb_true_r).
  rewrite (PE (agrees bn (ev ++ ev')) (fun a => true && (agrees bn ev a && agrees bn ev' a))) by (intros a; cbn [andb]; now rewrite agrees_app).
  rewrite (Sp (fun a => a t =? x) (agrees bn ev') T1 E1), (Sp (fun _ => true) (fun _ => true) T0 E0), (Sp (fun a => a t =? x) (fun _ => true) T1 E0), (Sp (fun _ => true) (agrees bn ev') T0 E1). ring.
Qed.
