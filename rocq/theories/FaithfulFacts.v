(** FaithfulFacts.v -- d-separation is a cut among the ancestors; blankets block; separating sets inside blankets. *)
From Verif Require Import Py Num BayesNet SpecFactor SpecGraph SpecInference SpecConstraint SpecMarkov SpecFaithful MarkovFacts MarkovSep ConstraintFacts.
Open Scope nat_scope.

Lemma rank_exists bn : dag_net bn -> exists rank : name -> nat, forall u v, is_parent bn u v -> rank u < rank v.
Proof.
  intros [NV _ (ord & P & T)]. assert (NO : NoDup ord) by (eapply Permutation_NoDup; [symmetry; exact P|exact NV]).
  assert (G : forall l, (forall p v q, l = p ++ v :: q -> incl (nparents bn v) p) -> NoDup l -> exists rank : name -> nat, (forall v, In v l -> rank v < length l) /\ forall u v, In v l -> In u (nparents bn v) -> rank u < rank v).
  { intros l. induction l as [|v l IH] using rev_ind; intros H N; [exists (fun _ => 0); split; intros; contradiction|].
    destruct IH as (rank & B & R).
    - intros p u q E. apply (H p u (q ++ [v])). rewrite E, <- app_assoc. reflexivity.
    - eapply nodup_app_l; exact N.
    - assert (Nv : ~ In v l) by (intros I; apply NoDup_remove_2 in N; rewrite app_nil_r in N; contradiction).
      exists (fun w => if name_eqb w v then length l else rank w). rewrite app_length. cbn [length]. split.
      + intros w Hw. destruct (name_eqb_spec w v); [lia|]. apply in_app_or in Hw as [Hw|[Hw|[]]]; [specialize (B w Hw); lia|congruence].
      + intros u w Hw Hu. destruct (name_eqb_spec w v) as [-> |Ne].
        * assert (Iu : In u l) by (now apply (H l v [])). destruct (name_eqb_spec u v) as [-> |]; [contradiction|now apply B].
        * apply in_app_or in Hw as [Hw|[Hw|[]]]; [|congruence]. assert (Iu : In u l). { apply in_split in Hw as (p & q & ->). apply in_or_app. left. apply (H p w (q ++ [v])); [now rewrite <- app_assoc|exact Hu]. }
          destruct (name_eqb_spec u v) as [-> |]; [contradiction|now apply R]. }
  destruct (G ord T NO) as (rank & _ & R). exists rank. intros u v [Hv Hu]. apply R; [|exact Hu]. now apply (Permutation_in _ (Permutation_sym P)).
Qed.
Lemma ancestor_rank bn (rank : name -> nat) u v : (forall u v, is_parent bn u v -> rank u < rank v) -> ancestor bn u v -> rank u <= rank v.
Proof. intros R H. induction H as [u v H|u|u v w _ IH1 _ IH2]; [apply R in H; lia|lia|lia]. Qed.
Lemma no_cycle bn u v : dag_net bn -> is_parent bn u v -> ancestor bn v u -> False.
Proof. intros D H A. destruct (rank_exists bn D) as (rank & R). apply (ancestor_rank bn rank) in A; [|exact R]. apply R in H. lia. Qed.
Lemma no_self bn v : dag_net bn -> ~ is_parent bn v v.
Proof. intros D H. apply (no_cycle bn v v D H). apply rt_refl. Qed.

Lemma ancestors_in bn T : dag_net bn -> incl T (bn_V bn) -> exists A, ancestral_set bn A /\ incl T A /\ forall v, In v A -> exists s, In s T /\ ancestor bn v s.
Proof.
  intros D IT. destruct (closure_exists (nparents bn) (bn_V bn) T (dn_V _ D) (dn_par _ D) IT) as (A & NA & IA & TA & CA & PA).
  exists A. split; [now split|]. split; [exact TA|]. intros v Hv. destruct (PA v Hv) as (s & Hs & Ps). exists s. split; [exact Hs|].
  assert (Is : In s (bn_V bn)) by auto. apply clos_rt_rt1n in Ps. clear -Ps Is D. induction Ps as [s|s b c H P IH]; [apply rt_refl|].
  eapply rt_trans; [apply IH; now apply (dn_par _ D s)|]. apply rt_step. now split.
Qed.
Lemma ancestral_up bn A u v : ancestral_set bn A -> ancestor bn u v -> In v A -> In u A.
Proof.
  intros (_ & _ & C) H. apply clos_rt_rtn1 in H. induction H as [|v w H P IH]; [auto|]. intros Hw. apply IH. destruct H as [_ H]. now apply (C w).
Qed.

(** ** d-separation and cuts *)
Lemma cut_dsep bn A S t w : ancestral_set bn A -> In t A -> incl S A -> In w A -> ~ In t S -> ~ In w S -> cut bn A S t w -> d_separated bn S t w.
Proof.
  intros HA Ht HS Hw Nt Nw C d Ac. set (R := clos_refl_trans _ (fun a b => ~ In b S /\ family_link bn A a b) t).
  assert (Ext : forall a b c, R a -> In c A -> In a (c :: nparents bn c) -> In b (c :: nparents bn c) -> ~ In b S -> R b).
  { intros a b c Ra Hc Ha Hb Nb. eapply rt_trans; [exact Ra|]. apply rt_step. split; [exact Nb|]. exists c. auto. }
  assert (CA : forall p v, is_parent bn p v -> In v A -> In p A) by (intros p v [_ Hp] Hv; destruct HA as (_ & _ & H); now apply (H v)).
  assert (G : forall v d, active bn S t v d -> match d with
     | Up => In v A /\ (~ In v S -> R v)
     | Down => In v A -> exists pr, is_parent bn pr v /\ R pr end).
  { intros v d'. induction 1 as [|v p Av IH N P|v c Av IH N P|v c Av IH N P|v p s Av IH An Hs P].
    - split; [exact Ht|]. intros _. apply rt_refl.
    - destruct IH as [IA Rv]. split; [now apply (CA p v)|]. intros Np. apply (Ext v p v (Rv N) IA); [now left|right; apply P|exact Np].
    - destruct IH as [IA Rv]. intros _. exists v. split; [exact P|auto].
    - intros Hc. assert (Hv : In v A) by (now apply (CA v c)). destruct (IH Hv) as (pr & Pp & Rp). exists v. split; [exact P|].
      apply (Ext pr v v Rp Hv); [right; apply Pp|now left|exact N].
    - assert (Hv : In v A) by (apply (ancestral_up bn A v s HA An); auto). destruct (IH Hv) as (pr & Pp & Rp). split; [now apply (CA p v)|]. intros Np.
      apply (Ext pr p v Rp Hv); [right; apply Pp|right; apply P|exact Np]. }
  apply G in Ac. apply C. destruct d; [now apply Ac|]. destruct (Ac Hw) as (pr & Pp & Rp). apply (Ext pr w w Rp Hw); [right; apply Pp|now left|exact Nw].
Qed.
Lemma cut_sym bn A S t w : ~ In t S -> ~ In w S -> cut bn A S t w -> cut bn A S w t.
Proof.
  intros Nt Nw C P. apply C. clear C. apply clos_rt_rt1n in P.
  induction P as [|a b t (Nb & c & Hc & Ha & Hb) P IH]; [apply rt_refl|]. eapply rt_trans; [apply IH; assumption|]. apply rt_step. split; [exact Nw|]. exists c. auto.
Qed.
Lemma dsep_iff_cut bn A S t w : ancestral_set bn A -> incl (t :: S ++ [w]) A -> (forall v, In v A -> exists s, In s (t :: S ++ [w]) /\ ancestor bn v s) -> ~ In t S -> ~ In w S ->
  (d_separated bn S t w <-> cut bn A S t w).
Proof.
  intros HA TA PA Nt Nw. assert (Ht : In t A) by (apply TA; now left). assert (Hw : In w A) by (apply TA; right; apply in_or_app; simpl; auto).
  assert (HS : incl S A) by (intros s Hs; apply TA; right; apply in_or_app; auto). split.
  - intros D. apply (dsep_cut bn A S [w] t); auto; [apply HA|apply HA|intros v [<-|[]]; exact D|now left].
  - now apply cut_dsep.
Qed.
Lemma dsep_sym bn S t w : dag_net bn -> In t (bn_V bn) -> In w (bn_V bn) -> incl S (bn_V bn) -> ~ In t S -> ~ In w S -> d_separated bn S t w -> d_separated bn S w t.
Proof.
  intros D Ht Hw HS Nt Nw H. destruct (ancestors_in bn (t :: S ++ [w]) D) as (A & HA & TA & PA); [intros v [<-|Hv]; [exact Ht|]; apply in_app_or in Hv as [Hv|[<-|[]]]; auto|].
  assert (Pm : forall v, In v (t :: S ++ [w]) <-> In v (w :: S ++ [t])) by (intros v; simpl; rewrite !in_app_iff; simpl; tauto).
  apply (dsep_iff_cut bn A) in H; auto. apply (dsep_iff_cut bn A); auto.
  - intros v Hv. apply TA. now apply Pm.
  - intros v Hv. destruct (PA v Hv) as (s & Hs & Ps). exists s. split; [now apply Pm|exact Ps].
  - now apply cut_sym.
Qed.
Lemma active_not_sep bn S t w : dag_net bn -> In t (bn_V bn) -> In w (bn_V bn) -> incl S (bn_V bn) -> ~ In t S -> ~ In w S -> (exists d, active bn S t w d) -> ~ d_separated bn S w t.
Proof. intros D Ht Hw HS Nt Nw (d & A) H. apply dsep_sym in H; auto. now apply (H d). Qed.

(** ** blankets *)
Lemma blanket_nodes bn x y : dag_net bn -> in_blanket bn x y -> In x (bn_V bn) /\ In y (bn_V bn).
Proof.
  intros D [_ [[[H1 H2]|[H1 H2]]|(c & [H1 H2] & [_ H3])]]; (split; [|]); auto; eapply (dn_par _ D); eauto.
Qed.
Lemma blanket_sym bn x y : in_blanket bn x y -> in_blanket bn y x.
Proof. intros [N [[H|H]|(c & H1 & H2)]]; (split; [congruence|]); [left; right; exact H|left; left; exact H|right; exists c; auto]. Qed.
Lemma adjacent_active bn S x y : adjacent bn x y -> ~ In x S -> exists d, active bn S x y d.
Proof. intros [H|H] N; [exists Down; eapply act_up_down|exists Up; eapply act_up_up]; eauto; apply act_start. Qed.
Lemma spouse_active bn S x y c : is_parent bn x c -> is_parent bn y c -> In c S -> ~ In x S -> active bn S x y Up.
Proof. intros H1 H2 Hc N. eapply act_collider; [eapply act_up_down; [apply act_start|exact N|exact H1]|apply rt_refl|exact Hc|exact H2]. Qed.
(** the blanket blocks everything *)
Lemma blanket_blocks bn S x v d : dag_net bn -> (forall y, in_blanket bn x y -> In y S) -> active bn S x v d -> v = x \/ in_blanket bn x v.
Proof.
  intros D B. assert (G : forall v d, active bn S x v d -> (v = x /\ d = Up) \/ (in_blanket bn x v /\ (d = Down -> is_parent bn x v))).
  { intros w e. induction 1 as [|v' p Av IH N P|v' c Av IH N P|v' c Av IH N P|v' p s Av IH An Hs P].
    - now left.
    - destruct IH as [[-> _]|[H _]]; [|exfalso; now apply N, B]. right. split; [|discriminate]. split; [intros ->; now apply (no_self bn x)|]. left. now right.
    - destruct IH as [[-> _]|[H _]]; [|exfalso; now apply N, B]. right. split; [|auto]. split; [intros ->; now apply (no_self bn x)|]. left. now left.
    - destruct IH as [[_ E]|[H _]]; [discriminate|exfalso; now apply N, B].
    - destruct IH as [[_ E]|[H K]]; [discriminate|]. destruct (name_eqb_spec p x) as [-> |Ne]; [now left|]. right. split; [|discriminate]. split; [exact Ne|]. right. exists v'. auto. }
  intros A. destruct (G v d A) as [[-> _]|[H _]]; auto.
Qed.

(** a set inside the blanket of [x] that separates [x] from a non-adjacent [y]; proper when [y] is in the blanket *)
Lemma separating_set bn x y m : dag_net bn -> In x (bn_V bn) -> In y (bn_V bn) -> x <> y -> ~ adjacent bn x y -> (forall v, In v m <-> in_blanket bn x v /\ v <> y) -> NoDup m ->
  exists z, sublist z m /\ d_separated bn z x y /\ (in_blanket bn x y -> length z < length m).
Proof.
  intros D Hx Hy Nxy Na HM Nm. destruct (ancestors_in bn [x; y] D) as (A & HA & TA & PA); [intros v [<-|[<-|[]]]; assumption|].
  assert (Ax : In x A) by (apply TA; simpl; auto). assert (Ay : In y A) by (apply TA; simpl; auto).
  assert (CA : forall p v, is_parent bn p v -> In v A -> In p A) by (intros p v [_ Hp] Hv; destruct HA as (_ & _ & H); now apply (H v)).
  assert (Common : forall c, is_parent bn x c -> is_parent bn y c -> ~ In c A).
  { intros c H1 H2 I. destruct (PA c I) as (s & [<-|[<-|[]]] & Ps); [now apply (no_cycle bn x c)|now apply (no_cycle bn y c)]. }
  set (z := filter (fun v => mem v A) m). exists z. assert (Hz : forall v, In v z <-> in_blanket bn x v /\ v <> y /\ In v A) by (intros v; unfold z; rewrite filter_In, mem_In, HM; tauto).
  split; [clear; unfold z; induction m as [|v m IH]; [constructor|]; cbn [filter]; destruct (mem v A); now constructor|]. split.
  - assert (G : forall v d, active bn z x v d -> (v = x /\ d = Up) \/ (In v z /\ (d = Down -> is_parent bn x v)) \/ (d = Down /\ ~ In v A)).
    { intros w e. induction 1 as [|v p Av IH N P|v c Av IH N P|v c Av IH N P|v p s Av IH An Hs P].
      - now left.
      - destruct IH as [[-> _]|[[I _]|[E _]]]; [|contradiction|discriminate]. right. left. split; [|discriminate]. apply Hz.
        split; [split; [intros ->; now apply (no_self bn x)|left; now right]|]. split; [intros ->; apply Na; now right|]. now apply (CA p x).
      - destruct IH as [[-> _]|[[I _]|[E _]]]; [|contradiction|discriminate]. right. destruct (in_dec name_eq_dec c A) as [I|I]; [left|right; auto].
        split; [|auto]. apply Hz. split; [split; [intros ->; now apply (no_self bn x)|left; now left]|]. split; [intros ->; apply Na; now left|exact I].
      - destruct IH as [[_ E]|[[I _]|[_ I]]]; [discriminate|contradiction|]. right. right. split; [reflexivity|]. intros Ic. apply I. now apply (CA v c).
      - destruct IH as [[_ E]|[[I K]|[_ I]]]; [discriminate| |].
        + specialize (K eq_refl). apply Hz in I as (_ & _ & Iv). destruct (name_eqb_spec p x) as [-> |Ne]; [now left|]. right. left. split; [|discriminate]. apply Hz.
          split; [split; [exact Ne|right; exists v; auto]|]. split; [intros ->; exact (Common v K P Iv)|now apply (CA p v)].
        + exfalso. apply I. apply (ancestral_up bn A v s HA An). now apply Hz. }
    intros d Ac. destruct (G y d Ac) as [[E _]|[[I _]|[_ I]]]; [congruence| |contradiction]. apply Hz in I. tauto.
  - intros [_ [H|(c & H1 & H2)]]; [contradiction|]. assert (Ic : In c m). { apply HM. split; [|intros ->; now apply (no_self bn y)]. split; [intros ->; now apply (no_self bn x)|left; now left]. }
    assert (Nc : ~ In c z) by (intros I; apply Hz in I; now apply (Common c H1 H2)).
    assert (ND : NoDup (c :: z)) by (constructor; [exact Nc|now apply NoDup_filter]). apply NoDup_incl_length with (l' := m) in ND; [exact ND|].
    intros v [<-|Hv]; [exact Ic|]. unfold z in Hv. now apply filter_In in Hv.
Qed.
