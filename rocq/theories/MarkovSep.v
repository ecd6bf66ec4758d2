(** MarkovSep.v -- d-separation, local independence and irrelevance of everything below. *)
From Verif Require Import Py Num BayesNet Factor SpecFactor Radix SumOver Rounding SpecInference VE VETotal CliqueBP SpecMarkov MarkovFacts Sens.
From Verif Require SampleLaws.
Open Scope nat_scope.

(** a descending path either meets [S] or avoids it *)
Lemma walk_down bn S a s : ancestor bn a s -> ~ In a S ->
  (exists z, In z S /\ ancestor bn a z) \/ clos_refl_trans_1n _ (fun u v => is_parent bn u v /\ ~ In u S /\ ~ In v S) a s.
Proof.
  intros P Na. apply clos_rt_rt1n in P. induction P as [a|a b s H P IH]; [right; constructor|].
  destruct (in_dec name_eq_dec b S) as [I|I].
  - left. exists b. split; [exact I|]. now apply rt_step.
  - destruct (IH I) as [(z & Hz & Pz)|Q]; [left; exists z; split; [exact Hz|]; eapply rt_trans; [apply rt_step; exact H|exact Pz]|].
    right. apply Relation_Operators.rt1n_trans with b; auto.
Qed.
Lemma active_down bn S t a s : clos_refl_trans_1n _ (fun u v => is_parent bn u v /\ ~ In u S /\ ~ In v S) a s -> active bn S t a Down -> active bn S t s Down.
Proof. induction 1 as [a|a b s (H & N1 & N2) P IH]; [auto|]. intros Q. apply IH. eapply act_down_down; eauto. Qed.
Lemma active_up bn S t a : ~ In t S -> clos_refl_trans_1n _ (fun u v => is_parent bn u v /\ ~ In u S /\ ~ In v S) a t -> active bn S t a Up.
Proof. intros Nt. remember t as t' eqn:E. rewrite E at 2. induction 1 as [a|a b s (H & N1 & N2) P IH]; [subst; apply act_start|]. eapply act_up_up; [apply IH; assumption|assumption|assumption]. Qed.

Lemma dsep_cut bn A S E t : incl A (bn_V bn) -> ~ In t S -> In t A ->
  (forall v, In v A -> exists s, In s (t :: S ++ E) /\ ancestor bn v s) ->
  (forall v, In v A -> incl (nparents bn v) A) ->
  (forall w, In w E -> d_separated bn S t w) -> forall w, In w E -> cut bn A S t w.
Proof.
  intros IA Nt HtA An CA D w Hw P.
  assert (Up_step : forall a d p, In a A -> ~ In a S -> active bn S t a d -> is_parent bn p a -> active bn S t p Up).
  { intros a d p Ha Na Ac Pp. destruct d; [eapply act_up_up; eauto|]. destruct (An a Ha) as (s & Hs & Ps).
    destruct (walk_down bn S a s Ps Na) as [(z & Hz & Pz)|Q]; [eapply act_collider; eauto|].
    destruct Hs as [<-|Hs]; [eapply act_up_up; [eapply active_up; eauto|exact Na|exact Pp]|].
    apply in_app_or in Hs as [Hs|Hs]; [eapply act_collider; eauto|]. exfalso. apply (D s Hs Down). eapply active_down; eauto. }
  assert (G : forall b, clos_refl_trans_n1 _ (fun a b => ~ In b S /\ family_link bn A a b) t b -> In b A /\ ~ In b S /\ exists d, active bn S t b d).
  { induction 1 as [|b c (Nc & e & He & Hb & Hc) P' (Ab & Nb & d & Ac)].
    - split; [exact HtA|]. split; [exact Nt|]. exists Up. apply act_start.
    - split; [destruct Hc as [<-|Hc]; [exact He|now apply (CA e)]|]. split; [exact Nc|]. assert (Ve : In e (bn_V bn)) by auto.
      destruct Hb as [->|Hb], Hc as [->|Hc].
      + eauto.
      + exists Up. apply (Up_step b d c); auto. now split.
      + exists Down. destruct d; [eapply act_up_down|eapply act_down_down]; eauto; now split.
      + assert (De : active bn S t e Down) by (destruct d; [eapply act_up_down|eapply act_down_down]; eauto; now split).
        exists Up. destruct (in_dec name_eq_dec e S) as [I|I]; [eapply act_collider; [exact De|apply rt_refl|exact I|now split]|]. apply (Up_step e Down c); auto. now split. }
  apply clos_rt_rtn1 in P. destruct (G w P) as (_ & _ & d & Ac). now apply (D w Hw d).
Qed.

Lemma ancestors_of bn T : wfnet bn -> incl T (bn_V bn) -> exists A, ancestral_set bn A /\ incl T A /\ forall v, In v A -> exists s, In s T /\ ancestor bn v s.
Proof.
  intros W IT. destruct (closure_exists (nparents bn) (bn_V bn) T (wn_V _ W) (wn_par _ W) IT) as (A & NA & IA & TA & CA & PA).
  exists A. split; [now split|]. split; [exact TA|]. intros v Hv. destruct (PA v Hv) as (s & Hs & Ps). exists s. split; [exact Hs|].
  assert (Is : In s (bn_V bn)) by auto. apply clos_rt_rt1n in Ps. clear -Ps Is W. induction Ps as [s|s b c H P IH]; [apply rt_refl|].
  eapply rt_trans; [apply IH; now apply (wn_par _ W s)|]. apply rt_step. now split.
Qed.

Lemma evidence_keys bn ev : good_evidence bn ev -> incl (map fst ev) (bn_V bn).
Proof. intros [_ H] w Hw. apply in_map_iff in Hw as ([v x] & <- & I). now apply (H v x). Qed.

Lemma ancestral_marginal bn A t ev x : wfnet bn -> normalised bn -> acyclic_net bn -> ancestral_set bn A -> In t A -> incl (map fst ev) A ->
  marginal bn t ev x = psum bn A (fun a => (a t =? x) && agrees bn ev a).
Proof. intros W N Ac HA Ht He. apply ancestral_prob; auto. intros a b H. rewrite (H t Ht). f_equal. apply agrees_dep. auto. Qed.
Lemma ancestral_evidence bn A ev : wfnet bn -> normalised bn -> acyclic_net bn -> ancestral_set bn A -> incl (map fst ev) A ->
  evidence_prob bn ev = psum bn A (agrees bn ev).
Proof. intros W N Ac HA He. apply ancestral_prob; auto. intros a b H. apply agrees_dep. auto. Qed.

Lemma dsep_irrelevant bn t ev ev' : wfnet bn -> normalised bn -> acyclic_net bn -> In t (bn_V bn) -> good_evidence bn (ev ++ ev') -> ~ In t (map fst ev) ->
  (forall w, In w (map fst ev') -> d_separated bn (map fst ev) t w) -> irrelevant bn t ev ev'.
Proof.
  intros W N Ac Ht GE Nt D x _. assert (IK := evidence_keys bn _ GE). rewrite map_app in IK.
  destruct (ancestors_of bn (t :: map fst ev ++ map fst ev') W) as (A & HA & TA & PA); [intros v [<-|H]; auto|].
  assert (K : In t A) by (apply TA; now left). assert (K1 : incl (map fst ev) A) by (intros w Hw; apply TA; right; apply in_or_app; auto).
  assert (K2 : incl (map fst ev') A) by (intros w Hw; apply TA; right; apply in_or_app; auto).
  assert (K3 : incl (map fst (ev ++ ev')) A) by (rewrite map_app; now apply incl_app).
  rewrite !(ancestral_marginal bn A) by assumption. rewrite !(ancestral_evidence bn A) by assumption. destruct HA as (NA & IA & CA).
  apply cut_irrelevant; auto; [apply GE|]. intros w Hw. now apply (dsep_cut bn A (map fst ev) (map fst ev') t).
Qed.

(** the whole graph *)
Lemma cut_all_irrelevant bn t ev ev' : wfnet bn -> In t (bn_V bn) -> good_evidence bn (ev ++ ev') -> ~ In t (map fst ev) ->
  (forall w, In w (map fst ev') -> cut bn (bn_V bn) (map fst ev) t w) -> irrelevant bn t ev ev'.
Proof.
  intros W Ht GE Nt C x _. assert (IK := evidence_keys bn _ GE). rewrite map_app in IK.
  apply (cut_irrelevant bn (bn_V bn) ev ev' t); auto; [apply W|apply incl_refl|apply W|apply GE|]. intros w Hw. apply IK. apply in_or_app. auto.
Qed.

(** ** two networks with the same ancestors *)
Lemma same_ncard bn bn' v : same_table bn bn' v -> ncard bn v = ncard bn' v.
Proof. intros (_ & H & _). unfold nvalues, ncard in *. destruct (dget (bn_F bn) v), (dget (bn_F bn') v); cbn in *; try congruence; [now rewrite H|now rewrite <- H]. Qed.
Lemma radix_cd cd cd' vs a : (forall v, In v vs -> cd v = cd' v) -> radix cd vs a = radix cd' vs a.
Proof. induction vs as [|v r IH]; intros H; [reflexivity|]. cbn [radix]. rewrite (H v) by now left. rewrite IH by (intros; apply H; now right). reflexivity. Qed.
Lemma same_psum bn bn' A c c' : (forall v, In v A -> incl (nparents bn v) A) -> (forall v, In v A -> same_table bn bn' v) -> (forall a, c a = c' a) -> psum bn A c = psum bn' A c'.
Proof.
  intros CA ST E. unfold psum. rewrite (sum_over_cd (ncard bn) (ncard bn')) by (intros v Hv; apply same_ncard; auto). apply sum_over_congr. intros b _ _. rewrite E.
  destruct (c' b); [|reflexivity]. unfold pjoint. apply qprod_map_ext. intros v Hv. f_equal. unfold cond_prob. destruct (ST v Hv) as (Hp & _ & ->). rewrite <- Hp. f_equal.
  apply radix_cd. intros u [<-|Hu]; apply same_ncard; auto. apply ST. now apply (CA v).
Qed.
Lemma same_agrees bn bn' ev a : (forall w, In w (map fst ev) -> nvalues bn w = nvalues bn' w) -> agrees bn ev a = agrees bn' ev a.
Proof.
  intros H. unfold agrees. induction ev as [|[v x] ev IH]; [reflexivity|]. cbn [forallb fst snd map] in *. rewrite IH by (intros w Hw; apply H; now right). unfold val_index. rewrite (H v) by now left. reflexivity.
Qed.
Lemma same_marginal bn bn' A t ev x : wfnet bn -> normalised bn -> acyclic_net bn -> wfnet bn' -> normalised bn' -> acyclic_net bn' -> ancestral_set bn A -> incl A (bn_V bn') ->
  (forall v, In v A -> same_table bn bn' v) -> In t A -> incl (map fst ev) A -> marginal bn t ev x = marginal bn' t ev x.
Proof.
  intros W N Ac W' N' Ac' (NA & IA & CA) IA' ST Ht He.
  rewrite (ancestral_marginal bn A) by (auto; now split). rewrite (ancestral_marginal bn' A); auto.
  - apply same_psum; auto. intros a. f_equal. apply same_agrees. intros w Hw. now apply (ST w (He w Hw)).
  - split; [exact NA|]. split; [exact IA'|]. intros v Hv. destruct (ST v Hv) as (<- & _). auto.
Qed.

(** ** the tables are the conditional probabilities *)
Lemma local_markov bn v ev a : wfnet bn -> normalised bn -> acyclic_net bn -> In v (bn_V bn) -> good_evidence bn ev -> incl (nparents bn v) (map fst ev) ->
  (forall w, In w (map fst ev) -> ~ ancestor bn v w) -> agrees bn ev a = true -> a v < ncard bn v ->
  marginal bn v ev (a v) = (getq (cond_prob bn v a) * evidence_prob bn ev)%Qc.
Proof.
  intros W N Ac Hv GE Hp Nd Ag Hx. assert (IK := evidence_keys bn _ GE).
  destruct (ancestors_of bn (map fst ev) W IK) as (A & HA & TA & PA).
  assert (Nv : ~ In v A). { intros H. destruct (PA v H) as (s & Hs & Ps). now apply (Nd s Hs). }
  assert (Hne : ~ In v (map fst ev)) by (intros H; apply Nv; auto).
  assert (HA' : ancestral_set bn (v :: A)). { destruct HA as (NA & IA & CA). split; [now constructor|]. split; [intros u [<-|Hu]; auto|]. intros u [<-|Hu] w Hw; right; [auto|now apply (CA u)]. }
  rewrite (ancestral_marginal bn (v :: A)); auto; [|now left|intros w Hw; right; auto]. rewrite (ancestral_evidence bn A) by auto. unfold psum.
  rewrite (sum_over_perm _ (v :: A) (A ++ [v])); [| |apply HA'|apply Permutation_cons_append].
  2:{ apply cond_ext. intros b b' E. now rewrite (E v), (agrees_ext bn ev b b' E). }
  rewrite sum_over_app, Qcmult_comm, <- sum_over_mul_const. apply sum_over_congr. intros b Hb _. rewrite Qcmult_comm. cbn [sum_over]. unfold sum_values.
  assert (Ab : forall y, agrees bn ev (upd b v y) = agrees bn ev b). { intros y. apply agrees_dep. intros w Hw. apply upd_other. intros ->. contradiction. }
  destruct (agrees bn ev b) eqn:Eb.
  - rewrite (qsum_map_ext _ (fun y => if a v =? y then getq (cond_prob bn v a) * pjoint bn A b else 0)%Qc).
    + rewrite SampleLaws.qsum_delta by exact Hx. ring.
    + intros y _. rewrite Ab, upd_same. rewrite andb_true_r, Nat.eqb_sym. destruct (Nat.eqb_spec (a v) y) as [<- |]; [|reflexivity]. unfold pjoint. cbn [map qprod fold_right]. f_equal.
      * f_equal. apply cond_prob_ext. intros w [<-|Hw]; [apply upd_same|]. rewrite upd_other by (intros ->; apply Hne; auto).
        assert (Iw : In w (map fst ev)) by auto. rewrite (agrees_s0 bn ev b w (proj1 GE) Eb Iw). symmetry. apply agrees_s0; auto. apply GE.
      * apply qprod_map_ext. intros u Hu. f_equal. apply cond_prob_ext. intros w Hw. apply upd_other. intros ->. apply Nv. destruct Hw as [<-|Hw]; [exact Hu|]. destruct HA as (_ & _ & CA). now apply (CA u).
  - rewrite Qcmult_0_r. rewrite (qsum_map_ext _ (fun _ => 0 * 1)%Qc); [rewrite qsum_map_mult_l; ring|]. intros y _. rewrite Ab, andb_false_r. ring.
Qed.

(** ** marginal_ve_e refuses a target whose parents are all observed *)
Lemma observed_parents_cut bn t (ev : list (name * name)) : wfnet bn -> In t (bn_V bn) -> 2 <= length (bn_V bn) -> incl (nparents bn t) (map fst ev) -> ~ connected bn (t :: map fst ev).
Proof.
  intros W Ht L Hp C. assert (exists w, In w (bn_V bn) /\ w <> t) as (w & Hw & Ne).
  { pose proof (wn_V _ W) as ND. destruct (bn_V bn) as [|x [|y r]]; simpl in L; try lia. inversion ND; subst.
    destruct (name_eqb_spec x t) as [->|N]; [exists y|exists x]; simpl; split; auto. intros ->. apply H1. now left. }
  specialize (C t w Ht Hw). apply clos_rt_rt1n in C. inversion C as [|y q Hl Hr]; subst; [congruence|].
  destruct Hl as (_ & _ & x & Hx & Hf & _). apply Hx. destruct Hf as [<-|Hf]; [now left|right; auto].
Qed.
