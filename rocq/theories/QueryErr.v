(** QueryErr.v -- what the exact inference functions do with a query that the network cannot answer. *)
From Verif Require Import Py Num BayesNet Factor Rounding Factorization SpecFactor SpecInference
  FactorOut VE VEShape VEMap.
From Coq Require Import Lia.
Open Scope nat_scope.

(** a value that the node does not have makes reduce_factor fail *)
Lemma reduce_bad_value cd o f rv x d : wf cd f -> In rv (f_scope f) -> dget (bn_F (f_bn f)) rv = Some d ->
  ~ In x (f_values d) -> reduce_factor o f rv x = Raise ValueError.
Proof.
  intros W Hs Hd Hx. unfold reduce_factor. unfold getitem at 1. rewrite (wf_card _ _ W rv Hs). cbn [bind].
  pose proof (wf_pos _ _ W rv Hs) as P.
  destruct (Nat.eqb_spec (cd rv) 0) as [Ez|_]; [lia|]. unfold getitem at 1. rewrite Hd. cbn [bind].
  unfold list_index. destruct (index_of x (f_values d)) as [i|] eqn:Ei; [|reflexivity].
  apply index_of_Some in Ei. apply nth_error_In in Ei. contradiction.
Qed.
Lemma reduce_all_bad_value cd bn rv x d fs : dget (bn_F bn) rv = Some d -> ~ In x (f_values d) ->
  forall o, fine cd bn fs -> in_scopes fs rv -> reduce_all o rv x fs = Raise ValueError.
Proof.
  intros Hd Hx. induction fs as [|f r IH]; intros o F (g & Hg & Hs); [destruct Hg|]. cbn [reduce_all].
  destruct (F f (or_introl eq_refl)) as [Wf Bf].
  destruct (mem_spec rv (f_scope f)) as [M|M].
  - rewrite (reduce_bad_value cd _ f rv x d Wf M) by (congruence || assumption). reflexivity.
  - cbn [bind]. rewrite IH; [reflexivity|intros h Hh; apply F; now right|].
    destruct Hg as [->|Hg]; [contradiction|]. exists g. auto.
Qed.
Lemma reduce_all_absent rv x fs : forall o, ~ in_scopes fs rv -> reduce_all o rv x fs = Ok fs.
Proof.
  induction fs as [|f r IH]; intros o N; cbn [reduce_all]; [reflexivity|].
  destruct (mem_spec rv (f_scope f)) as [M|M].
  - exfalso. apply N. exists f. split; [now left|assumption].
  - cbn [bind]. rewrite IH; [reflexivity|]. intros (g & Hg & Hs). apply N. exists g. split; [now right|assumption].
Qed.

(** the evidence loop: either every pair is a node still in the order with one of its values, or ValueError *)
Lemma evidence_outcome bn ev : wfnet bn -> NoDup (map fst ev) -> forall o z order,
  fine (ncard bn) bn (fz_phi z) -> NoDup order -> incl order (bn_V bn) ->
  (forall v, In v (map fst ev) -> (In v (bn_V bn) <-> in_scopes (fz_phi z) v)) ->
  (forall v x, In (v, x) ev -> In v (bn_V bn) /\ In v order /\ In x (nvalues bn v)) \/
  apply_evidence o z order ev = Raise ValueError.
Proof.
  intros W. induction ev as [|[q u] r IH]; intros NK o z order F ND IO SC; [left; intros v x []|].
  simpl in NK. inversion NK as [|? ? Hn Hr]; subst.
  destruct (in_dec name_eq_dec q (bn_V bn)) as [Vq|Vq].
  - destruct (wn_F _ W q Vq) as [d Hd]. destruct (in_dec name_eq_dec u (f_values d)) as [Hu|Hu].
    + destruct (index_of_In u (f_values d) Hu) as [i Hi].
      assert (Li : i < ncard bn q) by (unfold ncard, nvalues; rewrite Hd; now apply index_of_lt in Hi).
      destruct (reduce_all_ok (ncard bn) bn q u i d (fz_phi z) Hd Hi Li (sub o 0) F) as (fs1 & E1 & F1 & S1 & _).
      cbn [apply_evidence]. unfold fz_sub. rewrite E1. cbn [bind]. unfold list_remove.
      destruct (mem_spec q order) as [Mq|Mq]; [|now right]. cbn [bind].
      destruct (IH Hr (sub o 1) (mkFz (fz_bn z) fs1 (fz_map z) (dset (fz_asg z) q u)) (remove1 q order) F1) as [G|G].
      * now apply NoDup_remove1.
      * intros w Hw. apply IO. now apply remove1_incl in Hw.
      * intros v Hv. cbn [fz_phi]. rewrite (Forall2_scopes _ _ _ S1 v), (SC v (or_intror Hv)).
        assert (v <> q) by congruence. tauto.
      * left. intros v x [H|H].
        -- inversion H; subst. split; [assumption|]. split; [assumption|]. unfold nvalues. now rewrite Hd.
        -- destruct (G v x H) as (G1 & G2 & G3). split; [assumption|]. split; [now apply remove1_incl in G2|assumption].
      * now right.
    + right. cbn [apply_evidence]. unfold fz_sub.
      rewrite (reduce_all_bad_value (ncard bn) bn q u d _ Hd Hu (sub o 0) F); [reflexivity|].
      apply (SC q); [now left|assumption].
  - cbn [apply_evidence]. unfold fz_sub. rewrite reduce_all_absent by (rewrite <- (SC q (or_introl eq_refl)); assumption).
    cbn [bind]. unfold list_remove. destruct (mem_spec q order) as [Mq|Mq]; [|now right].
    exfalso. apply Vq, IO, Mq.
Qed.

