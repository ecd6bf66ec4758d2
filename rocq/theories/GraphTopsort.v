(** GraphTopsort.v -- topsort, breadth-first search and cycle tests. *)
From Verif Require Import Py Num BayesNet SpecFactor SpecGraph Graph GraphTheory.
Open Scope nat_scope.

Lemma destruct_last {A} (l : list A) : l = [] \/ exists l' z, l = l' ++ [z].
Proof. induction l as [|z l' _] using rev_ind; [now left|right; eauto]. Qed.

Definition pend (E : edict) (visited : list name) : nat :=
  nsum (map (fun kc => if mem (fst kc) visited then 0 else length (snd kc)) E).
Lemma pend_mono E vis v : pend E (vis ++ [v]) <= pend E vis.
Proof.
  unfold pend. induction E as [|[k c] E IH]; [simpl; lia|]. simpl.
  destruct (mem_spec k vis) as [I|N], (mem_spec k (vis ++ [v])) as [I'|N']; try lia.
  exfalso. apply N'. apply in_or_app. now left.
Qed.
Lemma pend_expand E vis v c : dget E v = Some c -> ~ In v vis -> length c + pend E (vis ++ [v]) <= pend E vis.
Proof.
  intros D N. induction E as [|[k c'] E IH]; [discriminate|]. unfold pend in *. simpl in D |- *.
  destruct (name_eqb_spec k v) as [->|Nk].
  - rewrite name_eqb_refl in D. inversion D; subst.
    assert (M1 : mem v vis = false) by now apply mem_false.
    assert (M2 : mem v (vis ++ [v]) = true) by (apply mem_In, in_or_app; right; now left).
    rewrite M1, M2. pose proof (pend_mono E vis v). unfold pend in *. lia.
  - assert (name_eqb v k = false) as X by (apply name_eqb_neq; congruence). rewrite X in D.
    specialize (IH D). destruct (mem_spec k vis) as [I|N1], (mem_spec k (vis ++ [v])) as [I'|N2]; try lia.
    exfalso. apply N2. apply in_or_app. now left.
Qed.
Lemma pend_nil E : pend E [] = nsum (map (fun kc => length (snd kc)) E).
Proof. reflexivity. Qed.

Section Loop.
  Variables (E : edict) (start : list name).
  Definition binv (queue vis : list name) : Prop :=
    NoDup vis /\ (forall x, In x vis \/ In x queue -> exists s, In s start /\ reach E s x) /\
    (forall x y, In x vis -> edge E x y -> In y vis \/ In y queue) /\
    (forall s, In s start -> In s vis \/ In s queue) /\
    (forall p v q, vis = p ++ v :: q -> In v start \/ exists u, In u p /\ edge E u v) /\
    (forall x, In x queue -> In x start \/ exists u, In u vis /\ edge E u x).
  Definition bpost (out : list name) : Prop :=
    NoDup out /\ (forall x, In x out <-> exists s, In s start /\ reach E s x) /\
    (forall p v q, out = p ++ v :: q -> In v start \/ exists u, In u p /\ edge E u v).

  Lemma binv_init : binv start [].
  Proof.
    split; [constructor|]. split; [|split; [|split; [|split]]].
    - intros x [[]|H]. exists x. split; [assumption|apply rt_refl].
    - intros x y [].
    - intros s H. now right.
    - intros p v q K. destruct p; discriminate.
    - intros x H. now left.
  Qed.
  Lemma binv_end vis : binv [] vis -> bpost vis.
  Proof.
    intros (ND & I1 & I2 & I3 & I4 & I5). split; [assumption|]. split; [|assumption].
    intros x. split; [intros H; apply I1; now left|].
    intros (s & Hs & H). apply clos_rt_rtn1 in H. induction H as [|y z Hyz _ IH].
    - destruct (I3 s Hs) as [K|[]]; assumption.
    - destruct (I2 y z IH Hyz) as [K|[]]; assumption.
  Qed.
  Lemma binv_skip v rest vis : In v vis -> binv (v :: rest) vis -> binv rest vis.
  Proof.
    intros Hv (ND & I1 & I2 & I3 & I4 & I5). split; [assumption|]. split; [|split; [|split; [|split]]].
    - intros x [H|H]; apply I1; simpl; auto.
    - intros x y Hx Hxy. destruct (I2 x y Hx Hxy) as [K|[<-|K]]; auto.
    - intros s Hs. destruct (I3 s Hs) as [K|[<-|K]]; auto.
    - assumption.
    - intros x Hx. apply I5. now right.
  Qed.
  Lemma binv_expand v rest vis c : ~ In v vis -> (forall w, In w c <-> edge E v w) ->
    binv (v :: rest) vis -> binv (rest ++ c) (vis ++ [v]).
  Proof.
    intros Nv Hc (ND & I1 & I2 & I3 & I4 & I5). split.
    { apply NoDup_app_intro; [assumption|constructor; [intros []|constructor]|]. intros x Hx [<-|[]]. contradiction. }
    split; [|split; [|split; [|split]]].
    - intros x H. assert (D : In x vis \/ x = v \/ In x rest \/ In x c) by
        (destruct H as [H|H]; apply in_app_or in H as [H|H]; auto; destruct H as [<-|[]]; auto).
      destruct D as [K|[->|[K|K]]]; [apply I1; auto|apply I1; right; now left|apply I1; right; now right|].
      destruct (I1 v) as (s & Hs & R); [right; now left|]. exists s. split; [assumption|].
      eapply rt_trans; [exact R|]. apply rt_step. now apply Hc.
    - intros x y Hx Hxy. apply in_app_or in Hx as [Hx|[<-|[]]].
      + destruct (I2 x y Hx Hxy) as [K|[<-|K]].
        * left. apply in_or_app. now left.
        * left. apply in_or_app. right. now left.
        * right. apply in_or_app. now left.
      + right. apply in_or_app. right. now apply Hc.
    - intros s Hs. destruct (I3 s Hs) as [K|[<-|K]].
      + left. apply in_or_app. now left.
      + left. apply in_or_app. right. now left.
      + right. apply in_or_app. now left.
    - intros p w q K. destruct (destruct_last q) as [->|(q' & z & ->)].
      + assert (p = vis /\ w = v) as [-> ->] by (apply app_inj_tail in K as [-> ->]; auto).
        apply I5. now left.
      + assert (X : vis ++ [v] = (p ++ w :: q') ++ [z]) by (rewrite K, <- app_assoc; reflexivity).
        apply app_inj_tail in X as [-> ->]. now apply (I4 p w q').
    - intros x Hx. apply in_app_or in Hx as [Hx|Hx].
      + destruct (I5 x (or_intror Hx)) as [K|(u & Hu & K)]; [now left|]. right. exists u. split; [|assumption].
        apply in_or_app. now left.
      + right. exists v. split; [apply in_or_app; right; now left|now apply Hc].
  Qed.

  Lemma topsort_loop_ok : closed_edges E -> forall fuel queue vis, length queue + pend E vis <= fuel -> incl queue (dkeys E) ->
    binv queue vis -> exists out, topsort_loop fuel E queue vis = Ok out /\ bpost out.
  Proof.
    intros [NDk Cl]. induction fuel as [|k IH]; intros queue vis L I B.
    - destruct queue; [|simpl in L; lia]. exists vis. split; [reflexivity|now apply binv_end].
    - destruct queue as [|v rest]; [exists vis; split; [reflexivity|now apply binv_end]|]. simpl topsort_loop.
      destruct (mem_spec v vis) as [M|M].
      + apply IH; [simpl in L; lia|intros x Hx; apply I; now right|now apply (binv_skip v)].
      + destruct (In_dget E v (I v (or_introl eq_refl))) as [c D]. unfold getitem. rewrite D. cbn [bind].
        assert (Hc : forall w, In w c <-> edge E v w).
        { intros w. split; [intros H; exists c; auto|]. intros (c' & D' & H). rewrite D in D'. now inversion D'; subst. }
        apply IH.
        * pose proof (pend_expand E vis v c D M). rewrite app_length. simpl in L. lia.
        * intros x Hx. apply in_app_or in Hx as [Hx|Hx]; [apply I; now right|]. apply (Cl v). now apply Hc.
        * now apply binv_expand.
  Qed.

  Lemma nx_bfs_ok : forall fuel queue vis, length queue + pend E vis <= fuel ->
    binv queue vis -> bpost (nx_bfs fuel E queue vis).
  Proof.
    induction fuel as [|k IH]; intros queue vis L B.
    - destruct queue; [|simpl in L; lia]. simpl. now apply binv_end.
    - destruct queue as [|v rest]; [simpl; now apply binv_end|]. simpl nx_bfs.
      destruct (mem_spec v vis) as [M|M].
      + apply IH; [simpl in L; lia|now apply (binv_skip v)].
      + unfold succs. destruct (dget E v) as [c|] eqn:D.
        * apply IH; [pose proof (pend_expand E vis v c D M); rewrite app_length; simpl in L; lia|].
          apply binv_expand; [assumption| |assumption].
          intros w. split; [intros H; exists c; auto|]. intros (c' & D' & H). rewrite D in D'. now inversion D'; subst.
        * apply IH; [pose proof (pend_mono E vis v); rewrite app_length; simpl in *; lia|].
          apply binv_expand; [assumption| |assumption].
          intros w. split; [intros []|]. intros (c' & D' & H). congruence.
  Qed.
End Loop.

Lemma topsort_from_ok E start : closed_edges E -> incl start (dkeys E) ->
  exists out, topsort_from E start = Ok out /\ bpost E start out.
Proof.
  intros C I. apply (topsort_loop_ok E start C); [unfold topsort_fuel; rewrite pend_nil; lia|assumption|apply binv_init].
Qed.
Lemma In_topsort_roots E v : NoDup (dkeys E) -> In v (topsort_roots E) <-> parentless E v.
Proof.
  intros ND. unfold topsort_roots, parentless. rewrite filter_In, negb_true_iff. split.
  - intros [H1 H2]. split; [assumption|]. intros u (c & D & Hc).
    assert (X : existsb (fun p => edge_in E p v) (dkeys E) = true); [|congruence].
    apply existsb_exists. exists u. split; [eapply dget_Some_In; eassumption|]. unfold edge_in. rewrite D. now apply mem_In.
  - intros [H1 H2]. split; [assumption|]. destruct (existsb _ _) eqn:X; [|reflexivity]. exfalso.
    apply existsb_exists in X as (u & Hu & M). unfold edge_in in M. destruct (dget E u) as [c|] eqn:D; [|discriminate].
    apply (H2 u). exists c. split; [assumption|now apply mem_In].
Qed.

Lemma nx_reach_spec E u x : In x (nx_reach E u) <-> reach E u x.
Proof.
  unfold nx_reach. destruct (nx_bfs_ok E [u] (topsort_fuel E [u]) [u] []) as (_ & H & _).
  - unfold topsort_fuel. rewrite pend_nil. lia.
  - apply binv_init.
  - rewrite H. split; [intros (s & [<-|[]] & R); assumption|intros R; exists u; simpl; auto].
Qed.
Lemma In_succs E u v : In v (succs E u) <-> edge E u v.
Proof.
  unfold succs, edge. destruct (dget E u) as [c|].
  - split; [intros H; eauto|intros (c' & D & H); inversion D; subst; assumption].
  - split; [intros []|intros (c' & D & H); discriminate].
Qed.
Lemma nx_find_cycle_spec E u : nx_find_cycle E u = true <-> exists w, reach E u w /\ path E w w.
Proof.
  unfold nx_find_cycle. rewrite existsb_exists. split.
  - intros (w & Hw & X). apply existsb_exists in X as (x & Hx & M). exists w. split; [now apply nx_reach_spec|].
    apply mem_In in M. apply nx_reach_spec in M. apply In_succs in Hx. eapply tc_rt_tc; [apply t_step; exact Hx|exact M].
  - intros (w & Hw & P). exists w. split; [now apply nx_reach_spec|]. apply existsb_exists.
    apply tc_first in P as (x & Hx & R). exists x. split; [now apply In_succs|]. apply mem_In. now apply nx_reach_spec.
Qed.
Lemma edge_nx_add E u v x y : edge (nx_add_edge E u v) x y <-> edge E x y \/ (x = u /\ y = v).
Proof.
  rewrite <- !In_succs. unfold nx_add_edge. unfold succs at 1. rewrite dget_dset.
  destruct (name_eqb_spec x u) as [->|N].
  - rewrite in_app_iff. simpl. unfold succs. intuition congruence.
  - fold (succs E x). intuition congruence.
Qed.
Lemma edge_nx_remove E u v G : nx_remove_edge E u v = Ok G ->
  edge E u v /\ forall x y, edge G x y <-> edge E x y /\ ~ (x = u /\ y = v).
Proof.
  unfold nx_remove_edge. destruct (mem_spec v (succs E u)) as [M|M]; [|discriminate].
  intros H. inversion H; subst. split; [now apply In_succs|]. intros x y.
  rewrite <- !In_succs. unfold succs at 1. rewrite dget_dset. destruct (name_eqb_spec x u) as [->|N].
  - rewrite filter_In, negb_true_iff, name_eqb_neq. unfold succs. intuition congruence.
  - fold (succs E x). intuition congruence.
Qed.

Lemma would_cause_cycle_add E u v : acyclic E ->
  exists b, would_cause_cycle E u v false = Ok b /\ (b = true <-> ~ acyclic (nx_add_edge E u v)).
Proof.
  intros A. unfold would_cause_cycle. cbn [bind]. eexists. split; [reflexivity|].
  rewrite nx_find_cycle_spec. split.
  - intros (w & _ & P) A'. now apply (A' w).
  - intros NA. exists u. split; [apply rt_refl|].
    pose proof (add_edge_acyclic (edge E) (edge (nx_add_edge E u v)) u v (edge_nx_add E u v) A) as X.
    destruct (mem_spec u (nx_reach E v)) as [M|M].
    + apply nx_reach_spec in M. eapply tc_rt_tc; [apply t_step; apply edge_nx_add; right; auto|].
      eapply clos_rt_incl; [|exact M]. intros x y K. apply edge_nx_add. now left.
    + exfalso. apply NA. exact (proj2 X (fun R => M (proj2 (nx_reach_spec E v u) R))).
Qed.
Lemma remove_acyclic E u v G : nx_remove_edge E u v = Ok G -> acyclic E -> acyclic G.
Proof.
  intros H A w P. apply (A w). eapply clos_t_incl; [|exact P]. intros x y K. now apply (edge_nx_remove _ _ _ _ H).
Qed.
