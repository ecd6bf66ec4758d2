(** GraphCheck.v -- boolean checkers used only by the non-vacuity examples. *)
From Verif Require Import Py Num BayesNet SpecFactor Graph SpecGraph GraphTheory GraphTopsort GraphNet GraphFacts Examples.
Open Scope nat_scope.

Definition closedb (E : edict) : bool := nodupb (dkeys E) && forallb (fun kc => inclb (snd kc) (dkeys E)) E.
Lemma dget_in_list {A} (d : dict A) k v : dget d k = Some v -> In (k, v) d.
Proof.
  induction d as [|[k' v'] r IH]; simpl; [discriminate|]. destruct (name_eqb_spec k k') as [->|N]; intros H.
  - inversion H; subst. now left.
  - right. auto.
Qed.
Lemma closedb_ok E : closedb E = true -> closed_edges E.
Proof.
  unfold closedb. intros H. apply andb_prop in H as [H1 H2]. split; [now apply nodupb_ok|].
  intros u v (c & D & Hv). rewrite forallb_forall in H2. apply dget_in_list in D. apply H2 in D. simpl in D.
  apply inclb_ok in D. now apply D.
Qed.
Definition acyclicb (E : edict) : bool := forallb (fun k => negb (nx_find_cycle E k)) (dkeys E).
Lemma acyclicb_ok E : acyclicb E = true -> acyclic E.
Proof.
  unfold acyclicb. rewrite forallb_forall. intros H v P.
  destruct (tc_first _ _ _ P) as (w & (c & D & _) & _). apply dget_Some_In in D.
  apply H in D. apply negb_true_iff in D. assert (X : nx_find_cycle E v = true).
  { apply nx_find_cycle_spec. exists v. split; [apply rt_refl|exact P]. }
  congruence.
Qed.
Definition graph_okb (bn : bayesnet) : bool :=
  nodupb (bn_V bn) &&
  forallb (fun v => match dget (bn_E bn) v with Some c => nodupb c && inclb c (bn_V bn) | None => false end) (bn_V bn) &&
  forallb (fun v => match dget (bn_F bn) v with Some d => nodupb (f_parents d) && inclb (f_parents d) (bn_V bn) | None => false end) (bn_V bn).
Lemma graph_okb_ok bn : graph_okb bn = true -> graph_ok bn.
Proof.
  unfold graph_okb. intros H. apply andb_prop in H as [H H3]. apply andb_prop in H as [H1 H2].
  rewrite forallb_forall in H2, H3. constructor.
  - now apply nodupb_ok.
  - intros v Hv. apply H2 in Hv. destruct (dget (bn_E bn) v) as [c|]; [|discriminate]. apply andb_prop in Hv as [A B].
    exists c. split; [reflexivity|]. split; [now apply nodupb_ok|now apply inclb_ok].
  - intros v Hv. apply H3 in Hv. destruct (dget (bn_F bn) v) as [c|]; [|discriminate]. apply andb_prop in Hv as [A B].
    exists c. split; [reflexivity|]. split; [now apply nodupb_ok|now apply inclb_ok].
Qed.
Definition agreeb (bn : bayesnet) : bool :=
  forallb (fun u => forallb (fun v => Bool.eqb (mem u (nparents bn v)) (edge_in (bn_E bn) u v)) (bn_V bn)) (bn_V bn).
Lemma edge_in_edge E u v : edge_in E u v = true <-> edge E u v.
Proof.
  unfold edge_in, edge. destruct (dget E u) as [c|]; split; [intros H; exists c; split; [reflexivity|now apply mem_In]| |discriminate|].
  - intros (c' & Q & H). inversion Q; subst. now apply mem_In.
  - intros (c' & Q & _). discriminate.
Qed.
Lemma agreeb_ok bn : agreeb bn = true -> agree bn.
Proof.
  unfold agreeb. rewrite forallb_forall. intros H u v Hu Hv. apply H in Hu. rewrite forallb_forall in Hu.
  apply Hu in Hv. apply Bool.eqb_prop in Hv. rewrite <- mem_In, Hv. apply edge_in_edge.
Qed.
