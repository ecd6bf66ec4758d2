(** CliqueRef.v -- a reference enumeration of maximal cliques, to show that the contract assumed of
    networkx's chordal_graph_cliques can be met. *)
From Verif Require Import Py Num BayesNet Factor SpecFactor SpecGraph SpecMst GraphTheory GraphFacts Graph Mst Chordal Dirac CliqueTree SpecClique Junction.
Open Scope nat_scope.

Fixpoint subsets (l : list name) : list (list name) :=
  match l with [] => [[]] | x :: r => subsets r ++ map (cons x) (subsets r) end.
Definition nbrb (es : list (name * name)) (a b : name) : bool := eadjb es a b && negb (name_eqb a b).
Definition maxb (es : list (name * name)) (L s : list name) : bool :=
  negb (length s =? 0) &&
  forallb (fun a => forallb (fun b => name_eqb a b || nbrb es a b) s) s &&
  forallb (fun x => mem x s || negb (forallb (fun a => name_eqb a x || nbrb es a x) s)) L.
Definition all_cliques (es : list (name * name)) : list (list name) := filter (maxb es (evertices es)) (subsets (evertices es)).

Lemma nbrb_ok es a b : nbrb es a b = true <-> nbr es a b.
Proof.
  unfold nbrb, nbr, eadjb, uadj. rewrite andb_true_iff, orb_true_iff, negb_true_iff, !emem_In. destruct (name_eqb_spec a b); intuition congruence.
Qed.
Lemma subsets_incl l s : In s (subsets l) -> incl s l.
Proof.
  revert s. induction l as [|x r IH]; intros s H; simpl in H; [destruct H as [<-|[]]; apply incl_refl|]. apply in_app_or in H as [H|H].
  - intros y Hy. right. now apply (IH s).
  - apply in_map_iff in H as (t & <- & Ht). intros y [<-|Hy]; [now left|right; now apply (IH t)].
Qed.
Lemma subsets_NoDup l s : NoDup l -> In s (subsets l) -> NoDup s.
Proof.
  intros ND. revert s. induction l as [|x r IH]; intros s H; simpl in H; [destruct H as [<-|[]]; constructor|]. inversion ND; subst. apply in_app_or in H as [H|H]; [now apply IH|].
  apply in_map_iff in H as (t & <- & Ht). constructor; [|now apply IH]. intros C. apply subsets_incl in Ht. auto.
Qed.
Lemma subsets_all l s : exists t, In t (subsets l) /\ forall x, In x t <-> In x l /\ In x s.
Proof.
  induction l as [|x r (t & Ht & E)]; [exists []; split; [now left|simpl; tauto]|]. destruct (in_dec name_eq_dec x s) as [Y|N].
  - exists (x :: t). split; [simpl; apply in_or_app; right; now apply in_map|]. intros y. simpl. rewrite E. split; [intros [<-|K]; tauto|intros [[<-|K] K2]; [now left|right; tauto]].
  - exists t. split; [simpl; apply in_or_app; now left|]. intros y. simpl. rewrite E. split; [tauto|]. intros [[<-|K] K2]; [contradiction|tauto].
Qed.
Lemma distinct_app p q : distinct p -> distinct q -> (forall s t, In s p -> In t q -> ~ same_set s t) -> distinct (p ++ q).
Proof.
  induction p as [|s p IH]; intros Dp Dq H; [exact Dq|]. destruct Dp as [D1 D2]. cbn [app distinct]. split.
  - intros t Ht. apply in_app_or in Ht as [Ht|Ht]; [now apply D1|apply H; [now left|exact Ht]].
  - apply IH; [exact D2|exact Dq|]. intros a b Ha. apply H. now right.
Qed.
Lemma subsets_distinct l : NoDup l -> distinct (subsets l).
Proof.
  induction l as [|x r IH]; intros ND; [cbn; split; [intros t []|exact Logic.I]|]. inversion ND as [|? ? Nx ND']; subst. specialize (IH ND'). cbn [subsets]. apply distinct_app; [exact IH| |].
  - assert (Sub : forall s, In s (subsets r) -> ~ In x s) by (intros s Hs C; apply Nx; now apply (subsets_incl r s)).
    revert IH Sub. generalize (subsets r) as q. intros q. induction q as [|s q IHq]; intros D Sub; [exact Logic.I|]. destruct D as [D1 D2]. cbn [map distinct]. split.
    + intros t Ht C. apply in_map_iff in Ht as (u & <- & Hu). apply (D1 u Hu). intros y. assert (K := C y). simpl in K.
      destruct (name_eq_dec y x) as [->|Ny]; [split; intros Q; exfalso; [apply (Sub s); [now left|exact Q]|apply (Sub u); [now right|exact Q]]|].
      split; intros Q; [destruct (proj1 K (or_intror Q)) as [E|E]|destruct (proj2 K (or_intror Q)) as [E|E]]; congruence || exact E.
    + apply IHq; [exact D2|]. intros u Hu. apply Sub. now right.
  - intros s t Hs Ht C. apply in_map_iff in Ht as (u & <- & Hu). apply Nx. apply (subsets_incl r s Hs). apply C. now left.
Qed.
Lemma distinct_filter p q : distinct q -> distinct (filter p q).
Proof.
  induction q as [|s q IH]; intros D; [exact Logic.I|]. destruct D as [D1 D2]. cbn [filter]. destruct (p s); [|now apply IH]. cbn [distinct]. split; [|now apply IH]. intros t Ht. apply filter_In in Ht. now apply D1.
Qed.
Lemma distinct_nth q : distinct q -> forall i j s t, nth_error q i = Some s -> nth_error q j = Some t -> same_set s t -> i = j.
Proof.
  induction q as [|u q IH]; intros D i j s t Ei Ej E; [destruct i; discriminate|]. destruct D as [D1 D2]. destruct i as [|i], j as [|j]; simpl in *.
  - reflexivity.
  - injection Ei as ->. exfalso. apply (D1 t); [eapply nth_error_In; eassumption|exact E].
  - injection Ej as ->. exfalso. apply (D1 s); [eapply nth_error_In; eassumption|]. intros x. symmetry. apply E.
  - f_equal. now apply (IH D2 i j s t).
Qed.
Lemma maxb_ok es L s : incl s L -> (maxb es L s = true <-> mc es L s).
Proof.
  intros I. unfold maxb, mc. rewrite !andb_true_iff, negb_true_iff, Nat.eqb_neq, !forallb_forall. split.
  - intros [[A B] C]. split; [intros ->; now apply A|]. split; [exact I|]. split.
    + intros a b Ha Hb Nab. specialize (B a Ha). rewrite forallb_forall in B. specialize (B b Hb). apply orb_true_iff in B as [B|B]; [|now apply nbrb_ok]. destruct (name_eqb_spec a b); congruence.
    + intros x Hx Adj. specialize (C x Hx). apply orb_true_iff in C as [C|C]; [now apply mem_In|]. exfalso. apply negb_true_iff in C. assert (K : forallb (fun a => name_eqb a x || nbrb es a x) s = true); [|congruence].
      apply forallb_forall. intros a Ha. destruct (name_eqb_spec a x) as [->|N]; [reflexivity|]. apply orb_true_iff. right. apply nbrb_ok. now apply Adj.
  - intros (A & _ & B & C). split; [split; [destruct s; [congruence|simpl; lia]|]|].
    + intros a Ha. apply forallb_forall. intros b Hb. destruct (name_eqb_spec a b) as [->|N]; [reflexivity|]. apply orb_true_iff. right. apply nbrb_ok. now apply B.
    + intros x Hx. destruct (mem x s) eqn:M; [reflexivity|]. apply orb_true_iff. right. apply negb_true_iff. destruct (forallb _ s) eqn:F; [|reflexivity]. exfalso. apply mem_false in M. apply M. apply C; [exact Hx|].
      intros a Ha Na. rewrite forallb_forall in F. specialize (F a Ha). apply orb_true_iff in F as [F|F]; [destruct (name_eqb_spec a x); congruence|]. now apply nbrb_ok.
Qed.
Lemma same_maximal es s t : same_set s t -> maximal_clique es s -> maximal_clique es t.
Proof.
  intros E ((Ne & P & V) & M). split.
  - split; [intros ->; destruct s as [|a s]; [congruence|]; destruct (proj1 (E a)); now left|]. split; [intros a b Ha Hb; apply P; now apply E|intros a Ha; apply V; now apply E].
  - intros u Hu I x Hx. apply E. apply (M u Hu); [intros y Hy; apply I; now apply E|exact Hx].
Qed.
Lemma all_cliques_ok es : clique_list es (all_cliques es).
Proof.
  unfold all_cliques. assert (ND : NoDup (evertices es)) by apply NoDup_dedup. split; [|split].
  - intros s Hs. apply filter_In in Hs as [Hs M]. split; [now apply (subsets_NoDup (evertices es))|]. apply mc_maximal. apply maxb_ok; [now apply subsets_incl|exact M].
  - intros s Ms. destruct (subsets_all (evertices es) s) as (t & Ht & E). exists t.
    assert (St : same_set s t).
    { intros x. rewrite E. split; [|tauto]. intros Hx. split; [|exact Hx]. apply mc_maximal in Ms as (_ & I & _). now apply I. }
    split; [|exact St]. apply filter_In. split; [exact Ht|]. apply maxb_ok; [now apply subsets_incl|]. apply mc_maximal. now apply (same_maximal es s).
  - apply distinct_nth. apply distinct_filter. now apply subsets_distinct.
Qed.
