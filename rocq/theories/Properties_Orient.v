(** Properties_Orient.v -- C129: the directions iamb gives to the adjacencies it finds. *)
From Verif Require Import Py Num BayesNet SpecFactor SpecGraph Graph GraphTheory GraphTopsort GraphNet GraphCheck Data ParamLearn
  StructScore StructFacts SpecConstraint Constraint ConstraintFacts ConstraintMain Orient Properties_Constraint.
Open Scope nat_scope.

(** the directions orient_edges_gs2 returns, exactly.  Only pairs in an uncoupled meeting y - x - z get the direction
    x -> y; the later of two columns always gets it; the earlier one keeps it unless the other direction is there
    too, and then a single z -- some neighbour of y that is not one of x -- decides: x -> y is dropped exactly when
    the test calls x and z dependent given y and a proper subset of the compared blanket (listed in some order) *)
Theorem C129_exact : forall o test alpha n Mb E, good o -> dkeys Mb = columns n -> adjacency (columns n) E ->
  (forall D, orient_edges_gs2 o test alpha Mb E = Ok D -> dkeys D = columns n /\
    (forall x y, edge D x y -> uncoupled E x y) /\
    (forall x y, uncoupled E x y -> earlier y x -> edge D x y) /\
    (forall x y, uncoupled E x y -> ~ uncoupled E y x -> edge D x y) /\
    (forall x y, uncoupled E x y -> uncoupled E y x -> earlier x y ->
       exists z L, edge E y z /\ z <> x /\ ~ edge E x z /\ listings Mb y x z L /\ (edge D x y <-> ~ dependent_meeting test alpha y x z L))) /\
  (forall e, orient_edges_gs2 o test alpha Mb E = Raise e -> exists cols, test cols = Raise e).
Proof.
  intros o test alpha n Mb E Go K AE. pose proof (gs2_exact test alpha n Mb K o E Go AE) as H. split.
  - intros D ED. rewrite ED in H. destruct H as (KD & A & B & C). split; [assumption|]. split; [assumption|]. split; [|split].
    + intros x y U e. apply B; [assumption|]. intros [e' _]. exact (earlier_asym _ _ e e').
    + intros x y U N. apply B; tauto.
    + intros x y U u e. now apply C.
  - intros e Ee. rewrite Ee in H. exact H.
Qed.
Print Assumptions C129_exact.
(** with a test that does not care about the order of the conditioning columns, the order in which sets are iterated
    does not matter to an adjacency all of whose deciding meetings agree: both directions stay if none is dependent,
    only the later column's if all are *)
Definition meeting_dependent (test : ptest) (alpha : Qc) (Mb : dict (list name)) (x y z : name) : Prop :=
  exists T s, NoDup T /\ compared Mb x y z T /\ NoDup s /\ incl s T /\ length s < length T /\ dep test alpha y z (x :: s).
Theorem C129_order_free : forall o test alpha n Mb E D, good o -> order_free test -> dkeys Mb = columns n -> adjacency (columns n) E ->
  orient_edges_gs2 o test alpha Mb E = Ok D -> forall x y, uncoupled E x y -> uncoupled E y x -> earlier x y ->
  edge D y x /\
  ((forall z, edge E y z -> z <> x -> ~ edge E x z -> ~ meeting_dependent test alpha Mb y x z) -> edge D x y) /\
  ((forall z, edge E y z -> z <> x -> ~ edge E x z -> meeting_dependent test alpha Mb y x z) -> ~ edge D x y).
Proof.
  intros o test alpha n Mb E D Go OF K AE ED x y U u e. destruct (C129_exact o test alpha n Mb E Go K AE) as [H _]. destruct (H D ED) as (_ & _ & B & _ & C).
  split; [now apply B|]. destruct (C x y U u e) as (z & L & Z1 & Z2 & Z3 & HL & Z4).
  assert (Eq : meeting_dependent test alpha Mb y x z <-> dependent_meeting test alpha y x z L).
  { split.
    - intros (T & s & NT & CT & Ns & Is & Ls & Hd). pose proof (compared_length Mb y x z T L NT CT HL (length s)) as P.
      destruct (subset_sublist s (L (length s))) as (s' & Hs' & Ps'); [assumption|intros v Hv; apply (Permutation_in v (Permutation_sym P)); auto|exact (Permutation_NoDup (Permutation_sym P) NT)|].
      pose proof (Permutation_length Ps') as El. exists s'. rewrite El. split; [assumption|]. split; [now rewrite (Permutation_length P)|].
      destruct Hd as (q & Eq & Lq). exists q. split; [|assumption]. rewrite <- Eq. apply OF. now apply perm_skip.
    - intros (s & Ss & Ls & Hd). destruct HL as (T & NT & CT & P). exists T, s. specialize (P (length s)). pose proof (Permutation_NoDup (Permutation_sym P) NT) as NL.
      split; [assumption|]. split; [assumption|]. split; [exact (sublist_NoDup _ _ Ss NL)|]. split; [intros v Hv; apply (Permutation_in v P); now apply (sublist_incl _ _ Ss)|].
      split; [now rewrite <- (Permutation_length P)|assumption]. }
  split; intros Hz.
  - apply Z4. rewrite <- Eq. auto.
  - intros Hd. apply Z4 in Hd. apply Hd, Eq. auto.
Qed.
Print Assumptions C129_order_free.
(** the same for the network iamb returns, in terms of the blankets it found *)
Theorem C129_iamb : forall o mi test alpha t, good o -> answers mi -> answers test -> table_ok t ->
  exists Mb E bn, iamb o mi test alpha t SelNone = Ok (Net bn) /\ dkeys Mb = columns (t_ncols t) /\
    (forall x y, edge E x y <-> linked test alpha05 Mb x y \/ linked test alpha05 Mb y x) /\
    (forall x y, edge (bn_E bn) x y -> uncoupled E x y) /\
    (forall x y, uncoupled E x y -> earlier y x -> edge (bn_E bn) x y) /\
    (forall x y, uncoupled E x y -> ~ uncoupled E y x -> edge (bn_E bn) x y) /\
    (forall x y, uncoupled E x y -> uncoupled E y x -> earlier x y ->
       exists z L, edge E y z /\ z <> x /\ ~ edge E x z /\ listings Mb y x z L /\ (edge (bn_E bn) x y <-> ~ dependent_meeting test alpha y x z L)).
Proof.
  intros o mi test alpha t Go Am At T. set (n := t_ncols t).
  pose proof (iamb_blankets_ok (sub o 0) mi test alpha n (columns n) (good_sub _ _ Go) (fun z Hz => Hz) (NoDup_columns n)) as HM.
  unfold iamb. fold n. destruct (iamb_blankets (sub o 0) mi test alpha n (columns n)) as [Mb|e].
  2: { exfalso. destruct HM as [(c & Hc)|(c & Hc)]; [destruct (At c)|destruct (Am c)]; congruence. }
  destruct HM as [K L]. cbn [bind]. destruct (C56_resolve test alpha05 n Mb K) as [RR R]; [intros x l D; apply L in D; tauto|].
  destruct (resolve_markov_blanket test alpha05 n Mb) as [E|e].
  2: { exfalso. destruct (RR e eq_refl) as (c & Hc). destruct (At c). congruence. }
  destruct (R E eq_refl) as (KE & LE & SE & Lk). cbn [bind].
  assert (C : closed_edges E). { split; [rewrite KE; apply NoDup_columns|]. intros u v Huv. apply SE in Huv as (c & Dc & _). now apply dget_Some_In in Dc. }
  assert (AE : adjacency (columns n) E).
  { split; [assumption| | |exact SE].
    - intros x l Dl. split; [exact (LE _ _ Dl)|]. intros v Hv. rewrite <- KE. apply (proj2 C x). eexists; eauto.
    - intros x Hx. apply Lk in Hx. assert (Hxx : edge Mb x x) by (destruct Hx as [[Hx _]|[Hx _]]; exact Hx). destruct Hxx as (l & Dl & Hl). destruct (L _ _ Dl) as (_ & _ & N). contradiction. }
  destruct (C129_exact (sub o 1) test alpha n Mb E (good_sub _ _ Go) K AE) as [Ex Er].
  destruct (orient_edges_gs2 (sub o 1) test alpha Mb E) as [D|e]; [|exfalso; destruct (Er e eq_refl) as (c & Hc); destruct (At c); congruence].
  destruct (Ex D eq_refl) as (KD & A1 & A2 & A3 & A4). cbn [bind].
  destruct (value_dict_ok t T) as (vd & EV & _). rewrite EV. cbn [bind].
  destruct (build_ok D t vd T EV KD) as (bn & EB & HE & _ & Inc & Ac & _).
  { split; [rewrite KD; apply NoDup_columns|]. intros u v Huv. rewrite KD, <- KE. apply (proj2 C u). now apply A1. }
  rewrite EB. cbn [bind]. exists Mb, E, bn. split; [reflexivity|]. rewrite HE. auto 10.
Qed.
Print Assumptions C129_iamb.

(** a test that is order-free: d-separation, the conditioning columns sorted *)
Definition sorted_perfect (n : nat) (dag : list (list nat)) : ptest := fun cols =>
  match cols with x :: y :: s => perfect' dag (x :: y :: filter (fun v => mem v s) (columns n)) | _ => Ok None end.
Lemma sorted_perfect_ok n dag : order_free (sorted_perfect n dag) /\ answers (sorted_perfect n dag).
Proof.
  split.
  - intros x y s s' P. simpl. f_equal. f_equal. f_equal. apply filter_ext. intros v. destruct (mem_spec v s) as [H|H], (mem_spec v s') as [H'|H']; try reflexivity; exfalso.
    + apply H'. exact (Permutation_in v P H).
    + apply H. exact (Permutation_in v (Permutation_sym P) H').
  - intros [|x [|y s]]; simpl; [eauto|eauto|]. apply perfect'_answers.
Qed.
(** the chain 0 - 1 - 2 - 3 with its true blankets: 1 and 2 point at each other, whatever the set order: the "directed"
    graph has a cycle *)
Definition chain : edict := [(c0, [c1]); (c1, [c0; c2]); (c2, [c1; c3]); (c3, [c2])].
Lemma chain_adjacency : adjacency (columns 4) chain.
Proof.
  split; [reflexivity| | |].
  - intros x l H. apply dget_in_list in H. destruct H as [[= <- <-]|[[= <- <-]|[[= <- <-]|[[= <- <-]|[]]]]]; (split; [repeat constructor; simpl; intuition discriminate|intros v Hv; simpl in *; intuition (subst; auto)]).
  - intros x (l & H & Hx). apply dget_in_list in H. destruct H as [[= <- <-]|[[= <- <-]|[[= <- <-]|[[= <- <-]|[]]]]]; simpl in Hx; intuition discriminate.
  - intros x y (l & H & Hx). apply dget_in_list in H. destruct H as [[= <- <-]|[[= <- <-]|[[= <- <-]|[[= <- <-]|[]]]]]; simpl in Hx; destruct Hx as [<-|Hx]; try (destruct Hx as [<-|[]]); try contradiction; apply edge_in_edge; reflexivity.
Qed.
Theorem C129_acyclic_refuted : order_free (sorted_perfect 4 [[]; [0]; [1]; [2]]) /\ adjacency (columns 4) chain /\
  forall o, good o -> exists D, orient_edges_gs2 o (sorted_perfect 4 [[]; [0]; [1]; [2]]) alpha05 chain chain = Ok D /\ edge D c1 c2 /\ edge D c2 c1 /\ edge D c1 c0 /\ edge D c2 c3.
Proof.
  set (test := sorted_perfect 4 [[]; [0]; [1]; [2]]). destruct (sorted_perfect_ok 4 [[]; [0]; [1]; [2]]) as [OF An]. fold test in OF, An.
  split; [assumption|]. split; [apply chain_adjacency|]. intros o Go.
  destruct (C129_exact o test alpha05 4 chain chain Go eq_refl chain_adjacency) as [Ex Er].
  destruct (orient_edges_gs2 o test alpha05 chain chain) as [D|e]; [|exfalso; destruct (Er e eq_refl) as (c & Hc); destruct (An c); congruence].
  exists D. split; [reflexivity|]. destruct (Ex D eq_refl) as (_ & _ & A2 & A3 & A4).
  assert (Y : forall a b, edge_in chain a b = true -> edge chain a b) by (intros a b H; now apply edge_in_edge).
  assert (N : forall a b, edge_in chain a b = false -> ~ edge chain a b) by (intros a b H H'; apply edge_in_edge in H'; congruence).
  assert (U12 : uncoupled chain c1 c2) by (split; [now apply Y|]; exists c0; split; [now apply Y|]; split; [discriminate|now apply N]).
  assert (U21 : uncoupled chain c2 c1) by (split; [now apply Y|]; exists c3; split; [now apply Y|]; split; [discriminate|now apply N]).
  assert (e12 : earlier c1 c2) by (exists 1, 2; auto).
  split; [|split; [now apply A2|split]].
  - destruct (A4 c1 c2 U12 U21 e12) as (z & L & Z1 & Z2 & Z3 & HL & Z4). apply Z4. assert (z = c3) as ->.
    { destruct Z1 as (l & Dl & Hl). vm_compute in Dl. injection Dl as <-. destruct Hl as [<-|[<-|[]]]; [exfalso; now apply Z2|reflexivity]. }
    intros (s & _ & Ls & _). destruct HL as (T & NT & (a & b & Ha & Hb & HT) & P). rewrite (Permutation_length (P (length s))) in Ls.
    assert (b = []) as ->. { destruct b as [|v b]; [reflexivity|]. exfalso. destruct (proj1 (Hb v) (or_introl eq_refl)) as ((l & Dl & Hl) & B1 & B2). vm_compute in Dl. injection Dl as <-. destruct Hl as [<-|[]]. now apply B1. }
    assert (Ia : In c0 a). { apply Ha. split; [now apply Y|]. split; discriminate. }
    destruct HT as [(_ & _ & ->)|(HT & ->)]; [simpl in Ls; lia|]. apply HT. split; [intros v []|]. intros I. destruct (I _ Ia).
  - apply A2; [|exists 0, 1; auto]. split; [now apply Y|]. exists c2. split; [now apply Y|]. split; [discriminate|now apply N].
  - apply A3.
    + split; [now apply Y|]. exists c1. split; [now apply Y|]. split; [discriminate|now apply N].
    + intros [_ (w & (l & Dl & Hl) & W2 & _)]. vm_compute in Dl. injection Dl as <-. destruct Hl as [<-|[]]. now apply W2.
Qed.
Print Assumptions C129_acyclic_refuted.
(** end to end: 0 -> 2 with unrelated columns 1 and 3, perfect test and association: iamb returns a network with the
    cycle 2 -> 3 -> 2 whose node list is empty *)
Theorem C129_network_refuted : exists bn, iamb id_oracle (assoc_of [[]; []; [0]; []]) (perfect' [[]; []; [0]; []]) alpha05 (tab 4) SelNone = Ok (Net bn) /\
  edge (bn_E bn) c2 c3 /\ edge (bn_E bn) c3 c2 /\ bn_V bn = [].
Proof. eexists. split; [vm_compute; reflexivity|]. split; [apply edge_in_edge; reflexivity|]. split; [apply edge_in_edge; reflexivity|reflexivity]. Qed.
Print Assumptions C129_network_refuted.
(** one meeting decides: with this test the direction 0 -> 1 is dropped because its deciding meeting is dependent *)
Definition star : edict := [(c0, [c1; c2]); (c1, [c0; c3]); (c2, [c0]); (c3, [c1])].
Definition blankets : edict := [(c0, [c1; c2; c3]); (c1, [c0; c2; c3]); (c2, [c0; c1; c3]); (c3, [c0; c1; c2])].
Example C129_example : exists D, orient_edges_gs2 id_oracle (fun _ => Ok (Some 0%Qc)) alpha05 blankets star = Ok D /\ edge D c1 c0 /\ ~ edge D c0 c1.
Proof. eexists. split; [vm_compute; reflexivity|]. split; [apply edge_in_edge; reflexivity|]. intros H. apply edge_in_edge in H. discriminate. Qed.
(** which meeting decides depends on the order in which Python iterates a set: the same data, the same test, two
    iteration orders, two different graphs *)
Definition fork : edict := [(c0, [c1; NInt 4]); (c1, [c0; c2; c3]); (c2, [c1]); (c3, [c1]); (NInt 4, [c0])].
Definition all_blankets : edict := map (fun i => (NInt i, filter (fun v => negb (name_eqb v (NInt i))) (columns 5))) (seq 0 5).
Definition only2 : ptest := fun cols => Ok (Some (if mem c2 (firstn 2 cols) then 0%Qc else 1%Qc)).
Theorem C129_deterministic_refuted : good id_oracle /\ good rev_oracle /\ order_free only2 /\ exists D1 D2,
  orient_edges_gs2 id_oracle only2 alpha05 all_blankets fork = Ok D1 /\ orient_edges_gs2 rev_oracle only2 alpha05 all_blankets fork = Ok D2 /\
  edge D1 c1 c0 /\ edge D2 c1 c0 /\ ~ edge D1 c0 c1 /\ edge D2 c0 c1.
Proof.
  split; [apply good_id|]. split; [apply good_rev|]. split; [intros x y s s' _; reflexivity|]. do 2 eexists. split; [vm_compute; reflexivity|]. split; [vm_compute; reflexivity|].
  split; [apply edge_in_edge; reflexivity|]. split; [apply edge_in_edge; reflexivity|]. split; [|apply edge_in_edge; reflexivity]. intros H. apply edge_in_edge in H. discriminate.
Qed.
Print Assumptions C129_deterministic_refuted.
