(** Properties_Constraint.v -- C55-C59, C74-C77: constraint-based structure learning. *)
From Verif Require Import Py Num BayesNet SpecFactor SpecGraph Graph GraphTheory GraphTopsort GraphNet GraphCheck Data ParamLearn
  StructScore StructFacts SpecConstraint Constraint ConstraintFacts PcComplete ConstraintMain.
Open Scope nat_scope.

Definition c0 := NInt 0. Definition c1 := NInt 1. Definition c2 := NInt 2. Definition c3 := NInt 3.
(** d-separation is decided correctly on the textbook graphs: chain, fork, collider, descendant of a collider *)
Example d_separated_textbook :
  d_separatedb [[]; [0]; [1]] 0 2 [1] = true /\ d_separatedb [[]; [0]; [1]] 0 2 [] = false /\
  d_separatedb [[1]; []; [1]] 0 2 [1] = true /\ d_separatedb [[]; [0; 2]; []] 0 2 [] = true /\
  d_separatedb [[]; [0; 2]; []] 0 2 [1] = false /\ d_separatedb [[]; [0; 2]; []; [1]] 0 2 [3] = false.
Proof. vm_compute. repeat split. Qed.
Lemma perfect_answers dag x y z : exists p, perfect dag (x :: y :: z) = Ok p.
Proof. simpl. eauto. Qed.
(** a test that answers [perfect] where it is defined and 0 on fewer than two columns *)
Definition perfect' (dag : list (list nat)) : ptest := fun cols => match perfect dag cols with Ok p => Ok p | Raise _ => Ok (Some 0%Qc) end.
Lemma perfect'_answers dag : answers (perfect' dag).
Proof. intros cols. unfold perfect'. destruct (perfect dag cols); eauto. Qed.
Definition half : Qc := Q2Qc (1 # 2).
Definition tab (n : nat) : table := mkT n [map NInt (repeat 0 n); map NInt (repeat 1 n)].
Lemma tab_ok n : table_ok (tab n).
Proof. intros r [<-|[<-|[]]]; simpl; now rewrite map_length, repeat_length. Qed.

(** ** C55 *)
(** the skeleton pc finds: symmetric, no self-loops, no repetitions; two columns are not adjacent
    only if some non-empty set of other columns was found to separate them *)
Theorem C55_skeleton : forall test alpha n E B, pc_skeleton test alpha n = Ok (E, B) ->
  adjacency (columns n) E /\
  (forall x y, In x (columns n) -> In y (columns n) -> x <> y -> ~ edge E x y -> exists z, separates test alpha (columns n) x y z) /\
  (forall x y s, recorded B x y s -> ~ edge E x y /\ separates test alpha (columns n) x y s).
Proof.
  intros test alpha n E B H. pose proof (safe_Ok _ _ _ _ (pc_skeleton_inv test alpha n) H) as (A & M & _ & BK). cbn [fst snd] in *.
  split; [exact A|]. split; [exact M|]. intros x y s (b & D & Db). destruct (BK _ _ D) as [-> |(u & w & -> & _ & _ & _ & H1 & H2)]; [discriminate|].
  cbn [dget] in Db. destruct (name_eqb_spec y u) as [-> |]; [injection Db as <-; auto|discriminate].
Qed.
Print Assumptions C55_skeleton.
(** it terminates for every test, and raises only what the test raises *)
Theorem C55_terminates : forall test alpha n,
  (answers test -> exists st, pc_skeleton test alpha n = Ok st) /\
  (forall e, pc_skeleton test alpha n = Raise e -> exists cols, test cols = Raise e).
Proof.
  intros test alpha n. pose proof (pc_skeleton_inv test alpha n) as H. split.
  - intros A. destruct (safe_raised _ _ _ A H) as (st & E & _). eauto.
  - intros e E. rewrite E in H. exact H.
Qed.
Print Assumptions C55_terminates.
(** the network: its edges are adjacencies of the skeleton; every column is a node if the orientation is acyclic *)
Theorem C55_network : forall test alpha t, answers test -> table_ok t ->
  exists E B bn, pc_skeleton test alpha (t_ncols t) = Ok (E, B) /\ pc test alpha t = Ok bn /\
    dkeys (bn_E bn) = columns (t_ncols t) /\ (forall u v, edge (bn_E bn) u v -> edge E u v) /\ incl (bn_V bn) (columns (t_ncols t)) /\
    (acyclic (bn_E bn) -> Permutation (bn_V bn) (columns (t_ncols t))).
Proof.
  intros test alpha t A T. destruct (safe_raised _ _ _ A (pc_skeleton_inv test alpha (t_ncols t))) as ((E & B) & EP & (Ad & _ & BK & _)). cbn [fst snd] in *.
  pose proof (adjacency_closed _ _ (NoDup_columns _) Ad) as C.
  destruct (orient_edges_CS_ok E B C) as (D & ED & KD & _ & EdD); [intros x Hx; apply BK; now rewrite (ad_keys _ _ Ad) in Hx|].
  assert (Sub : forall u v, edge D u v -> edge E u v). { intros u v H. apply EdD in H as (x & z & y & Hc). eapply contributes_edge; [apply (ad_sym _ _ Ad)|exact Hc]. }
  destruct (value_dict_ok t T) as (vd & EV & _).
  destruct (build_ok D t vd T EV) as (bn & EB & HE & _ & Inc & Ac & _); [now rewrite KD, (ad_keys _ _ Ad)| |].
  { split; [rewrite KD; apply C|]. intros u v H. rewrite KD. apply (proj2 C u). auto. }
  exists E, B, bn. split; [exact EP|]. split; [unfold pc; rewrite EV; cbn [bind]; rewrite EP; cbn [bind fst snd]; rewrite ED; exact EB|].
  rewrite HE. split; [now rewrite KD, (ad_keys _ _ Ad)|]. auto.
Qed.
Print Assumptions C55_network.
Example C55_example : exists E B, pc_skeleton (perfect' [[]; [0]; [1]]) half 3 = Ok (E, B) /\ edge E c0 c1 /\ ~ edge E c0 c2 /\ recorded B c0 c2 [c1].
Proof.
  do 2 eexists. split; [vm_compute; reflexivity|]. split; [exists [c1]; split; [reflexivity|now left]|]. split.
  - intros (c & D & H). vm_compute in D. injection D as <-. destruct H as [H|[]]. discriminate.
  - eexists. split; reflexivity.
Qed.
(** what it does find, for conditioning sets of every size: if y is the only column the test ever separates from x (no assumption
    about the other columns), and it does so given some non-empty set z, then the edge x - y goes *)
Theorem C55_finds : forall test alpha n E B x y z, pc_skeleton test alpha n = Ok (E, B) ->
  In x (columns n) -> In y (columns n) -> x <> y ->
  (forall w s, In w (columns n) -> w <> x -> w <> y -> ~ separates test alpha (columns n) x w s) ->
  z <> [] -> sublist z (columns n) -> ~ In x z -> ~ In y z -> indep test alpha x y z -> ~ edge E x y.
Proof. intros. eapply pc_finds; eauto. Qed.
Print Assumptions C55_finds.
(** four columns, and only 0 and 1 are separated, by 2 and 3 together *)
Definition two_needed : ptest := fun cols => Ok (Some (if list_eq_dec name_eq_dec cols [c0; c1; c2; c3] then 1%Qc else 0%Qc)).
Example C55_finds_example : exists E B, pc_skeleton two_needed half 4 = Ok (E, B) /\ (forall w s, In w (columns 4) -> w <> c0 -> w <> c1 -> ~ separates two_needed half (columns 4) c0 w s) /\ sublist [c2; c3] (columns 4) /\ indep two_needed half c0 c1 [c2; c3] /\ ~ edge E c0 c1 /\ edge E c0 c2 /\ edge E c2 c3.
Proof.
  do 2 eexists. split; [vm_compute; reflexivity|]. split.
  { assert (F : forall cols p, two_needed cols = Ok (Some p) -> (half < p)%Qc -> cols = [c0; c1; c2; c3]).
    { intros cols p. unfold two_needed. destruct (list_eq_dec _ _ _) as [-> |]; [reflexivity|]. intros [= <-] H. vm_compute in H. discriminate. }
    intros w s _ N0 N1 (_ & _ & _ & _ & _ & [(p & T & H)|(p & T & H)]); apply (F _ _ T) in H; congruence. }
  split; [apply sub_skip, sub_skip, sub_take, sub_take, sub_nil|].
  split; [exists 1%Qc; split; vm_compute; reflexivity|]. split; [|split].
  - intros (c & D & H). vm_compute in D. injection D as <-. destruct H as [H|[H|[]]]; discriminate.
  - eexists. split; [vm_compute; reflexivity|now left].
  - eexists. split; [vm_compute; reflexivity|]. right; right; now left.
Qed.
(** not every pair that a single column separates loses its edge: removing from the list being
    iterated skips the next neighbour.  Three unrelated columns, perfect test: 1 - 2 stays. *)
Theorem C55_complete_refuted : exists dag n E B,
  pc_skeleton (perfect' dag) half n = Ok (E, B) /\ edge E c1 c2 /\ In c0 (dkeys E) /\ indep (perfect' dag) half c1 c2 [c0] /\ indep (perfect' dag) half c2 c1 [c0].
Proof.
  exists [[]; []; []], 3. do 2 eexists. split; [vm_compute; reflexivity|]. split; [exists [c2]; split; [reflexivity|now left]|]. split; [now left|].
  split; exists 1%Qc; (split; [vm_compute; reflexivity|reflexivity]).
Qed.
Print Assumptions C55_complete_refuted.
(** the orientation may contain a cycle, and then columns are missing from the network: for the
    tree 2 <- 1 <- 0 -> 3 and a perfect test the edge 0 - 1 is oriented both ways and the network has no nodes at all *)
Theorem C55_nodes_refuted : exists dag t bn, table_ok t /\ t_ncols t = 4 /\ pc (perfect' dag) half t = Ok bn /\
  edge (bn_E bn) c0 c1 /\ edge (bn_E bn) c1 c0 /\ bn_V bn = [].
Proof.
  exists [[]; [0]; [1]; [0]], (tab 4). eexists. split; [apply tab_ok|]. split; [reflexivity|]. split; [vm_compute; reflexivity|].
  split; [eexists; split; [vm_compute; reflexivity|vm_compute; tauto]|]. split; [eexists; split; [vm_compute; reflexivity|vm_compute; tauto]|]. reflexivity.
Qed.
Print Assumptions C55_nodes_refuted.

(** ** C74: pc never tests marginal independence *)
Theorem C74_marginal : forall t1 t2 alpha t,
  (forall x y c z, t1 (x :: y :: c :: z) = t2 (x :: y :: c :: z)) -> pc t1 alpha t = pc t2 alpha t.
Proof. intros t1 t2 alpha t H. unfold pc. now rewrite (pc_skeleton_ext t1 t2 alpha (t_ncols t) H). Qed.
Print Assumptions C74_marginal.
(** with two columns the result is the edgeless network, whatever the test says *)
Theorem C74_two_columns : forall test alpha t, table_ok t -> t_ncols t = 2 ->
  exists bn, pc test alpha t = Ok bn /\ bn_V bn = [c0; c1] /\ forall u v, ~ edge (bn_E bn) u v.
Proof.
  intros test alpha t T E2. destruct (value_dict_ok t T) as (vd & EV & KV & _). unfold pc. rewrite EV, E2. cbn [bind].
  assert (P : pc_skeleton test alpha 2 = Ok ([(c0, [c1]); (c1, [c0])], [(c0, []); (c1, [])])) by reflexivity. rewrite P. cbn [bind fst snd].
  assert (O : orient_edges_CS [(c0, [c1]); (c1, [c0])] [(c0, []); (c1, [])] = Ok (edgeless 2)) by reflexivity. rewrite O. cbn [bind].
  destruct (set_structure_ok (edgeless 2) (Some vd) [c0; c1] (edgeless_closed _) (edgeless_topsort 2)) as (bn & -> & HV & HE & _).
  - intros v Hv. apply In_dget. rewrite KV, E2. exact Hv.
  - exists bn. split; [reflexivity|]. split; [assumption|]. rewrite HE. intros u v. apply edgeless_edge.
Qed.
Print Assumptions C74_two_columns.
(** so the v-structure 0 -> 2 <- 1 cannot be found: the perfect test of that DAG gives the edgeless network *)
Theorem C74_vstructure_refuted : exists t bn, table_ok t /\ pc (perfect' [[]; []; [0; 1]]) half t = Ok bn /\ bn_V bn = [c0; c1; c2] /\
  (forall u v, ~ edge (bn_E bn) u v) /\ indep (perfect' [[]; []; [0; 1]]) half c0 c1 [] /\ dep (perfect' [[]; []; [0; 1]]) half c0 c2 [].
Proof.
  exists (tab 3). eexists. split; [apply tab_ok|]. split; [vm_compute; reflexivity|]. split; [reflexivity|]. split.
  - intros u v H. apply edge_in_edge in H. cbn in H. unfold edge_in in H. cbn [dget bn_E] in H.
    destruct (name_eqb u (NInt 0)), (name_eqb u (NInt 1)), (name_eqb u (NInt 2)); discriminate.
  - split; [exists 1%Qc|exists 0%Qc]; (split; [vm_compute; reflexivity|reflexivity]).
Qed.
Print Assumptions C74_vstructure_refuted.

(** ** C59 *)
(** exactly which edges orient_edges_CS returns *)
Theorem C59_exact : forall E B, closed_edges E -> (forall x, In x (dkeys E) -> In x (dkeys B)) ->
  exists D, orient_edges_CS E B = Ok D /\ dkeys D = dkeys E /\ (forall x l, dget D x = Some l -> NoDup l) /\
    forall a b, edge D a b <-> exists x z y s, meeting E x z y /\ recorded B x y s /\
      ((~ In z s /\ b = z /\ (a = x \/ a = y)) \/ (In z s /\ a = z /\ (b = x \/ b = y))).
Proof.
  intros E B C K. destruct (orient_edges_CS_ok E B C K) as (D & ED & KD & L & Ed). exists D. split; [exact ED|]. split; [exact KD|]. split; [exact L|].
  intros a b. rewrite Ed. unfold contributes. split.
  - intros (x & z & y & M & s & R & H). exists x, z, y, s. split; [exact M|]. split; [exact R|]. tauto.
  - intros (x & z & y & s & M & R & H). exists x, z, y. split; [exact M|]. exists s. split; [exact R|]. tauto.
Qed.
Print Assumptions C59_exact.
(** hence only adjacencies, and no edge that is in no uncoupled meeting *)
Theorem C59_adjacencies : forall E B D, closed_edges E -> (forall x, In x (dkeys E) -> In x (dkeys B)) -> (forall x y, edge E x y -> edge E y x) ->
  orient_edges_CS E B = Ok D -> forall a b, edge D a b -> edge E a b /\ exists c, meeting E a b c \/ meeting E c a b \/ meeting E c b a \/ meeting E b a c.
Proof.
  intros E B D C K Sy ED a b H. destruct (C59_exact E B C K) as (D' & ED' & _ & _ & Ed). rewrite ED in ED'. injection ED' as <-.
  apply Ed in H as (x & z & y & s & M & _ & HH). pose proof M as (M1 & M2 & _). destruct HH as [(_ & -> & [-> | ->])|(_ & -> & [-> | ->])]; (split; [auto|]).
  - exists y. auto.
  - exists x. auto.
  - exists y. auto.
  - exists x. auto.
Qed.
Print Assumptions C59_adjacencies.
(** an edge can be oriented both ways: 0 - 1 - 2 - 3 - 0 with the opposite corners separated by both others (Example: the chain of C55_nodes_refuted too) *)
Theorem C59_directed_refuted : exists E B D, closed_edges E /\ (forall x, In x (dkeys E) -> In x (dkeys B)) /\ (forall x y, edge E x y -> edge E y x) /\
  orient_edges_CS E B = Ok D /\ edge D c0 c1 /\ edge D c1 c0.
Proof.
  destruct (safe_raised _ _ _ (perfect'_answers [[]; [0]; [1]; [0]]) (pc_skeleton_inv (perfect' [[]; [0]; [1]; [0]]) half 4)) as ((E & B) & EP & (Ad & _ & BK & _)). cbn [fst snd] in *.
  exists E, B. vm_compute in EP. injection EP as <- <-. eexists. split; [exact (adjacency_closed _ _ (NoDup_columns _) Ad)|]. split; [exact BK|]. split; [exact (ad_sym _ _ Ad)|].
  split; [vm_compute; reflexivity|]. split; (eexists; split; [vm_compute; reflexivity|vm_compute; tauto]).
Qed.
Print Assumptions C59_directed_refuted.

(** ** C56 *)
Theorem C56_resolve : forall test alpha n Mb, dkeys Mb = columns n -> (forall x l, dget Mb x = Some l -> NoDup l /\ incl l (columns n)) ->
  (forall e, resolve_markov_blanket test alpha n Mb = Raise e -> exists cols, test cols = Raise e) /\
  (forall E, resolve_markov_blanket test alpha n Mb = Ok E ->
     dkeys E = columns n /\ (forall x l, dget E x = Some l -> NoDup l) /\ (forall x y, edge E x y -> edge E y x) /\
     (forall x y, edge E x y <-> linked test alpha Mb x y \/ linked test alpha Mb y x)).
Proof.
  intros test alpha n Mb K L. assert (H : safe (raised test) _ _) by (apply (resolve_ok test alpha n Mb K); intros x Hx; rewrite <- K in Hx;
    destruct (In_dget _ _ Hx) as (l & D); exists l; destruct (L _ _ D); auto). split.
  - intros e E. rewrite E in H. exact H.
  - intros E EE. rewrite EE in H. destruct H as ((KE & LE & SE) & Ed). auto.
Qed.
Print Assumptions C56_resolve.
Example C56_example : resolve_markov_blanket (perfect' [[]; [0]; [1]]) alpha05 3 [(c0, [c1]); (c1, [c0; c2]); (c2, [c1])] = Ok [(c0, [c1]); (c1, [c0; c2]); (c2, [c1])].
Proof. vm_compute. reflexivity. Qed.
(** the whole set T is never tested.  0 <- 2 -> 1 with blankets that still contain the pair 0, 1: here T = {2}, 2 separates
    0 and 1, only the empty set is tried, and the edge 0 - 1 is added *)
Theorem C56_full_refuted : exists test alpha n Mb E, dkeys Mb = columns n /\ (forall x l, dget Mb x = Some l -> NoDup l /\ incl l (columns n)) /\
  resolve_markov_blanket test alpha n Mb = Ok E /\ edge E c0 c1 /\ ~ linked_full test alpha Mb c0 c1 /\ ~ linked_full test alpha Mb c1 c0.
Proof.
  exists (perfect' [[2]; [2]; []]), alpha05, 3, [(c0, [c2; c1]); (c1, [c2; c0]); (c2, [c0; c1])]. eexists. split; [reflexivity|]. split.
  - intros x l D. cbn [dget] in D. destruct (name_eqb x c0); [injection D as <-|destruct (name_eqb x c1); [injection D as <-|destruct (name_eqb x c2); [injection D as <-|discriminate]]];
      (split; [apply Examples.nodupb_ok; reflexivity|apply Examples.inclb_ok; reflexivity]).
  - split; [vm_compute; reflexivity|]. split; [eexists; split; [vm_compute; reflexivity|vm_compute; tauto]|].
    split; intros [_ H].
    + apply (H [c2] ltac:(do 2 eexists; split; [reflexivity|split; reflexivity]) [c2]); [apply sub_take, sub_nil|]. exists 1%Qc. split; [vm_compute; reflexivity|reflexivity].
    + apply (H [c2] ltac:(do 2 eexists; split; [reflexivity|split; reflexivity]) [c2]); [apply sub_take, sub_nil|]. exists 1%Qc. split; [vm_compute; reflexivity|reflexivity].
Qed.
Print Assumptions C56_full_refuted.

(** ** C57 *)
(** the grow phase ends for every test, with every dependent column inside *)
Theorem C57_grow : forall test alpha n x, answers test -> exists s, grow (S n) test alpha n x [] = Ok s /\
  NoDup s /\ incl s (columns n) /\ ~ In x s /\ forall y, In y (columns n) -> y <> x -> ~ In y s -> ~ dep test alpha x y s.
Proof.
  intros test alpha n x A. destruct (safe_raised test _ _ A (grow_ok test alpha n x (S n) [] (conj (NoDup_nil _) (conj (fun z (h : In z []) => match h with end) (fun h => h))) ltac:(simpl; lia)))
    as (s & E & (N & Inc & Nx) & G). exists s. auto 10.
Qed.
Print Assumptions C57_grow.
(** the shrink phase returns what it was given or never returns: it ends iff the first pass removes nothing *)
Theorem C57_shrink : forall test alpha x s, answers test -> NoDup s ->
  ((forall y r, rest_of s y r -> dep test alpha x y r) -> forall fuel, shrink (S fuel) test alpha x s = Ok s) /\
  ((exists y r, rest_of s y r /\ ~ dep test alpha x y r) -> forall fuel, shrink fuel test alpha x s = Raise OutOfFuel).
Proof.
  intros test alpha x s A N. split; [intros H fuel; now apply shrink_stops|]. intros (y & r & Hr & ND) fuel. now apply (shrink_loops test alpha x fuel s y r).
Qed.
Print Assumptions C57_shrink.
(** if gs returns, what it used are Markov blankets as far as the test can tell, the adjacencies are
    the linked pairs (resolved at level 0.05, whatever alpha is), and its edges are among them *)
Theorem C57_gs : forall fuel o test alpha t l, good o -> table_ok t -> gs fuel o test alpha t SelNone = Ok l ->
  exists Mb bn, l = Net bn /\ dkeys (bn_E bn) = columns (t_ncols t) /\ incl (bn_V bn) (columns (t_ncols t)) /\
    (forall x, In x (columns (t_ncols t)) -> exists s, dget Mb x = Some s /\ blanket test alpha (columns (t_ncols t)) x s) /\
    (forall x y, edge (bn_E bn) x y -> linked test alpha05 Mb x y \/ linked test alpha05 Mb y x).
Proof.
  intros fuel o test alpha t l Go T H. unfold gs in H. destruct (value_dict_ok t T) as (vd & EV & _). rewrite EV in H. cbn [bind] in H.
  apply bind_Ok in H as (Mb & EM & H). apply bind_Ok in H as (E & EE & H). apply bind_Ok in H as (D & ED & H). apply bind_Ok in H as (bn & EB & H). injection H as <-.
  destruct (gs_blankets_ok _ _ _ _ _ _ (fun z Hz => Hz) EM) as (K & L & Bl).
  destruct (C56_resolve test alpha05 (t_ncols t) Mb K L) as [_ R]. destruct (R E EE) as (KE & LE & SE & Lk).
  assert (C : closed_edges E). { split; [rewrite KE; apply NoDup_columns|]. intros u v Huv. apply SE in Huv as (c & Dc & _). now apply dget_Some_In in Dc. }
  pose proof (safe_Ok _ _ _ _ (orient_edges_MB_ok test alpha (t_ncols t) Mb K o E Go C KE LE) ED) as (KD & LD & SD).
  destruct (build_ok D t vd T EV KD) as (bn' & EB' & HE & _ & Inc & _).
  { split; [rewrite KD; apply NoDup_columns|]. intros u v Huv. rewrite KD, <- KE. apply (proj2 C u). auto. }
  rewrite EB in EB'. injection EB' as <-. exists Mb, bn. split; [reflexivity|]. rewrite HE. split; [assumption|]. split; [assumption|]. split; [exact Bl|].
  intros x y Hxy. apply Lk. auto.
Qed.
Print Assumptions C57_gs.
(** on a chain 0 -> 1 -> 2 and a perfect test gs never returns: no bound on the loop is enough *)
Theorem C57_terminates_refuted : forall fuel o t, table_ok t -> t_ncols t = 3 -> gs fuel o (perfect' [[]; [0]; [1]]) alpha05 t SelNone = Raise OutOfFuel.
Proof.
  intros fuel o t T E3. unfold gs. destruct (value_dict_ok t T) as (vd & -> & _). cbn [bind]. rewrite E3.
  rewrite (gs_blankets_loops fuel (perfect' [[]; [0]; [1]]) alpha05 3 (columns 3) c2 [c0; c1] c0 [c1]); [reflexivity|apply perfect'_answers|intros z Hz; exact Hz|vm_compute; tauto| | |].
  - vm_compute. reflexivity.
  - exists [], [c1]. auto.
  - intros (p & E & L). vm_compute in E. injection E as <-. vm_compute in L. discriminate.
Qed.
Print Assumptions C57_terminates_refuted.
(** two dependent columns: gs returns a network without any node (both directions are kept, topsort finds no root) *)
Theorem C57_two_refuted : forall fuel o test alpha t, good o -> table_ok t -> t_ncols t = 2 -> dep test alpha c0 c1 [] -> dep test alpha c1 c0 [] ->
  exists bn, gs (S fuel) o test alpha t SelNone = Ok (Net bn) /\ bn_V bn = [] /\ bn_E bn = [(c0, [c1]); (c1, [c0])].
Proof.
  intros fuel o test alpha t Go T E2 (p & T1 & P1) (q & T2 & P2). unfold gs. destruct (value_dict_ok t T) as (vd & -> & _). cbn [bind]. rewrite E2.
  apply qltb_lt in P1, P2. unfold c0, c1 in *.
  assert (B : gs_blankets (S fuel) test alpha 2 (columns 2) = Ok [(c0, [c1]); (c1, [c0])]).
  { unfold gs_blankets, columns. cbn -[qltb]. rewrite T1. cbn -[qltb]. rewrite P1. cbn -[qltb]. rewrite T1. cbn -[qltb]. rewrite P1. cbn -[qltb].
    rewrite T2. cbn -[qltb]. rewrite P2. cbn -[qltb]. rewrite T2. cbn -[qltb]. rewrite P2. reflexivity. }
  rewrite B. cbn [bind]. assert (R : resolve_markov_blanket test alpha05 2 [(c0, [c1]); (c1, [c0])] = Ok [(c0, [c1]); (c1, [c0])]) by reflexivity. rewrite R. cbn [bind].
  rewrite orient_edges_MB_coupled; [|assumption| |].
  - cbn [bind]. eexists. split; [reflexivity|]. split; reflexivity.
  - apply closedb_ok. reflexivity.
  - intros x y z Hxy Hxz Nzy. apply edge_in_edge in Hxy, Hxz. unfold edge_in in *. cbn [dget] in Hxy, Hxz.
    destruct (name_eqb_spec x c0) as [-> |_]; [|destruct (name_eqb_spec x c1) as [-> |_]; [|discriminate]];
    apply mem_In in Hxy, Hxz; destruct Hxy as [<-|[]]; destruct Hxz as [<-|[]]; congruence.
Qed.
Print Assumptions C57_two_refuted.
Example C57_example : exists bn, gs 1 id_oracle (perfect' [[]; []]) alpha05 (tab 2) SelNone = Ok (Net bn) /\ bn_V bn = [c0; c1].
Proof. eexists. split; [vm_compute; reflexivity|reflexivity]. Qed.

(** ** C75: orienting from blankets *)
(** orient_edges_MB only takes directions away; besides the test's exceptions it can raise only ValueError, and that only if
    two columns have blankets reaching beyond the meeting they are in *)
Theorem C75_only_removes : forall o test alpha n Mb E, good o -> dkeys Mb = columns n -> closed_edges E -> dkeys E = columns n ->
  (forall x l, dget E x = Some l -> NoDup l) ->
  (forall D, orient_edges_MB o test alpha Mb E = Ok D -> dkeys D = columns n /\ (forall x l, dget D x = Some l -> NoDup l) /\ sub_edges D E) /\
  (forall e, orient_edges_MB o test alpha Mb E = Raise e -> (exists cols, test cols = Raise e) \/
     (e = ValueError /\ exists X Y Z my mz u w, dget Mb Y = Some my /\ dget Mb Z = Some mz /\
        In u my /\ u <> X /\ u <> Z /\ In w mz /\ w <> X /\ w <> Y)).
Proof.
  intros o test alpha n Mb E Go K C KE L. pose proof (orient_edges_MB_ok test alpha n Mb K o E Go C KE L) as H. split.
  - intros D ED. rewrite ED in H. exact H.
  - intros e Ee. rewrite Ee in H. destruct H as [H|(Ev & X & Y & Z & T & HY & HZ & ET & NT)]; [left; exact H|right]. split; [assumption|].
    unfold mb_T in ET. destruct (getitem_keys Mb Y) as (my & Gy & Dy); [now rewrite K|]. destruct (getitem_keys Mb Z) as (mz & Gz & Dz); [now rewrite K|].
    rewrite Gy, Gz in ET. cbn [bind] in ET. injection ET as ET.
    assert (Na : set_diff my [X; Z] <> [] /\ set_diff mz [X; Y] <> []).
    { unfold set_min in ET. destruct (forallb (fun x => mem x (set_diff my [X; Z])) (set_diff mz [X; Y]) && existsb (fun x => negb (mem x (set_diff mz [X; Y]))) (set_diff my [X; Z])) eqn:B.
      - split; [intros N0; rewrite N0 in B; rewrite andb_false_r in B; discriminate|congruence].
      - split; [congruence|]. intros N0. rewrite N0 in B. cbn [forallb andb] in B. destruct (set_diff my [X; Z]) as [|a r]; [congruence|discriminate B]. }
    destruct Na as [N1 N2]. destruct (set_diff my [X; Z]) as [|u r] eqn:Eu; [congruence|]. destruct (set_diff mz [X; Y]) as [|w q] eqn:Ew; [congruence|].
    assert (Hu : In u (set_diff my [X; Z])) by (rewrite Eu; now left). assert (Hw : In w (set_diff mz [X; Y])) by (rewrite Ew; now left).
    apply In_set_diff in Hu as [Hu Nu]. apply In_set_diff in Hw as [Hw Nw].
    exists X, Y, Z, my, mz, u, w. repeat (split; [assumption|]). split; [intros ->; apply Nu; now left|]. split; [intros ->; apply Nu; right; now left|].
    split; [assumption|]. split; [intros ->; apply Nw; now left|intros ->; apply Nw; right; now left].
Qed.
Print Assumptions C75_only_removes.
(** a graph in which any two neighbours of a node are adjacent is left completely undirected *)
Theorem C75_coupled : forall o test alpha Mb E, good o -> closed_edges E -> (forall x y z, edge E x y -> edge E x z -> z <> y -> edge E y z) ->
  orient_edges_MB o test alpha Mb E = Ok E.
Proof. intros. now apply orient_edges_MB_coupled. Qed.
Print Assumptions C75_coupled.
(** orient_edges_gs2 returns only directions of existing adjacencies that are in an uncoupled meeting *)
Theorem C75_gs2 : forall o test alpha n Mb E, good o -> dkeys Mb = columns n -> closed_edges E -> dkeys E = columns n ->
  (forall D, orient_edges_gs2 o test alpha Mb E = Ok D -> dkeys D = columns n /\ (forall x l, dget D x = Some l -> NoDup l) /\ forall x y, edge D x y -> uncoupled E x y) /\
  (forall e, orient_edges_gs2 o test alpha Mb E = Raise e -> exists cols, test cols = Raise e).
Proof.
  intros o test alpha n Mb E Go K C KE. pose proof (orient_edges_gs2_ok test alpha n Mb K o E Go C KE) as H. split.
  - intros D ED. rewrite ED in H. exact H.
  - intros e Ee. rewrite Ee in H. exact H.
Qed.
Print Assumptions C75_gs2.
(** the wrong guard of line 85: gs raises ValueError on 0 -> 2 -> 1 -> 3 <- 0 with a perfect test *)
Theorem C75_no_error_refuted : exists dag t, table_ok t /\ gs 1 id_oracle (perfect' dag) alpha05 t SelNone = Raise ValueError.
Proof. exists [[]; [2]; [0]; [0; 1]], (tab 4). split; [apply tab_ok|]. vm_compute. reflexivity. Qed.
Print Assumptions C75_no_error_refuted.
(** an adjacency can lose both directions: 0 -> 2 <- 1 -> 3 <- 0, perfect test *)
Theorem C75_keeps_refuted : exists dag t Mb E D, table_ok t /\ gs_blankets 1 (perfect' dag) alpha05 4 (columns 4) = Ok Mb /\
  resolve_markov_blanket (perfect' dag) alpha05 4 Mb = Ok E /\ orient_edges_MB id_oracle (perfect' dag) alpha05 Mb E = Ok D /\
  exists x y, edge E x y /\ edge E y x /\ ~ edge D x y /\ ~ edge D y x.
Proof.
  exists [[]; []; [0; 1]; [0; 1]], (tab 4). do 3 eexists. split; [apply tab_ok|]. split; [vm_compute; reflexivity|]. split; [vm_compute; reflexivity|]. split; [vm_compute; reflexivity|].
  exists c0, c2. split; [apply edge_in_edge; reflexivity|]. split; [apply edge_in_edge; reflexivity|]. split; intros H; apply edge_in_edge in H; discriminate.
Qed.
Print Assumptions C75_keeps_refuted.

(** ** C58 *)
(** the growing phase of iamb ends, with a set of other columns; it stops only when there is no candidate left to
    consider or the best candidate is not dependent (at level 0.05, whatever alpha is) *)
Theorem C58_grow : forall o mi test n T m, good o -> answers mi -> answers test -> NoDup m -> incl m (columns n) -> ~ In T m ->
  exists m', iamb_grow (S n) o mi test n T m = Ok m' /\ NoDup m' /\ incl m m' /\ incl m' (columns n) /\ ~ In T m' /\ grow_stopped mi test alpha05 (columns n) T m'.
Proof.
  intros o mi test n T m Go Am At N Inc NT. pose proof (iamb_grow_ok mi test n T (S n) o m Go (conj N (conj Inc NT)) ltac:(lia)) as H.
  destruct (iamb_grow (S n) o mi test n T m) as [m'|e].
  - destruct H as ((N' & I' & T') & Im & St). exists m'. auto 10.
  - exfalso. destruct H as [(c & Hc)|(c & Hc)]; [destruct (At c)|destruct (Am c)]; congruence.
Qed.
Print Assumptions C58_grow.
(** one step: the column added is the LAST candidate in iteration order; the best one only decides whether something is added *)
Theorem C58_adds_last : forall f o mi test n T m, good o -> answers mi -> answers test ->
  let cands := ask (sub o f) (set_diff (columns n) (T :: m)) in
  (forall mx, best_candidate mi T m cands mx -> forall mx', best_candidate mi T m cands mx' -> dep test alpha05 mx T m -> dep test alpha05 mx' T m) ->
  (exists mx, best_candidate mi T m cands mx /\ dep test alpha05 mx T m) ->
  exists x, In x cands /\ (exists l, cands = l ++ [x]) /\ iamb_grow (S f) o mi test n T m = iamb_grow f o mi test n T (m ++ [x]).
Proof.
  intros f o mi test n T m Go Am At cands Tie (mx & Bx & Dx). cbn [iamb_grow]. fold cands.
  pose proof (iamb_best_ok mi test T m cands) as H. destruct (iamb_best mi T m cands) as [b|e]; cbn [safe] in H.
  2: { exfalso. destruct H as [(c & Hc)|(c & Hc)]; [destruct (At c)|destruct (Am c)]; congruence. }
  cbn [bind]. destruct (snd b) as [bx|].
  - destruct (Tie _ Bx _ H Dx) as (p & E & L). unfold are_independent. rewrite E. cbn [bind]. apply qltb_lt in L. unfold p_lt. rewrite L.
    destruct Bx as [Bx _]. assert (NE : cands <> []) by (intros E0; rewrite E0 in Bx; destruct Bx).
    exists (last cands bx). destruct (exists_last NE) as (l & x & El). assert (LE : last cands bx = x) by (rewrite El; apply last_last). rewrite LE.
    split; [rewrite El; apply in_app_iff; right; now left|]. split; [now exists l|reflexivity].
  - exfalso. destruct Bx as (Bx & v & E & Lt & _). pose proof (H mx v Bx E) as Hle. apply Qclt_not_le in Lt. contradiction.
Qed.
Print Assumptions C58_adds_last.
(** association 1 for d-connected columns, 0 for d-separated ones *)
Definition assoc_of (dag : list (list nat)) : ptest := fun cols =>
  match perfect' dag cols with Ok (Some p) => Ok (Some (1 - p)%Qc) | r => r end.
(** so a column that is independent of everything enters the blanket although a dependent one has a larger association *)
Theorem C58_best_refuted : exists dag o T m', good o /\ iamb_grow 4 o (assoc_of dag) (perfect' dag) 3 T [] = Ok m' /\ In c2 m' /\
  indep (perfect' dag) alpha05 c2 T [] /\ best_candidate (assoc_of dag) T [] [c1; c2] c1 /\ ~ best_candidate (assoc_of dag) T [] [c1; c2] c2.
Proof.
  exists [[]; [0]; []], id_oracle, c0. eexists. split; [apply good_id|]. split; [vm_compute; reflexivity|]. split; [now left|]. split; [exists 1%Qc; split; [vm_compute; reflexivity|reflexivity]|]. split.
  - split; [now left|]. exists 1%Qc. split; [vm_compute; reflexivity|]. split; [reflexivity|]. intros x w [<-|[<-|[]]] E; vm_compute in E; injection E as <-; discriminate.
  - intros (_ & v & E & _ & H). specialize (H c1 1%Qc (or_introl eq_refl) ltac:(vm_compute; reflexivity)). vm_compute in E. injection E as <-. vm_compute in H. now apply H.
Qed.
Print Assumptions C58_best_refuted.

(** ** C76: iamb's shrinking phase *)
(** it ends, and every column it removes is one the test calls DEPENDENT on the target given (some of) the others *)
Theorem C76_removes_dependent : forall o test alpha T m, good o -> answers test -> NoDup m ->
  exists m', iamb_shrink (S (length m)) o test alpha T 0 m = Ok m' /\ NoDup m' /\ incl m' m /\
    forall x, In x m -> ~ In x m' -> exists r, (forall z, In z r -> In z m /\ z <> x) /\ dep test alpha x T r.
Proof.
  intros o test alpha T m Go A N. destruct (safe_raised test _ _ A (iamb_shrink_ok test alpha T (S (length m)) o 0 m (length m) Go N ltac:(lia) ltac:(lia) ltac:(lia))) as (m' & E & H).
  exists m'. auto.
Qed.
Print Assumptions C76_removes_dependent.
(** hence a column that is independent of the target given everything is never removed *)
Theorem C76_keeps_independent : forall o test alpha T m m' x, good o -> answers test -> NoDup m -> In x m ->
  iamb_shrink (S (length m)) o test alpha T 0 m = Ok m' -> (forall r, ~ dep test alpha x T r) -> In x m'.
Proof.
  intros o test alpha T m m' x Go A N Hx E H. destruct (C76_removes_dependent o test alpha T m Go A N) as (m2 & E2 & _ & _ & R). rewrite E in E2. injection E2 as <-.
  destruct (in_dec name_eq_dec x m') as [I|I]; [exact I|]. exfalso. destruct (R x Hx I) as (r & _ & D). exact (H r D).
Qed.
Print Assumptions C76_keeps_independent.
(** 0 -> 1 and an unrelated column 2, perfect test and association: iamb returns exactly the wrong network, 2 -> 0 and 2 -> 1 *)
Theorem C76_blanket_refuted : exists bn, iamb id_oracle (assoc_of [[]; [0]; []]) (perfect' [[]; [0]; []]) alpha05 (tab 3) SelNone = Ok (Net bn) /\
  bn_E bn = [(c0, []); (c1, []); (c2, [c0; c1])].
Proof. eexists. split; [vm_compute; reflexivity|reflexivity]. Qed.
Print Assumptions C76_blanket_refuted.
(** the result of iamb: a network over the columns whose edges are all in uncoupled meetings of a symmetric graph of linked pairs *)
Theorem C76_iamb : forall o mi test alpha t, good o -> answers mi -> answers test -> table_ok t ->
  exists Mb E bn, iamb o mi test alpha t SelNone = Ok (Net bn) /\ dkeys (bn_E bn) = columns (t_ncols t) /\ incl (bn_V bn) (columns (t_ncols t)) /\
    (acyclic (bn_E bn) -> Permutation (bn_V bn) (columns (t_ncols t))) /\
    dkeys Mb = columns (t_ncols t) /\ (forall x l, dget Mb x = Some l -> NoDup l /\ incl l (columns (t_ncols t)) /\ ~ In x l) /\
    (forall x y, edge E x y <-> linked test alpha05 Mb x y \/ linked test alpha05 Mb y x) /\
    (forall x y, edge (bn_E bn) x y -> uncoupled E x y).
Proof.
  intros o mi test alpha t Go Am At T. set (n := t_ncols t).
  pose proof (iamb_blankets_ok (sub o 0) mi test alpha n (columns n) (good_sub _ _ Go) (fun z Hz => Hz) (NoDup_columns n)) as HM.
  unfold iamb. fold n. destruct (iamb_blankets (sub o 0) mi test alpha n (columns n)) as [Mb|e].
  2: { exfalso. destruct HM as [(c & Hc)|(c & Hc)]; [destruct (At c)|destruct (Am c)]; congruence. }
  destruct HM as [K L]. cbn [bind]. destruct (C56_resolve test alpha05 n Mb K) as [RR R]; [intros x l D; apply L in D; tauto|].
  destruct (resolve_markov_blanket test alpha05 n Mb) as [E|e].
  2: { exfalso. destruct (RR e eq_refl) as (c & Hc). destruct (At c). congruence. }
  destruct (R E eq_refl) as (KE & LE & SE & Lk). cbn [bind].
  assert (C : closed_edges E). { split; [rewrite KE; apply NoDup_columns|]. intros u v Huv. apply SE in Huv as (c & Dc & _). now apply dget_Some_In in Dc. }
  destruct (safe_raised test _ _ At (orient_edges_gs2_ok test alpha n Mb K (sub o 1) E (good_sub _ _ Go) C KE)) as (D & -> & (KD & LD & UD)). cbn [bind].
  destruct (value_dict_ok t T) as (vd & EV & _). rewrite EV. cbn [bind].
  destruct (build_ok D t vd T EV KD) as (bn & EB & HE & _ & Inc & Ac & _).
  { split; [rewrite KD; apply NoDup_columns|]. intros u v Huv. rewrite KD, <- KE. apply (proj2 C u). now apply UD. }
  rewrite EB. cbn [bind]. exists Mb, E, bn. split; [reflexivity|]. rewrite HE. auto 10.
Qed.
Print Assumptions C76_iamb.
(** with two columns iamb always returns the edgeless network *)
Theorem C76_two_columns : forall o mi test alpha t, good o -> answers mi -> answers test -> table_ok t -> t_ncols t = 2 ->
  exists bn, iamb o mi test alpha t SelNone = Ok (Net bn) /\ Permutation (bn_V bn) [c0; c1] /\ forall u v, ~ edge (bn_E bn) u v.
Proof.
  intros o mi test alpha t Go Am At T E2. destruct (C76_iamb o mi test alpha t Go Am At T) as (Mb & E & bn & EI & K & _ & Ac & KM & L & Lk & U). rewrite E2 in *.
  assert (IE : forall x y, edge E x y -> In x (columns 2) /\ In y (columns 2) /\ x <> y).
  { assert (H : forall x y, edge Mb x y -> In x (columns 2) /\ In y (columns 2) /\ x <> y).
    { intros x y (c & D & Hy). destruct (L _ _ D) as (_ & I & N). apply dget_Some_In in D. rewrite KM in D. split; [exact D|]. split; [auto|]. intros ->. contradiction. }
    intros x y Hxy. apply Lk in Hxy as [[Hxy _]|[Hxy _]]; apply H in Hxy; intuition congruence. }
  assert (NE : forall u v, ~ edge (bn_E bn) u v).
  { intros u v H. apply U in H as (H1 & z & H2 & H3 & _). apply IE in H1 as (A1 & A2 & A3), H2 as (_ & B2 & B3). unfold columns in *. simpl in A1, A2, B2. intuition congruence. }
  exists bn. split; [exact EI|]. split; [|exact NE]. apply Ac. intros v P. induction P as [x y H|]; [exact (NE _ _ H)|assumption].
Qed.
Print Assumptions C76_two_columns.

(** ** C77: feature selection *)
(** gs and iamb with feature_selection never return a blanket: a list of columns is rejected, and for a single
    column the blanket is looked up under the key [column], which is not hashable *)
Theorem C77_gs : forall fuel o test alpha t sel l, sel <> SelNone -> gs fuel o test alpha t sel <> Ok l.
Proof.
  intros fuel o test alpha t sel l H. unfold gs. destruct (value_dict t); cbn [bind]; [|discriminate]. destruct sel as [|v|vs]; [congruence| |discriminate].
  destruct (gs_blankets _ _ _ _ _); discriminate.
Qed.
Print Assumptions C77_gs.
(** a list of columns is rejected; for one column gs raises TypeError after computing the blanket, or its shrink loop never ends
    (when some column found in the grow phase is independent of the target given the others) *)
Theorem C77_gs_error : forall o test alpha t, table_ok t -> answers test ->
  (forall fuel l, gs fuel o test alpha t (SelList l) = Raise AssertionError) /\
  (forall v, In v (columns (t_ncols t)) ->
    (forall fuel, gs (S fuel) o test alpha t (SelOne v) = Raise TypeError) \/
    (forall fuel, gs fuel o test alpha t (SelOne v) = Raise OutOfFuel)).
Proof.
  intros o test alpha t T At. destruct (value_dict_ok t T) as (vd & EV & _). unfold gs. rewrite EV. cbn [bind]. split; [reflexivity|]. intros v Hv.
  assert (Gz : exists s, grow (S (t_ncols t)) test alpha (t_ncols t) v [] = Ok s /\ grown test alpha (t_ncols t) v s).
  { apply (safe_raised test _ _ At). apply grow_ok; [|simpl; lia]. split; [constructor|]. split; [intros z []|intros []]. }
  destruct Gz as (s & Gs & (Ns & _) & _). unfold gs_blankets. cbn [foldM]. rewrite Gs. cbn [bind].
  destruct (safe_raised test _ _ At (shrink_pass_ok test alpha v s Ns)) as (st & Es & P). destruct (snd st) eqn:Q.
  - right. intros fuel. destruct P as (y & r & Hr & ND). rewrite (shrink_loops test alpha v fuel s y r) by assumption. reflexivity.
  - left. intros fuel. cbn [shrink]. rewrite Es. cbn [bind]. rewrite Q. reflexivity.
Qed.
Print Assumptions C77_gs_error.
Example C77_gs_error_nonvacuous : gs 1 id_oracle (fun _ => Ok (Some 0%Qc)) alpha05 (mkT 3 [[c0; c1; c0]]) (SelOne c1) = Raise TypeError /\
  gs 9 id_oracle (perfect' [[]; [0]; [1]]) alpha05 (mkT 3 [[c0; c1; c0]]) (SelOne c2) = Raise OutOfFuel.
Proof. split; vm_compute; reflexivity. Qed.
Theorem C77_iamb : forall o mi test alpha t sel l, sel <> SelNone -> iamb o mi test alpha t sel <> Ok l.
Proof.
  intros o mi test alpha t sel l H. unfold iamb. destruct sel as [|v|vs]; [congruence| |discriminate]. destruct (iamb_blankets _ _ _ _ _ _); discriminate.
Qed.
Print Assumptions C77_iamb.
(** the blanket of a column is computed without error, and then TypeError is raised *)
Theorem C77_iamb_error : forall o mi test alpha t v, good o -> answers mi -> answers test -> In v (columns (t_ncols t)) ->
  iamb o mi test alpha t (SelOne v) = Raise TypeError.
Proof.
  intros o mi test alpha t v Go Am At Hv. unfold iamb.
  pose proof (iamb_blankets_ok (sub o 0) mi test alpha (t_ncols t) [v] (good_sub _ _ Go) ltac:(intros z [<-|[]]; exact Hv) ltac:(repeat constructor; intros [])) as HM.
  destruct (iamb_blankets _ _ _ _ _ _) as [Mb|e]; [reflexivity|]. exfalso. destruct HM as [(c & Hc)|(c & Hc)]; [destruct (At c)|destruct (Am c)]; congruence.
Qed.
Print Assumptions C77_iamb_error.
