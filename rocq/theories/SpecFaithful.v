(** SpecFaithful.v -- tests that answer the d-separations of a directed acyclic graph (used by C137 to C140).
    The graph is given by the parent lists of a network. *)
From Verif Require Import Py Num BayesNet SpecFactor SpecGraph SpecInference SpecConstraint SpecMarkov.
Open Scope nat_scope.

(** distinct nodes, parents are nodes, no cycle *)
Record dag_net (bn : bayesnet) : Prop := {
  dn_V : NoDup (bn_V bn);
  dn_par : forall v, In v (bn_V bn) -> incl (nparents bn v) (bn_V bn);
  dn_ac : acyclic_net bn }.
(** one of the two is a parent of the other *)
Definition adjacent (bn : bayesnet) (x y : name) : Prop := is_parent bn x y \/ is_parent bn y x.
(** [y] is in the Markov blanket of [x]: a parent, a child or another parent of a child *)
Definition in_blanket (bn : bayesnet) (x y : name) : Prop :=
  y <> x /\ (adjacent bn x y \/ exists c, is_parent bn x c /\ is_parent bn y c).
(** the test accepts exactly the independences that the graph shows *)
Definition faithful (bn : bayesnet) (test : ptest) (alpha : Qc) : Prop :=
  forall x y z, In x (bn_V bn) -> In y (bn_V bn) -> x <> y -> NoDup z -> incl z (bn_V bn) -> ~ In x z -> ~ In y z ->
    (d_separated bn z x y -> indep test alpha x y z) /\ ((exists d, active bn z x y d) -> dep test alpha x y z).
(** the measure of association is larger for connected columns than for separated ones, which have 0 *)
Definition faithful_measure (bn : bayesnet) (mi : ptest) : Prop :=
  forall x y z, In x (bn_V bn) -> In y (bn_V bn) -> x <> y -> NoDup z -> incl z (bn_V bn) -> ~ In x z -> ~ In y z ->
    exists v, mi (x :: y :: z) = Ok (Some v) /\ (d_separated bn z x y -> v = 0%Qc) /\ ((exists d, active bn z x y d) -> (0 < v)%Qc).

(** the network of a DAG given by the parent lists of the columns 0, 1, ... (tables are not needed) *)
Definition net_of (dag : list (list nat)) : bayesnet :=
  mkBN (columns (length dag)) [] (map (fun i => (NInt i, mkF (map NInt (nth i dag [])) [] [])) (seq 0 (length dag))).
