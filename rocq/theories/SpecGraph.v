(** SpecGraph.v -- graph notions used in the statements, independent of the code. *)
From Verif Require Import Py Num BayesNet SpecFactor.
From Coq Require Export Relations.Relation_Operators Relations.Operators_Properties.
Open Scope nat_scope.

(** [u -> v] is listed in the edge dict *)
Definition edge (E : dict (list name)) (u v : name) : Prop := exists c, dget E u = Some c /\ In v c.
(** directed paths: possibly empty, and of at least one edge *)
Definition reach (E : dict (list name)) : name -> name -> Prop := clos_refl_trans _ (edge E).
Definition path (E : dict (list name)) : name -> name -> Prop := clos_trans _ (edge E).
Definition acyclic (E : dict (list name)) : Prop := forall v, ~ path E v v.
(** every child is itself a key, keys are distinct (any Python dict) *)
Definition closed_edges (E : dict (list name)) : Prop :=
  NoDup (dkeys E) /\ forall u v, edge E u v -> In v (dkeys E).
Definition parentless (E : dict (list name)) (v : name) : Prop := In v (dkeys E) /\ forall u, ~ edge E u v.

(** [l] lists every vertex after all of its parents *)
Definition topological (E : dict (list name)) (l : list name) : Prop :=
  forall p v q u, l = p ++ v :: q -> edge E u v -> In u p.

(** a network whose children lists and parents lists agree *)
Definition agree (bn : bayesnet) : Prop :=
  forall u v, In u (bn_V bn) -> In v (bn_V bn) -> (In u (nparents bn v) <-> edge (bn_E bn) u v).
(** every node has an entry in E and F, and only nodes are mentioned *)
Record graph_ok (bn : bayesnet) : Prop := {
  go_V : NoDup (bn_V bn);
  go_E : forall v, In v (bn_V bn) -> exists c, dget (bn_E bn) v = Some c /\ NoDup c /\ incl c (bn_V bn);
  go_F : forall v, In v (bn_V bn) -> exists d, dget (bn_F bn) v = Some d /\ NoDup (f_parents d) /\ incl (f_parents d) (bn_V bn) }.

(** undirected adjacency of an edge list *)
Definition uadj (es : list (name * name)) (a b : name) : Prop := In (a, b) es \/ In (b, a) es.
(** a cycle of distinct vertices, and a chord of it *)
Definition cyc_nth (c : list name) (i : nat) : name := nth (i mod length c) c (NInt 0).
Definition is_cycle (adj : name -> name -> Prop) (c : list name) : Prop :=
  3 <= length c /\ NoDup c /\ forall i, adj (cyc_nth c i) (cyc_nth c (S i)).
Definition has_chord (adj : name -> name -> Prop) (c : list name) : Prop :=
  exists i j, i < length c /\ j < length c /\ i <> j /\ S i mod length c <> j /\ S j mod length c <> i /\
    adj (cyc_nth c i) (cyc_nth c j).
Definition chordal (es : list (name * name)) : Prop :=
  forall c, is_cycle (uadj es) c -> 4 <= length c -> has_chord (uadj es) c.
