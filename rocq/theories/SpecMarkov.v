(** SpecMarkov.v -- the independences a network's graph stands for (used by C134 to C136).  Only the parent lists are read. *)
From Verif Require Import Py Num BayesNet SpecFactor SpecInference.
Open Scope nat_scope.

(** [u] is a parent of the node [v] *)
Definition is_parent (bn : bayesnet) (u v : name) : Prop := In v (bn_V bn) /\ In u (nparents bn v).
(** [v] can be reached from [u] along edges, possibly none: [u] is an ancestor of [v], [v] a descendant of [u] *)
Definition ancestor (bn : bayesnet) : name -> name -> Prop := clos_refl_trans _ (is_parent bn).
(** a set of nodes that contains the parents of its members *)
Definition ancestral_set (bn : bayesnet) (A : list name) : Prop :=
  NoDup A /\ incl A (bn_V bn) /\ forall v, In v A -> incl (nparents bn v) A.

(** Active trails.  [active bn S t v d]: some trail from [t] to [v] is open given the observed nodes [S], and arrives at
    [v] against the arrow ([d] = Up, from a child, or because [v] is [t]) or along it ([d] = Down, from a parent).
    A chain or fork is open at an unobserved node; a collider is open when it or a descendant is observed. *)
Inductive direction := Up | Down.
Inductive active (bn : bayesnet) (S : list name) (t : name) : name -> direction -> Prop :=
| act_start : active bn S t t Up
| act_up_up v p : active bn S t v Up -> ~ In v S -> is_parent bn p v -> active bn S t p Up
| act_up_down v c : active bn S t v Up -> ~ In v S -> is_parent bn v c -> active bn S t c Down
| act_down_down v c : active bn S t v Down -> ~ In v S -> is_parent bn v c -> active bn S t c Down
| act_collider v p s : active bn S t v Down -> ancestor bn v s -> In s S -> is_parent bn p v -> active bn S t p Up.
(** [t] and [w] are d-separated by [S] *)
Definition d_separated (bn : bayesnet) (S : list name) (t w : name) : Prop := forall d, ~ active bn S t w d.

(** two nodes occur together in the family (a node and its parents) of a node of [A] *)
Definition family_link (bn : bayesnet) (A : list name) (a b : name) : Prop :=
  exists c, In c A /\ In a (c :: nparents bn c) /\ In b (c :: nparents bn c).
(** [w] cannot be reached from [t] by links of families in [A] without entering [S] *)
Definition cut (bn : bayesnet) (A S : list name) (t w : name) : Prop :=
  ~ clos_refl_trans _ (fun a b => ~ In b S /\ family_link bn A a b) t w.

(** given the evidence [ev], the further evidence [ev'] says nothing about the node [t]:
    P(t, ev, ev') P(ev) = P(t, ev) P(ev, ev') *)
Definition irrelevant (bn : bayesnet) (t : name) (ev ev' : list (name * name)) : Prop :=
  forall x, x < ncard bn t ->
    (marginal bn t (ev ++ ev') x * evidence_prob bn ev = marginal bn t ev x * evidence_prob bn (ev ++ ev'))%Qc.

(** the networks have the same parents, values and table for [v] *)
Definition same_table (bn bn' : bayesnet) (v : name) : Prop :=
  nparents bn v = nparents bn' v /\ nvalues bn v = nvalues bn' v /\ ncpt bn v = ncpt bn' v.
