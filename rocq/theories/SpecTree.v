(** SpecTree.v -- rooted trees on data columns and their weight, independent of the code. *)
From Verif Require Import Py Num BayesNet SpecFactor SpecGraph SpecMst SpecConstraint.
Open Scope nat_scope.

(** T is a tree on the columns 0..n-1 with edges directed away from the column r *)
Definition tree_on (n : nat) (r : name) (T : dict (list name)) : Prop :=
  dkeys T = columns n /\ In r (columns n) /\ (forall u v, edge T u v -> In u (columns n) /\ In v (columns n) /\ v <> r) /\
  (forall v, In v (columns n) -> v <> r -> exists u, edge T u v /\ forall u', edge T u' v -> u' = u) /\
  acyclic T /\ (forall v, In v (columns n) -> reach T r v) /\ S (length (all_edges T)) = n.
(** the sum of the weights of some edges *)
Definition sum_weight (w : name -> name -> Qc) (S : list (name * name)) : Qc := qsum (map (fun e => w (fst e) (snd e)) S).
(** n-1 edges between columns, connecting all of them *)
Definition spans_columns (n : nat) (S : list (name * name)) : Prop :=
  (forall u v, In (u, v) S -> In u (columns n) /\ In v (columns n)) /\ Datatypes.S (length S) = n /\
  forall a b, In a (columns n) -> In b (columns n) -> uconnected S a b.
