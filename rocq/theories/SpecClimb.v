(** SpecClimb.v -- the score of a whole graph, independent of the code. *)
From Verif Require Import Py Num BayesNet SpecScore.
Open Scope nat_scope.

(** the score [m] of the family of [v]: [v] followed by its parents, in the order the dictionary lists them *)
Definition family_score (m : list name -> Qc) (parents : dict (list name)) (v : name) : Qc :=
  match dget parents v with Some pv => m (v :: pv) | None => 0%Qc end.
(** the score of the graph: the sum over the nodes, times minus the number of rows (a score difference
    [nrow * (old - new)] is positive when the mutual information goes down) *)
Definition graph_score (m : list name -> Qc) (nrow : nat) (nodes : list name) (g : gstate) : Qc :=
  (- (nQc nrow * qsum (map (family_score m (g_p g)) nodes)))%Qc.
(** the graphs a search passes through, from the first to the last *)
Definition path (log : list (gstate * move)) (last : gstate) : list gstate := map fst log ++ [last].
(** both graphs list the same parents in the same order for every node *)
Definition same_parents (g g' : gstate) : Prop := forall v, dget (g_p g) v = dget (g_p g') v.
(** none of the moves is a reversal *)
Definition no_reversal (log : list (gstate * move)) : Prop := forall g m, In (g, m) log -> fst m <> Reversal.
