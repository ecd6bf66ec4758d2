(** SpecMst.v -- weighted graphs and spanning trees. *)
From Verif Require Import Py Num BayesNet SpecFactor SpecGraph.
Open Scope nat_scope.

(** the weight of u -> v, if it is an edge *)
Definition weight (W : dict (dict Qc)) (u v : name) : option Qc :=
  match dget W u with Some e => dget e v | None => None end.
(** vertices are the integers 0..n-1, and every neighbour dict has distinct keys *)
Definition weighted_graph (W : dict (dict Qc)) : Prop :=
  Permutation (dkeys W) (map NInt (seq 0 (length W))) /\
  forall u e, dget W u = Some e -> NoDup (dkeys e) /\ incl (dkeys e) (dkeys W).
Definition symmetric (W : dict (dict Qc)) : Prop := forall u v, weight W u v = weight W v u.
Definition wreach (W : dict (dict Qc)) : name -> name -> Prop := clos_refl_trans _ (fun u v => weight W u v <> None).
(** all the edges of an edge dict *)
Definition all_edges (T : dict (list name)) : list (name * name) :=
  flat_map (fun kc => map (fun v => (fst kc, v)) (snd kc)) T.
Definition total_weight (W : dict (dict Qc)) (S : list (name * name)) : Qc :=
  qsum (map (fun e => getq (weight W (fst e) (snd e))) S).
Definition uconnected (S : list (name * name)) : name -> name -> Prop := clos_refl_trans _ (uadj S).
(** n-1 edges of the graph connecting all vertices *)
Definition spanning_tree (W : dict (dict Qc)) (S : list (name * name)) : Prop :=
  (forall u v, In (u, v) S -> weight W u v <> None) /\ Datatypes.S (length S) = length W /\
  forall a b, In a (dkeys W) -> In b (dkeys W) -> uconnected S a b.
