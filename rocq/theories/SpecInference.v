(** SpecInference.v -- what exact inference is supposed to compute. *)
From Verif Require Import Py Num BayesNet Factor SpecFactor.
From Coq Require Export Relations.Relation_Operators Relations.Operators_Properties.
Open Scope nat_scope.

(** position of a value among the values of a node *)
Definition val_index (bn : bayesnet) (rv x : name) : option nat := index_of x (nvalues bn rv).

(** evidence: distinct known nodes, each with one of its values *)
Definition good_evidence (bn : bayesnet) (ev : list (name * name)) : Prop :=
  NoDup (map fst ev) /\ forall rv x, In (rv, x) ev -> In rv (bn_V bn) /\ In x (nvalues bn rv).

(** assignment [a] gives every evidence node its observed value *)
Definition agrees (bn : bayesnet) (ev : list (name * name)) (a : asg) : bool :=
  forallb (fun p => match val_index bn (fst p) (snd p) with Some i => a (fst p) =? i | None => false end) ev.

(** sum over all full assignments of the network satisfying [c] *)
Definition prob_of (bn : bayesnet) (c : asg -> bool) : Qc :=
  sum_over (ncard bn) (bn_V bn) (fun a => if c a then joint bn a else 0%Qc) (fun _ => 0).
(** P(target = its x-th value, evidence) *)
Definition marginal (bn : bayesnet) (target : name) (ev : list (name * name)) (x : nat) : Qc :=
  prob_of bn (fun a => (a target =? x) && agrees bn ev a).
(** P(evidence) *)
Definition evidence_prob (bn : bayesnet) (ev : list (name * name)) : Qc := prob_of bn (agrees bn ev).

(** every table entry is non-negative *)
Definition nonneg_net (bn : bayesnet) : Prop :=
  forall v x, In v (bn_V bn) -> In x (ncpt bn v) -> (0 <= x)%Qc.
(** every CPT is a conditional distribution: for all parent values the entries add up to 1 *)
Definition normalised (bn : bayesnet) : Prop :=
  forall v a, In v (bn_V bn) -> valid (ncard bn) (bn_V bn) a ->
    qsum (map (fun x => getq (cond_prob bn v (upd a v x))) (seq 0 (ncard bn v))) = 1%Qc.
(** the nodes can be listed with every node after its parents *)
Definition acyclic_net (bn : bayesnet) : Prop :=
  exists ord, Permutation ord (bn_V bn) /\
    forall p v q, ord = p ++ v :: q -> incl (nparents bn v) p.

(** Two nodes are linked when their families (node and parents) share a variable that
    is neither the target nor observed. *)
Definition linked (bn : bayesnet) (fixed : list name) (u w : name) : Prop :=
  In u (bn_V bn) /\ In w (bn_V bn) /\
  exists x, ~ In x fixed /\ In x (u :: nparents bn u) /\ In x (w :: nparents bn w).
Definition connected (bn : bayesnet) (fixed : list name) : Prop :=
  forall u w, In u (bn_V bn) -> In w (bn_V bn) -> clos_refl_trans _ (linked bn fixed) u w.

(** the assignment of value indices described by a dict of values *)
Definition asg_of (bn : bayesnet) (m : dict name) : asg :=
  fun v => match dget m v with
           | Some x => match val_index bn v x with Some i => i | None => 0 end
           | None => 0 end.
