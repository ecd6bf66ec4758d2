(** SpecLearnLaw.v -- re-learning a network from its own samples. *)
From Verif Require Import Py Num BayesNet Factor SpecFactor SpecInference Data SpecLaw.
Open Scope nat_scope.

(** the sampled array as a data table: entries are value numbers, columns in nodes() order *)
Definition as_data (cols : nat) (rows : list (list Z)) : table := mkT cols (map (map (fun z => NInt (Z.to_nat z))) rows).
(** the probability a learned network gives to v = lab v when its parents have the labels [lab]
    (0 when one of the labels is not among the learned values) *)
Definition learned_prob (bn : bayesnet) (v : name) (lab : name -> name) : Qc :=
  if forallb (fun w => mem (lab w) (nvalues bn w)) (v :: nparents bn v)
  then getq (cond_prob bn v (fun w => match index_of (lab w) (nvalues bn w) with Some i => i | None => 0 end))
  else 0%Qc.
(** the probability that all of [vs] have their value in [a] *)
Definition match_on (vs : list name) (a b : asg) : bool := forallb (fun w => b w =? a w) vs.
(** learning failed or is off by at least [t] *)
Definition learned_off (r : res bayesnet) (v : name) (lab : name -> name) (t p : Qc) : bool :=
  match r with Ok bn => off_by t (learned_prob bn v lab) p | Raise _ => true end.
