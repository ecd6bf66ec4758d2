(** SpecLearnInfer.v -- asking a learned network the questions one would ask the network behind the data. *)
From Verif Require Import Py Num BayesNet Factor SpecFactor SpecInference SpecSens.
Open Scope nat_scope.

(** sampled data contain value numbers: evidence with the values replaced by their numbers *)
Definition by_number (bn : bayesnet) (ev : list (name * name)) : list (name * name) :=
  map (fun p => (fst p, match val_index bn (fst p) (snd p) with Some i => NInt i | None => snd p end)) ev.
(** the call failed, or its answer is not a vector that is everywhere within [e] of [want] *)
Definition answer_off (r : res (list Qc)) (want : list Qc) (e : Qc) : bool :=
  match r with
  | Ok l => negb ((length l =? length want) && forallb (fun pq => qleb (qabs (fst pq - snd pq)%Qc) e) (combine l want))
  | Raise _ => true
  end.
(** the assignment a returned mapping from nodes to value numbers stands for *)
Definition numbered (m : dict name) : asg := fun v => match dget m v with Some (NInt i) => i | _ => 0 end.
(** the call failed, or some assignment of [bs] is more probable in [bn] than the returned one by more than [e] *)
Definition map_off (bn : bayesnet) (r : res (dict name)) (bs : list asg) (e : Qc) : bool :=
  match r with
  | Ok m => existsb (fun b => qltb (joint bn (numbered m) + e)%Qc (joint bn b)) bs
  | Raise _ => true
  end.
(** every table entry is at least [e] *)
Definition entries_at_least (bn : bayesnet) (e : Qc) : Prop := forall v x, In v (bn_V bn) -> In x (ncpt bn v) -> (e <= x)%Qc.
