(** SpecIlp.v -- 0/1 linear programs and what it means to solve them; independent of the
    code that writes one.  A program variable is a pair (node, position in its CPT). *)
From Verif Require Import Py Num BayesNet SpecFactor.
Open Scope nat_scope.

Definition var := (name * nat)%type.
(** the two shapes of constraint that occur: [sum vs == 1] and [v <= sum vs] *)
Inductive con :=
| SumIs1 (vs : list var)
| AtMost (v : var) (vs : list var).
(** [lp_obj] is the list of (variable, p): the objective is the sum of weight(p) * variable *)
Record lp := mkLP { lp_vars : list (string * var); lp_obj : list (var * Qc); lp_cons : list con }.

Definition zsum (l : list Z) : Z := fold_right Z.add 0%Z l.
Definition holds (x : var -> Z) (c : con) : Prop :=
  match c with
  | SumIs1 vs => zsum (map x vs) = 1%Z
  | AtMost v vs => (x v <= zsum (map x vs))%Z
  end.
(** an integer point of the program: variables are declared integer with bounds 0 and 1 *)
Definition feasible (m : lp) (x : var -> Z) : Prop :=
  (forall s v, In (s, v) (lp_vars m) -> (0 <= x v <= 1)%Z) /\ forall c, In c (lp_cons m) -> holds x c.
Definition zQc (z : Z) : Qc := Q2Qc (inject_Z z).
Definition objective (w : Qc -> Qc) (m : lp) (x : var -> Z) : Qc :=
  qsum (map (fun e => zQc (x (fst e)) * w (snd e))%Qc (lp_obj m)).
(** a solution the solver may return *)
Definition optimal (w : Qc -> Qc) (m : lp) (x : var -> Z) : Prop :=
  feasible m x /\ forall y, feasible m y -> (objective w m x <= objective w m y)%Qc.

(** the point describing a full assignment: exactly the CPT entry it uses is selected, per node *)
Definition describes (bn : bayesnet) (x : var -> Z) (a : asg) : Prop :=
  forall v i, In v (bn_V bn) -> i < length (ncpt bn v) ->
    x (v, i) = if i =? radix (ncard bn) (v :: nparents bn v) a then 1%Z else 0%Z.
Definition total_weight (w : Qc -> Qc) (bn : bayesnet) (a : asg) : Qc :=
  qsum (map (fun v => w (getq (cond_prob bn v a))) (bn_V bn)).
