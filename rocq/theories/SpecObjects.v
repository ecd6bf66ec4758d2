(** SpecObjects.v -- what an expression over factors means, as a function of assignments. *)
From Verif Require Import Py Num BayesNet Factor SpecFactor FactorHeap.
Open Scope nat_scope.

(** the variables of an expression, left to right *)
Fixpoint vars (e : fexpr) : list nat :=
  match e with At a => [a] | Times x y => vars x ++ vars y | Minus x _ _ => vars x | Over x _ => vars x | OverMax x _ => vars x end.
Fixpoint leftmost (e : fexpr) : nat :=
  match e with At a => a | Times x _ => leftmost x | Minus x _ _ => leftmost x | Over x _ => leftmost x | OverMax x _ => leftmost x end.
(** position of a value in the network's list of values of a node *)
Definition position (bn : bayesnet) (rv val : name) : nat := match index_of val (nvalues bn rv) with Some i => i | None => 0 end.
(** product, conditioning, sum and maximum of functions; [env a] is the function in variable [a] *)
Fixpoint mean (bn : bayesnet) (env : nat -> asg -> Qc) (e : fexpr) : asg -> Qc :=
  match e with
  | At a => env a
  | Times x y => fun b => (mean bn env x b * mean bn env y b)%Qc
  | Minus x rv val => fun b => mean bn env x (upd b rv (position bn rv val))
  | Over x rv => sum_values (ncard bn) rv (mean bn env x)
  | OverMax x rv => max_values (ncard bn) rv (mean bn env x)
  end.
(** the random variables the result depends on *)
Fixpoint about (sc : nat -> list name) (e : fexpr) (v : name) : Prop :=
  match e with
  | At a => In v (sc a)
  | Times x y => about sc x v \/ about sc y v
  | Minus x rv _ => about sc x v /\ v <> rv
  | Over x rv => about sc x v /\ v <> rv
  | OverMax x rv => about sc x v /\ v <> rv
  end.
(** only random variables that are there are removed, and evidence names a listed value *)
Fixpoint proper (bn : bayesnet) (sc : nat -> list name) (e : fexpr) : Prop :=
  match e with
  | At _ => True
  | Times x y => proper bn sc x /\ proper bn sc y
  | Minus x rv val => proper bn sc x /\ about sc x rv /\ In val (nvalues bn rv)
  | Over x rv => proper bn sc x /\ about sc x rv
  | OverMax x rv => proper bn sc x /\ about sc x rv
  end.
