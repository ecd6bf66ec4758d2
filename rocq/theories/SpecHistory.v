(** SpecHistory.v -- what a sequence of operations on a Factorization means (C126).  Stated on functions of
    assignments only; independent of the factor tables. *)
From Verif Require Import Py Num BayesNet SpecFactor SpecInference.
Open Scope nat_scope.

(** the three operators of Factorization:  F / v,  F // v,  F - (v, x) *)
Inductive fz_op := SumOut (v : name) | MaxOut (v : name) | Given (v x : name).
Definition op_var (p : fz_op) : name := match p with SumOut v => v | MaxOut v => v | Given v _ => v end.
(** what each does to the function that the factors represent together *)
Definition op_mean (bn : bayesnet) (p : fz_op) (phi : asg -> Qc) : asg -> Qc :=
  match p with
  | SumOut v => fun a => qsum (map (fun x => phi (upd a v x)) (seq 0 (ncard bn v)))
  | MaxOut v => fun a => fold_right qmax 0%Qc (map (fun x => phi (upd a v x)) (seq 0 (ncard bn v)))
  | Given v x => fun a => match val_index bn v x with Some i => phi (upd a v i) | None => 0%Qc end
  end.
Definition ops_mean (bn : bayesnet) (ps : list fz_op) (phi : asg -> Qc) : asg -> Qc :=
  fold_left (fun g p => op_mean bn p g) ps phi.
(** the nodes that occur in the conditional tables of the chosen nodes *)
Definition mentioned (bn : bayesnet) (nodes : list name) (w : name) : Prop :=
  exists v, In v nodes /\ In w (v :: nparents bn v).
(** each operation is about a node that is still mentioned, and observes a value of the node *)
Fixpoint ops_ok (bn : bayesnet) (scope : name -> Prop) (ps : list fz_op) : Prop :=
  match ps with
  | [] => True
  | p :: r => scope (op_var p) /\ match p with Given v x => In x (nvalues bn v) | _ => True end /\
              ops_ok bn (fun w => scope w /\ w <> op_var p) r
  end.
(** product of the conditional probabilities of the chosen nodes *)
Definition nodes_prob (bn : bayesnet) (nodes : list name) (a : asg) : Qc :=
  qprod (map (fun v => getq (cond_prob bn v a)) nodes).
(** the maximisations of a history, and its observations (C145) *)
Definition is_max (p : fz_op) : Prop := match p with MaxOut _ => True | _ => False end.
Definition givens (ps : list fz_op) : list (name * name) := flat_map (fun p => match p with Given v x => [(v, x)] | _ => [] end) ps.
(** two assignments give the same values to the listed nodes *)
Definition same_on (vs : list name) (b a : asg) : bool := forallb (fun v => a v =? b v) vs.
