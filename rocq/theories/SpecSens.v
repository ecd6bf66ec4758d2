(** SpecSens.v -- how far two networks with the same nodes, parents and numbers of values are apart. *)
From Verif Require Import Py Num BayesNet Factor SpecFactor SpecInference.
Open Scope nat_scope.

Definition qabs (x : Qc) : Qc := qmax x (- x)%Qc.

(** same nodes in the same order, same parents, same numbers of values *)
Definition same_frame (x y : bayesnet) : Prop :=
  bn_V x = bn_V y /\ forall v, In v (bn_V x) -> nparents x v = nparents y v /\ ncard x v = ncard y v.
(** the same values, too *)
Definition same_values (x y : bayesnet) : Prop := forall v, In v (bn_V x) -> nvalues x v = nvalues y v.

(** difference of one table entry, and of one row (fixed parent values) in total *)
Definition gap (x y : bayesnet) (v : name) (a : asg) : Qc :=
  qabs (getq (cond_prob x v a) - getq (cond_prob y v a))%Qc.
Definition row_gap (x y : bayesnet) (v : name) (a : asg) : Qc :=
  qsum (map (fun k => gap x y v (upd a v k)) (seq 0 (ncard x v))).
(** every row of node v differs by at most [e v] in total *)
Definition rows_within (x y : bayesnet) (e : name -> Qc) : Prop :=
  forall v a, In v (bn_V x) -> valid (ncard x) (bn_V x) a -> (row_gap x y v a <= e v)%Qc.
(** every table entry differs by at most [e] *)
Definition cells_within (x y : bayesnet) (e : Qc) : Prop :=
  forall v a, In v (bn_V x) -> valid (ncard x) (bn_V x) a -> (gap x y v a <= e)%Qc.

(** the evidence [ev'] says about [y] what [ev] says about [x]: the same nodes have the same value numbers *)
Definition recoded (x y : bayesnet) (ev ev' : list (name * name)) : Prop :=
  Forall2 (fun p q => fst p = fst q /\ val_index x (fst p) (snd p) = val_index y (fst q) (snd q)) ev ev'.
