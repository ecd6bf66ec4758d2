(** SpecLearn.v -- what the parameter-learning theorems talk about, independent of the code:
    frequencies in a data table. *)
From Verif Require Import Py Num BayesNet SpecFactor Rounding Data.
From Coq Require Import Sorting.Sorted.
Open Scope nat_scope.

(** row [r] has value [x] in the column of node [v] (node names are column numbers) *)
Definition entry (r : list name) (v x : name) : Prop :=
  match v with NInt i => nth_error r i = Some x | NStr _ => False end.
Definition entryb (r : list name) (vx : name * name) : bool :=
  match fst vx with
  | NInt i => match nth_error r i with Some y => name_eqb y (snd vx) | None => false end
  | NStr _ => false
  end.
(** the number of rows that have all the values of [q] *)
Definition rows_with (t : table) (q : list (name * name)) : nat :=
  length (filter (fun r => forallb (entryb r) q) (t_rows t)).
(** [vs] are the levels of column [v]: exactly the values that occur, in increasing order *)
Definition levels (t : table) (v : name) (vs : list name) : Prop :=
  StronglySorted name_lt vs /\ forall x, In x vs <-> exists r, In r (t_rows t) /\ entry r v x.

(** a network structure over which parameters can be learned; values and CPTs are arbitrary *)
Record skeleton (bn : bayesnet) : Prop := {
  sk_V : NoDup (bn_V bn);
  sk_F : forall v, In v (bn_V bn) -> exists d, dget (bn_F bn) v = Some d;
  sk_scope : forall v, In v (bn_V bn) -> NoDup (v :: nparents bn v);
  sk_par : forall v, In v (bn_V bn) -> incl (nparents bn v) (bn_V bn) }.

(** the query "every variable of [vs] has its level number [a v]" *)
Definition config (vals : name -> list name) (vs : list name) (a : asg) : list (name * name) :=
  map (fun v => (v, nth (a v) (vals v) (NInt 0))) vs.

(** every CPT entry of the network is the relative frequency
      #(node and parents have these values) / (#(parents have these values) + 1e-7)
    rounded to 5 decimals, and every node's values are the levels of its own column *)
Definition mle_fit (t : table) (bn : bayesnet) : Prop :=
  (forall v, In v (bn_V bn) -> levels t v (nvalues bn v)) /\
  forall v a, In v (bn_V bn) -> valid (ncard bn) (v :: nparents bn v) a ->
    cond_prob bn v a =
    Some (py_round 5 (nQc (rows_with t (config (nvalues bn) (v :: nparents bn v) a)) /
                      (nQc (rows_with t (config (nvalues bn) (nparents bn v) a)) + Q2Qc (1 # 10000000)))%Qc).

(** the smoothed frequency of a CPT cell when [e] extra rows are spread evenly over the table *)
Definition smoothed (t : table) (e : Qc) (bn : bayesnet) (v : name) (a : asg) : Qc :=
  let size := nQc (nprod (map (ncard bn) (v :: nparents bn v))) in
  ((e / size + nQc (rows_with t (config (nvalues bn) (v :: nparents bn v) a))) /
   (nQc (ncard bn v) * (e / size) + nQc (rows_with t (config (nvalues bn) (nparents bn v) a))))%Qc.
Definition bayes_fit (t : table) (e : Qc) (bn : bayesnet) : Prop :=
  (forall v, In v (bn_V bn) -> levels t v (nvalues bn v)) /\
  forall v a, In v (bn_V bn) -> valid (ncard bn) (v :: nparents bn v) a -> cond_prob bn v a = Some (py_round 5 (smoothed t e bn v a)).

(** the relative frequency of the value of [v] among the rows with the given parent values, and the weight of
    the prior: [e] rows spread evenly over the parent configurations against the rows that were seen *)
Definition rel_freq (t : table) (bn : bayesnet) (v : name) (a : asg) : Qc :=
  (nQc (rows_with t (config (nvalues bn) (v :: nparents bn v) a)) / nQc (rows_with t (config (nvalues bn) (nparents bn v) a)))%Qc.
Definition prior_weight (t : table) (e : Qc) (bn : bayesnet) (v : name) (a : asg) : Qc :=
  (e / (e + nQc (nprod (map (ncard bn) (nparents bn v))) * nQc (rows_with t (config (nvalues bn) (nparents bn v) a))))%Qc.
Definition within (d x y : Qc) : Prop := (x - d <= y /\ y <= x + d)%Qc.
(** a combination of values of the parents of [v], each of which occurs in its column *)
Definition parent_values (t : table) (bn : bayesnet) (v : name) (q : list (name * name)) : Prop :=
  map fst q = nparents bn v /\ forall u x, In (u, x) q -> exists r, In r (t_rows t) /\ entry r u x.
(** two data sets with the same number of rows and the same entries in the columns [cols] *)
Definition same_columns (cols : list nat) (t t' : table) : Prop :=
  t_ncols t = t_ncols t' /\ Forall2 (fun r r' => forall i, In i cols -> nth_error r i = nth_error r' i) (t_rows t) (t_rows t').
(** the columns that learning the nodes [l] reads: one per position in [l], and one per node of [l] *)
Definition read_columns (l : list name) : list nat := seq 0 (length l) ++ flat_map (fun v => match v with NInt i => [i] | NStr _ => [] end) l.
