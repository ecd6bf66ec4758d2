(** SpecSample.v -- what a sampler is supposed to do, independent of the code. *)
From Verif Require Import Py Num BayesNet Factor SpecFactor SpecInference.
Open Scope nat_scope.

(** P(v < k | parents as in a): the sum of the first [k] entries of v's distribution *)
Definition cum (bn : bayesnet) (v : name) (a : asg) (k : nat) : Qc :=
  qsum (map (fun x => getq (cond_prob bn v (upd a v x))) (seq 0 k)).
(** inverse-cdf sampling: the uniform draw [u] falls into the interval of value [a v] of the
    distribution of [v] given its parents' values in [a].  That interval has length
    P(v = a v | parents) / (sum of the distribution). *)
Definition drawn_by (bn : bayesnet) (v : name) (a : asg) (u : Qc) : Prop :=
  a v < ncard bn v /\
  (cum bn v a (a v) / cum bn v a (ncard bn v) <= u /\ u < cum bn v a (S (a v)) / cum bn v a (ncard bn v))%Qc.
(** [a] is the ancestral sample for the draws [u]: the j-th node is drawn with [u j] *)
Definition ancestral (bn : bayesnet) (u : nat -> Qc) (a : asg) : Prop :=
  forall j v, nth_error (bn_V bn) j = Some v -> drawn_by bn v a (u j).
(** likelihood weighting: observed nodes keep their value, the others are drawn *)
Definition weighted_sample (bn : bayesnet) (ev : list (name * name)) (u : nat -> Qc) (a : asg) : Prop :=
  forall j v, nth_error (bn_V bn) j = Some v ->
    match dget ev v with
    | Some x => val_index bn v x = Some (a v)
    | None => drawn_by bn v a (u j)
    end.
(** the product over the observed nodes of P(observed value | sampled parents) *)
Definition likelihood (bn : bayesnet) (ev : list (name * name)) (a : asg) : Qc :=
  qprod (map (fun v => getq (cond_prob bn v a)) (filter (fun v => mem v (map fst ev)) (bn_V bn))).

Definition unit_draws (u : nat -> nat -> Qc) : Prop := forall i j, (0 <= u i j /\ u i j < 1)%Qc.

(** every distribution of the network sums to 1 up to 1e-8 (what numpy accepts) *)
Definition nearly_normalised (bn : bayesnet) : Prop :=
  forall v a, In v (bn_V bn) -> valid (ncard bn) (bn_V bn) a ->
    (1 - Q2Qc (1 # 100000000) <= cum bn v a (ncard bn v) /\ cum bn v a (ncard bn v) <= 1 + Q2Qc (1 # 100000000))%Qc.
(** every node comes after its parents in nodes() *)
Definition nodes_topological (bn : bayesnet) : Prop :=
  forall p v q, bn_V bn = p ++ v :: q -> incl (nparents bn v) p.

(** how many of the samples [s i], i in [is], give [v] the value number [x] *)
Definition hits (s : nat -> asg) (is : list nat) (v : name) (x : nat) : nat :=
  length (filter (fun i => s i v =? x) is).
(** the answer table: node -> value -> number, in nodes() / values() order *)
Definition answer {A} (bn : bayesnet) (c : name -> nat -> A) : dict (dict A) :=
  map (fun v => (v, map (fun x => (nth x (nvalues bn v) (NInt 0), c v x)) (seq 0 (ncard bn v)))) (bn_V bn).
