(** SpecClique.v -- vocabulary for message passing on clique trees. *)
From Verif Require Import Py Num BayesNet Factor SpecFactor SpecGraph Graph CliqueTree.
Open Scope nat_scope.

(** [cs[i] >> cs[j]] for the pairs of a schedule, in order *)
Fixpoint upward (o : oracle) (h : fheap) (cs : list clique) (es : list (nat * nat)) : res (fheap * list clique) :=
  match es with
  | [] => Ok (h, cs)
  | (i, j) :: r => do st <- send_message (sub o 0) h cs i j ;; upward (sub o 1) (fst st) (snd st) r
  end.

(** An upward schedule: every clique but the root sends once, to a clique that has not sent yet, and what it
    shares with the cliques that have not sent is contained in the receiver (running intersection). [rem] are
    the cliques that have not sent. *)
Inductive schedule (sc : nat -> list name) (root : nat) : list nat -> list (nat * nat) -> Prop :=
| sch_root : schedule sc root [root] []
| sch_send i j rem rem' es : Permutation rem (i :: rem') -> In j rem' -> i <> root ->
    (forall k v, In k rem' -> In v (sc i) -> In v (sc k) -> In v (sc j)) ->
    schedule sc root rem' es -> schedule sc root rem ((i, j) :: es).

Definition scope_at (cs : list clique) (k : nat) : list name := match nth_error cs k with Some c => c_scope c | None => [] end.

(** [i] is the first position of a largest number *)
Definition first_max (l : list nat) (i : nat) : Prop :=
  i < length l /\ forall j, j < length l -> nth j l 0 <= nth i l 0 /\ (j < i -> nth j l 0 < nth i l 0).

(** the factors that enter the potential a second time *)
Definition doubled {A} (size : A -> nat) (gs es : list A) : Prop :=
  (length gs = 1 /\ es = []) \/ (2 <= length gs /\ exists i, first_max (map size gs) i /\ es = firstn (S i) gs).

(** the family of [v] is inside the clique [s] *)
Definition fits (bn : bayesnet) (v : name) (s : list name) : Prop := incl (v :: nparents bn v) s.

(** the clique's own potential: the product of the tables of its nodes, some of them counted twice *)
Definition potential (bn : bayesnet) (nodes again : list name) (a : asg) : Qc :=
  (qprod (map (fun v => getq (cond_prob bn v a)) again) * qprod (map (fun v => getq (cond_prob bn v a)) nodes))%Qc.
Definition table_size (bn : bayesnet) (v : name) : nat := length (ncpt bn v).

(** every node whose family is inside a clique is given to exactly one such clique *)
Definition assignment (bn : bayesnet) (scopes : list (list name)) (asg : list (list name)) : Prop :=
  Forall2 (fun s ns => NoDup ns /\ forall v, In v ns -> In v (bn_V bn) /\ fits bn v s) scopes asg /\
  NoDup (concat asg) /\ forall v, In v (concat asg) <-> In v (bn_V bn) /\ exists s, In s scopes /\ fits bn v s.

(** [d] with one more message *)
Definition add_msg (d : clique) (m : nat) : clique := mkC (c_scope d) (c_F d) (c_psi d) (c_belief d) (c_msgs d ++ [m]).

(** [f] relabelled with the variables of [g] but keeping its own table *)
Definition relabel (f g : factor) : factor := mkFactor (f_bn f) (f_var f) (f_scope g) (f_card g) (f_stride g) (f_cpt f).

(** the product of the table entries of [nodes] *)
Definition weight_of (bn : bayesnet) (nodes : list name) (a : asg) : Qc := qprod (map (fun v => getq (cond_prob bn v a)) nodes).

(** ** maximal cliques of a graph given by its edge list *)
Definition same_set (s t : list name) : Prop := forall v, In v s <-> In v t.
Definition is_clique (es : list (name * name)) (s : list name) : Prop :=
  s <> [] /\ (forall a b, In a s -> In b s -> a <> b -> uadj es a b) /\ forall a, In a s -> exists b, uadj es a b.
Definition maximal_clique (es : list (name * name)) (s : list name) : Prop :=
  is_clique es s /\ forall t, is_clique es t -> incl s t -> incl t s.
(** [l] lists the maximal cliques, each one once; what networkx's chordal_graph_cliques returns for a chordal graph *)
Definition clique_list (es : list (name * name)) (l : list (list name)) : Prop :=
  (forall s, In s l -> NoDup s /\ maximal_clique es s) /\
  (forall s, maximal_clique es s -> exists t, In t l /\ same_set s t) /\
  forall i j s t, nth_error l i = Some s -> nth_error l j = Some t -> same_set s t -> i = j.

(** every clique but the root sends once, to a clique that has not sent yet *)
Inductive sends (root : nat) : list nat -> list (nat * nat) -> Prop :=
| snd_root : sends root [root] []
| snd_send i j rem rem' es : Permutation rem (i :: rem') -> In j rem' -> i <> root -> ~ In i rem' ->
    sends root rem' es -> sends root rem ((i, j) :: es).
(** ... along the edges of the tree [T], in either direction *)
Definition along (T : edict) (es : list (nat * nat)) : Prop :=
  forall i j, In (i, j) es -> edge T (NInt i) (NInt j) \/ edge T (NInt j) (NInt i).

(** every entry of the table of [v] is 0 or 1 *)
Definition deterministic (bn : bayesnet) (v : name) : Prop := forall x, In x (ncpt bn v) -> x = 0%Qc \/ x = 1%Qc.
(** [v] has a parent or a child *)
Definition attached (bn : bayesnet) (v : name) : Prop := nparents bn v <> [] \/ exists c, In c (bn_V bn) /\ In v (nparents bn c).

(** the nodes of [order] whose family is inside the [k]-th clique but inside no earlier one *)
Definition fitsb (bn : bayesnet) (v : name) (s : list name) : bool := forallb (fun w => mem w s) (v :: nparents bn v).
Definition first_fit (bn : bayesnet) (order : list name) (scopes : list (list name)) (k : nat) : list name :=
  filter (fun v => fitsb bn v (nth k scopes []) && forallb (fun s => negb (fitsb bn v s)) (firstn k scopes)) order.
