(** Hashing.v -- BayesNet objects as keys of a Python dict: bayesnet.py:88-95 __eq__ and 97-102 __hash__. *)
From Verif Require Import Py Num BayesNet Graph.
Open Scope nat_scope.

(** bayesnet.py:97-102  __hash__: hash((str(V), str(E))).  [h] stands for the hash of the two strings, as a function of the
    list and of the dict in its iteration order. *)
Definition bn_hash (h : list name -> edict -> Z) (bn : bayesnet) : Z := h (bn_V bn) (bn_E bn).

(** A dict whose keys are BayesNet objects: the objects' addresses, the hashes stored when the keys were inserted, the values,
    in the order in which the interpreter probes entries.  [heap] gives the present contents of an object. *)
Definition bn_dict (A : Type) := list (nat * Z * A).
(** CPython 2.7 dictobject.c, lookdict: an entry is the one looked for if it is the same object, or if the stored hashes
    agree and [__eq__] (bayesnet.py:88-95: are_class_equivalent) says so; other entries are skipped.  KeyError if none is. *)
Fixpoint bn_lookup {A} (heap : nat -> bayesnet) (hx : Z) (d : bn_dict A) (x : nat) : res A :=
  match d with
  | [] => Raise KeyError
  | (k, hk, v) :: r =>
      if Z.eqb hk hx then
        if k =? x then Ok v else
        do same <- are_class_equivalent (heap k) (heap x) ;;
        if same : bool then Ok v else bn_lookup heap hx r x
      else bn_lookup heap hx r x
  end.
(** [d[x]] *)
Definition bn_getitem {A} (h : list name -> edict -> Z) (heap : nat -> bayesnet) (d : bn_dict A) (x : nat) : res A := bn_lookup heap (bn_hash h (heap x)) d x.
(** [d[x] = v] for a key that is not in the dict: the entry goes to the end of the probe sequence *)
Definition bn_insert {A} (h : list name -> edict -> Z) (heap : nat -> bayesnet) (d : bn_dict A) (x : nat) (v : A) : bn_dict A := d ++ [(x, bn_hash h (heap x), v)].
