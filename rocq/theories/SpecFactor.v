(** SpecFactor.v -- what a factor *means*, independent of the code's loops.

    Read the table through the formula documented in factor.py lines 17-19:
    [sum(value_index[i]*stride[i] for i = all variables in the scope)]. *)
From Verif Require Import Py Num BayesNet Factor.
Open Scope nat_scope.

(** an assignment of value indices to variables *)
Definition asg := name -> nat.
Definition upd (a : asg) (v : name) (x : nat) : asg := fun w => if name_eqb w v then x else a w.

(** [cd v] is the number of values of [v]. *)
Definition valid (cd : name -> nat) (vs : list name) (a : asg) : Prop :=
  forall v, In v vs -> a v < cd v.

(** the documented index formula *)
Definition offset (f : factor) (a : asg) : nat :=
  nsum (map (fun v => a v * match dget (f_stride f) v with Some s => s | None => 0 end) (f_scope f)).
Definition lookup (f : factor) (a : asg) : option Qc := nth_error (f_cpt f) (offset f a).

(** strides are the running products of the cardinalities along [ord] *)
Fixpoint running (cd : name -> nat) (st : dict nat) (ord : list name) (s : nat) : Prop :=
  match ord with
  | [] => True
  | v :: r => dget st v = Some s /\ running cd st r (s * cd v)
  end.

(** Representation invariant of a factor over variables of cardinality [cd]. *)
Record wf (cd : name -> nat) (f : factor) : Prop := {
  wf_nodup : NoDup (f_scope f);
  wf_ckeys : Permutation (dkeys (f_card f)) (f_scope f);
  wf_skeys : Permutation (dkeys (f_stride f)) (f_scope f);
  wf_card  : forall v, In v (f_scope f) -> dget (f_card f) v = Some (cd v);
  wf_pos   : forall v, In v (f_scope f) -> 0 < cd v;
  wf_ord   : exists ord, Permutation ord (f_scope f) /\ running cd (f_stride f) ord 1;
  wf_len   : length (f_cpt f) = nprod (map cd (f_scope f)) }.

(** [f] is a well-formed factor denoting the function [phi] of assignments. *)
Definition repr (cd : name -> nat) (f : factor) (phi : asg -> Qc) : Prop :=
  wf cd f /\ forall a, valid cd (f_scope f) a -> lookup f a = Some (phi a).

(** sum and maximum over all values of one variable *)
Definition sum_values (cd : name -> nat) (v : name) (phi : asg -> Qc) (a : asg) : Qc :=
  qsum (map (fun x => phi (upd a v x)) (seq 0 (cd v))).
Definition max_values (cd : name -> nat) (v : name) (phi : asg -> Qc) (a : asg) : Qc :=
  fold_right qmax 0%Qc (map (fun x => phi (upd a v x)) (seq 0 (cd v))).
(** sum over all joint values of a list of variables *)
Fixpoint sum_over (cd : name -> nat) (vs : list name) (phi : asg -> Qc) (a : asg) : Qc :=
  match vs with
  | [] => phi a
  | v :: r => sum_values cd v (sum_over cd r phi) a
  end.

(** ** Networks *)
(** mixed-radix index: the first variable varies fastest *)
Fixpoint radix (cd : name -> nat) (ord : list name) (a : asg) : nat :=
  match ord with [] => 0 | v :: r => a v + cd v * radix cd r a end.

(** number of values of a node (0 for an unknown node) *)
Definition ncard (bn : bayesnet) (v : name) : nat :=
  match dget (bn_F bn) v with Some d => length (f_values d) | None => 0 end.
Definition nparents (bn : bayesnet) (v : name) : list name :=
  match dget (bn_F bn) v with Some d => f_parents d | None => [] end.
Definition ncpt (bn : bayesnet) (v : name) : list Qc :=
  match dget (bn_F bn) v with Some d => f_cptl d | None => [] end.
Definition nvalues (bn : bayesnet) (v : name) : list name :=
  match dget (bn_F bn) v with Some d => f_values d | None => [] end.

(** P(v = a v | parents = a) as stored in the network: node fastest, then parents in order *)
Definition cond_prob (bn : bayesnet) (v : name) (a : asg) : option Qc :=
  nth_error (ncpt bn v) (radix (ncard bn) (v :: nparents bn v) a).

(** A network whose tables have the right shape. *)
Record wfnet (bn : bayesnet) : Prop := {
  wn_V : NoDup (bn_V bn);
  wn_F : forall v, In v (bn_V bn) -> exists d, dget (bn_F bn) v = Some d;
  wn_scope : forall v, In v (bn_V bn) -> NoDup (v :: nparents bn v);
  wn_par : forall v, In v (bn_V bn) -> incl (nparents bn v) (bn_V bn);
  wn_vals : forall v, In v (bn_V bn) -> NoDup (nvalues bn v) /\ nvalues bn v <> [];
  wn_cpt : forall v, In v (bn_V bn) ->
           length (ncpt bn v) = nprod (map (ncard bn) (v :: nparents bn v)) }.

Definition getq (o : option Qc) : Qc := match o with Some x => x | None => 0%Qc end.

(** the joint probability of a full assignment: the product of the CPT entries *)
Definition joint (bn : bayesnet) (a : asg) : Qc :=
  qprod (map (fun v => getq (cond_prob bn v a)) (bn_V bn)).

(** two factors are the same function of assignments (whatever their table layout) *)
Definition same_function (cd : name -> nat) (f g : factor) : Prop :=
  (forall v, In v (f_scope f) <-> In v (f_scope g)) /\
  forall a, valid cd (f_scope f) a -> exists x, lookup f a = Some x /\ lookup g a = Some x.

(** factors a user can obtain from a network: constructor, then any operations, with
    any iteration orders.  (Each use of the right operand of a product is of an
    unspoiled copy; what happens to that operand object is property C04.) *)
Inductive obtainable (bn : bayesnet) : factor -> Prop :=
| ob_init v f : In v (bn_V bn) -> factor_init bn v = Ok f -> obtainable bn f
| ob_mul o f g f' g' : good o -> obtainable bn f -> obtainable bn g ->
    multiply_factor o f g = Ok (f', g') -> obtainable bn f'
| ob_sumout o f v f' : good o -> obtainable bn f -> sumout_var o f v = Ok f' -> obtainable bn f'
| ob_maxout f v f' : obtainable bn f -> maxout_var f v = Ok f' -> obtainable bn f'
| ob_sumover f v f' : obtainable bn f -> sumover_var f v = Ok f' -> obtainable bn f'
| ob_reduce o f v x f' : good o -> obtainable bn f -> reduce_factor o f v x = Ok f' -> obtainable bn f'.

(** condition a factor on rv=x if it has rv, leave it alone otherwise *)
Definition red (o : oracle) (f : factor) (rv x : name) : res factor :=
  if mem rv (f_scope f) then reduce_factor o f rv x else Ok f.

