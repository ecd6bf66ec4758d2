(** SpecFloat.v -- floating point numbers: what is assumed of a rounding function, and the
    rounding function of IEEE binary64 (round to nearest, ties to even). *)
From Verif Require Import Py Num BayesNet Factor SpecFactor Rounding SpecInference.
Open Scope nat_scope.

(** [rnd] has relative error at most [u] at zero and between [lo] and [hi] *)
Definition accurate (rnd : Qc -> Qc) (u lo hi : Qc) : Prop :=
  forall z, z = 0%Qc \/ (lo <= z /\ z <= hi)%Qc -> (z * (1 - u) <= rnd z /\ rnd z <= z * (1 + u))%Qc.

(** 2^e *)
Definition two_to (e : Z) : Qc := Q2Qc (Qpower 2 e).
(** the e with 2^e <= |x| < 2^(e+1), for x <> 0 *)
Definition magnitude (x : Qc) : Z :=
  let b := (Z.log2 (Z.abs (Qnum (this x))) - Z.log2 (Zpos (Qden (this x))))%Z in
  if qltb (qmax x (- x)) (two_to b) then (b - 1)%Z else b.
(** binary64: 53 significant bits, smallest positive number 2^-1074.  A result of 2^1024
    or more would be infinite in Python; it is replaced by 0 here, so a theorem about
    [binary64] also shows that this does not happen. *)
Definition binary64 (x : Qc) : Qc :=
  if Qc_eq_dec x 0%Qc then 0%Qc
  else if qltb (qmax x (- x)) (two_to 1024) then
    let e := Z.max (magnitude x - 52) (-1074) in
    (zQc (rint (x * two_to (- e))) * two_to e)%Qc
  else 0%Qc.

(** every table entry is 0 or between [d] and 1 *)
Definition entries_within (bn : bayesnet) (d : Qc) : Prop :=
  forall v x, In v (bn_V bn) -> In x (ncpt bn v) -> x = 0%Qc \/ (d <= x /\ x <= 1)%Qc.

(** number of nodes plus total number of values: at most this many floating point
    operations lie between a table entry and the result *)
Definition operations (bn : bayesnet) : nat := length (bn_V bn) + nsum (map (ncard bn) (bn_V bn)).
(** number of full assignments *)
Definition assignments (bn : bayesnet) : nat := nprod (map (ncard bn) (bn_V bn)).

(** [y] is within [e] of [x] *)
Definition close_to (e x y : Qc) : Prop := (x - e <= y /\ y <= x + e)%Qc.
