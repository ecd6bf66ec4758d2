(** LogReal.v -- model of the logarithms taken in Factor.to_log / Factor.from_log and in ilp_map, over the real numbers.
    Simplification: np.log and np.exp are the exact functions; the rounding to 5 (3) decimals that follows is modelled. *)
From Coq Require Import Reals.
From Verif Require Import Py Num BayesNet Factor SpecFactor SpecReal MiReal SpecIlp.
Open Scope R_scope.

(** numpy's rint: the nearest integer, halves to the even one *)
Definition rint_r (x : R) : Z :=
  if Rlt_dec (frac_part x) (/ 2) then Int_part x else
  if Rlt_dec (/ 2) (frac_part x) then (Int_part x + 1)%Z else
  if Z.even (Int_part x) then Int_part x else (Int_part x + 1)%Z.
(** np.round(x, 5) *)
Definition np_round5 (x : R) : Qc := Q2Qc (rint_r (x * 100000) # 100000).

(** an entry of a table of logarithms: log 0 = -inf, log of a negative number = nan *)
Inductive logval := NegInf | NoNum | Log (q : Qc).
(** factor.py:612-618  Factor.to_log, one entry *)
Definition to_log_entry (p : Qc) : logval :=
  if Qclt_le_dec 0 p then Log (np_round5 (ln (qr p))) else if Qc_eq_dec p 0 then NegInf else NoNum.
(** factor.py:620-626  Factor.from_log, one entry; None is nan *)
Definition from_log_entry (v : logval) : option Qc :=
  match v with NegInf => Some 0%Qc | NoNum => None | Log q => Some (np_round5 (exp (qr q))) end.
(** factor.py:612-618, 620-626: only self.cpt changes; the tables after to_log, and after to_log and from_log *)
Definition to_log (f : factor) : list logval := map to_log_entry (f_cpt f).
Definition from_log (l : list logval) : list (option Qc) := map from_log_entry l.
(** the factor object with another table *)
Definition with_cpt (f : factor) (l : list Qc) : factor :=
  mkFactor (f_bn f) (f_var f) (f_scope f) (f_card f) (f_stride f) l.

(** ilp_map.py:45  round(-np.log(p), 3), Python 2.7: halves are rounded away from zero; used for p > 0 *)
Definition ilp_weight (p : Qc) : Qc := Q2Qc (round_int (- ln (qr p) * 1000) # 1000).
