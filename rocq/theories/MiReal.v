(** MiReal.v -- model of the numbers computed from the histograms in pyBN/utils/independence_tests.py,
    over the real numbers.  Simplification: floats are exact reals; log is the natural logarithm on
    positive arguments (all arguments of np.log here are positive except in the one-column case, where
    log 0 is treated separately). *)
From Verif Require Import Py Num Data DataUtils SpecReal.
From Coq Require Import Reals Qreals.
Open Scope R_scope.

(** a float result: nan, +inf or a number *)
Inductive num (A : Type) : Type := NaN | Inf | Fin (x : A).
Arguments NaN {A}. Arguments Inf {A}. Arguments Fin {A} x.
Definition num_map {A B} (f : A -> B) (x : num A) : num B := match x with NaN => NaN | Inf => Inf | Fin a => Fin (f a) end.

(** Python 2.7's round(x, 4): halves are rounded away from zero; nan and inf stay *)
Definition round_int (x : R) : Z := if Rle_dec 0 x then Int_part (x + / 2) else (- Int_part (- x + / 2))%Z.
Definition round4 (x : R) : Qc := Q2Qc (round_int (x * 10000) # 10000).
(** the constant 1e-7 *)
Definition eps : R := / 10000000.
(** hist[i][j] and hist[i][j][k] of a flattened histogram *)
Definition at2 (b : nat) (h : list nat) (i j : nat) : R := INR (nth (i * b + j) h 0%nat).
Definition at3 (b c : nat) (h : list nat) (i j k : nat) : R := INR (nth ((i * b + j) * c + k) h 0%nat).
(** hist.sum() *)
Definition hsum (h : list nat) : nat := fold_right Nat.add 0%nat h.

(** independence_tests.py:173-180 (and 43-50, 93-100 with N = hist.sum()): the mutual information of two columns
    from the a x b histogram *)
Definition mi2 (a b : nat) (h : list nat) (N : nat) : R :=
  let Pxy i j := at2 b h i j / INR N in
  let Px i := rsum b (fun j => Pxy i j) in
  let Py j := rsum a (fun i => Pxy i j) in
  rsum a (fun i => rsum b (fun j => (Pxy i j + eps) * ln ((Pxy i j + eps) / (Px i * Py j + eps)))).
(** independence_tests.py:202-219 (and 64-81 with N = hist.sum()): three columns *)
Definition mi3 (a b c : nat) (h : list nat) (N : nat) : R :=
  let Pxyz i j k := at3 b c h i j k / INR N in
  let Pz k := rsum a (fun i => rsum b (fun j => Pxyz i j k)) in
  let Pxz i k := rsum b (fun j => Pxyz i j k) in
  let Pyz j k := rsum a (fun i => Pxyz i j k) in
  let Pxy_z i j k := Pxyz i j k / (Pz k + eps) in
  let Px_z i k := Pxz i k / (Pz k + eps) in
  let Py_z j k := Pyz j k / (Pz k + eps) in
  rsum a (fun i => rsum b (fun j => rsum c (fun k => (Pxyz i j k + eps) * ln ((Pxy_z i j k + eps) / (Px_z i k * Py_z j k + eps))))).
(** independence_tests.py:36-37, 274-275: -sum p log p; an empty bin contributes 0 * log 0 = nan *)
Definition ent1 (h : list nat) : num R :=
  if existsb (Nat.eqb 0) h then NaN else
  Fin (- fold_right Rplus 0 (map (fun n => INR n / INR (hsum h) * ln (INR n / INR (hsum h))) h)).
(** independence_tests.py:280-284: two columns X, Y: the sum of P(x,y) log (P(y) / P(x,y)) *)
Definition ent2 (a b : nat) (h : list nat) : R :=
  let Pxy i j := at2 b h i j / INR (hsum h) in
  let Py j := rsum a (fun i => Pxy i j) in
  rsum a (fun i => rsum b (fun j => (Pxy i j + eps) * ln ((Py j + eps) / (Pxy i j + eps)))).
(** scipy.stats.chi2.pdf(x, k): nan unless k > 0; 0 below the support; the limit of the formula at x = 0 *)
Definition chi2_pdf (x : R) (k : nat) : num R :=
  match k with
  | O => NaN
  | _ => if Rlt_dec x 0 then Fin 0 else
         if Req_EM_T x 0 then match k with 1%nat => Inf | 2%nat => Fin (/ 2) | _ => Fin 0 end else
         Fin (chi2_density k x)
  end.
(** independence_tests.py:181-187, 220-226: [mi_test(data, test=False)] returns the rounded mutual information,
    [mi_test(data)] the rounded double of the chi-square density at 2 N MI.  mi_test has two or three columns here. *)
Definition mi_number (bins h : list nat) (N : nat) : R :=
  match bins with [a; b] => mi2 a b h N | [a; b; c] => mi3 a b c h N | _ => 0 end.
Definition ddof (bins : list nat) : nat :=
  match bins with [a; b] => (a - 1) * (b - 1) | [a; b; c] => (a - 1) * (b - 1) * c | _ => 0 end%nat.
Definition mi_rounded (bins h : list nat) (N : nat) : Qc := round4 (mi_number bins h N).
Definition p_raw (bins h : list nat) (N : nat) : num R := num_map (fun d => 2 * d) (chi2_pdf (2 * INR N * mi_number bins h N) (ddof bins)).
Definition p_rounded (bins h : list nat) (N : nat) : num Qc := num_map round4 (p_raw bins h N).
(** independence_tests.py:33-51, 84-101: [mutual_information(data)] with one, two or (merged) more columns *)
Definition mi_score (bins h : list nat) : num Qc :=
  match bins with
  | [_] => num_map round4 (ent1 h)
  | [a; b] => Fin (round4 (mi2 a b h (hsum h)))
  | _ => NaN
  end.
(** independence_tests.py:295-303: three columns (or more, merged): - sum Pxyz log Pxyz + sum Pyz log Pyz *)
Definition ent3 (a b c : nat) (h : list nat) : R :=
  let Pxyz i j k := at3 b c h i j k / INR (hsum h) in
  let Pyz j k := rsum a (fun i => Pxyz i j k) in
  - rsum a (fun i => rsum b (fun j => rsum c (fun k => (Pxyz i j k + eps) * ln (Pxyz i j k + eps)))) +
  rsum b (fun j => rsum c (fun k => (Pyz j k + eps) * ln (Pyz j k + eps))).
(** independence_tests.py:271-305: [entropy(data)] *)
Definition ent_score (bins h : list nat) : num Qc :=
  match bins with
  | [_] => num_map round4 (ent1 h)
  | [a; b] => Fin (round4 (ent2 a b h))
  | [a; b; c] => Fin (round4 (ent3 a b c h))
  | _ => NaN
  end.
(** independence_tests.py:31-82: [mutual_information(data, conditional=True)] *)
Definition cmi_score (bins h : list nat) : num Qc :=
  match bins with
  | [a; b; c] => Fin (round4 (mi3 a b c h (hsum h)))
  | _ => mi_score bins h
  end.
