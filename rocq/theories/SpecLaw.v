(** SpecLaw.v -- the law of a sampler, without measure theory.

    A uniform draw on [0,1) is an equiprobable grid cell c in {0,..,M-1} plus a position d in [0,1)
    inside the cell: u = (c + d) / M.  When [M] is a common denominator of the network's tables every
    interval of every distribution is a union of cells, so averaging over all the equiprobable cells
    for ARBITRARY positions [d] is the exact expectation over uniform draws (whatever [d] is, the
    average is the same, hence so is its integral over [d]). *)
From Verif Require Import Py Num BayesNet Factor SpecFactor SpecInference.
Open Scope nat_scope.

(** all lists of [n] elements of [l] *)
Fixpoint lists_of {A} (l : list A) (n : nat) : list (list A) :=
  match n with 0 => [[]] | S n => flat_map (fun x => map (cons x) (lists_of l n)) l end.
(** all choices of cells for [n] samples of [k] draws each *)
Definition cells (M n k : nat) : list (list (list nat)) := lists_of (lists_of (seq 0 M) k) n.
(** the draw table of a choice of cells [c] and positions [d] *)
Definition draws (M : nat) (d : nat -> nat -> Qc) (c : list (list nat)) : nat -> nat -> Qc :=
  fun i j => ((nQc (nth j (nth i c []) 0%nat) + d i j) / nQc M)%Qc.
Definition positions (d : nat -> nat -> Qc) : Prop := forall i j, (0 <= d i j /\ d i j < 1)%Qc.
(** every table entry is a multiple of 1/M *)
Definition denominator (bn : bayesnet) (M : nat) : Prop :=
  0 < M /\ forall v p, In v (bn_V bn) -> In p (ncpt bn v) -> exists z : nat, p = (nQc z / nQc M)%Qc.

(** expectation, and probability of an event, over equiprobable cases *)
Definition average {A} (l : list A) (f : A -> Qc) : Qc := (qsum (map f l) / nQc (length l))%Qc.
Definition fraction {A} (l : list A) (p : A -> bool) : Qc := (nQc (length (filter p l)) / nQc (length l))%Qc.

(** the number reported for the value [x] of node [v] (0 if there is none) *)
Definition reported (r : res (dict (dict Qc))) (v x : name) : Qc :=
  match r with Ok D => match dget D v with Some m => getq (dget m x) | None => 0%Qc end | Raise _ => 0%Qc end.
(** [x] differs from [p] by at least [e] *)
Definition off_by (e x p : Qc) : bool := qleb e (x - p)%Qc || qleb e (p - x)%Qc.
(** the call returned exactly the table [t] *)
Definition same_table (r : res (list (list Z))) (t : list (list Z)) : bool :=
  match r with Ok t' => if list_eq_dec (list_eq_dec Z.eq_dec) t' t then true else false | Raise _ => false end.
(** a report that is missing, nan (None) or differs from [q] by at least [t] *)
Definition misses (r : res (dict (dict (option Qc)))) (v x : name) (t q : Qc) : bool :=
  match r with
  | Ok D => match dget D v with
            | Some m => match dget m x with Some (Some y) => off_by t y q | _ => true end
            | None => true end
  | Raise _ => true
  end.
