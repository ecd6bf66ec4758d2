(** MbFitness.v -- model of mb_fitness, pyBN/utils/markov_blanket.py:116-158.
    [test cols] stands for [mi_test(data[:,cols])]: a Python float (the result of round), so that 1/0.0 raises. *)
From Coq Require Import Reals.
From Verif Require Import Py Num SpecReal MiReal ParamLearn.
From Coq Require Import Ascii String.
Open Scope nat_scope.

(** the [target] argument: None, one column number, one string, or a collection *)
Inductive target_arg := NoTarget | OneCol (i : nat) | OneString (s : string) | Many (l : list name).
(** markov_blanket.py:144-150: set(5) raises TypeError, then nodes = {target}; set("AB") is {"A","B"} *)
Definition fit_nodes (Mb : dict (list name)) (target : target_arg) : list name :=
  match target with
  | NoTarget => dedup (dkeys Mb)
  | OneCol i => [NInt i]
  | OneString s => dedup (map (fun c => NStr (String c EmptyString)) (list_ascii_of_string s))
  | Many l => dedup l
  end.
(** 1/pval *)
Definition ninv (p : num Qc) : res (num Qc) :=
  match p with
  | NaN => Ok NaN
  | Inf => Ok (Fin 0%Qc)
  | Fin q => if Qc_eq_dec q 0 then Raise ZeroDivisionError else Ok (Fin (/ q)%Qc)
  end.
Definition nadd (a b : num Qc) : num Qc :=
  match a, b with
  | NaN, _ | _, NaN => NaN
  | Inf, _ | _, Inf => Inf
  | Fin x, Fin y => Fin (x + y)%Qc
  end.
(** markov_blanket.py:155-157: one node *)
Definition fit_node (o : oracle) (test : list name -> res (num Qc)) (Mb : dict (list name)) (nodes : list name) (D : dict (num Qc)) (T : name) : res (dict (num Qc)) :=
  do mb <- getitem Mb T ;;
  foldM (fun D X => do p <- test (T :: X :: mb) ;; do r <- ninv p ;; do s <- getitem D T ;; Ok (dset D T (nadd s r)))
    (ask o (set_diff (set_diff nodes mb) [T])) D.
(** markov_blanket.py:116-158 *)
Definition mb_fitness (o : oracle) (test : list name -> res (num Qc)) (Mb : dict (list name)) (target : target_arg) : res (dict (num Qc)) :=
  let nodes := fit_nodes Mb target in
  let order := ask (sub o 0) nodes in
  foldM (fun D kT => fit_node (sub (sub o 1) (fst kT)) test Mb nodes D (snd kT)) (enum order) (map (fun rv => (rv, Fin 0%Qc)) order).
