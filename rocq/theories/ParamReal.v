(** ParamReal.v -- model of pyBN/utils/parameter_distance.py and hybrid_distance.py, over the real numbers. *)
From Coq Require Import Reals.
From Verif Require Import Py Num BayesNet Graph SpecReal MiReal.
Open Scope R_scope.

(** how the interpreter runs the module: as it is (BayesNet is not imported, parameter_distance.py:33),
    with the import added, or with assertions removed (python -O) *)
Inductive mode := AsIs | Imported | NoAsserts.
(** parameter_distance.py:42-43, 55-56, 74-75, 89-90, 104-105, 119-120: the two assertions at the top of every function.
    The arguments of the model are networks, so isinstance succeeds once BayesNet is known. *)
Definition asserts (m : mode) (x y : bayesnet) : res unit :=
  match m with
  | AsIs => Raise NameError
  | Imported => do b <- are_class_equivalent x y ;; if b then Ok tt else Raise AssertionError
  | NoAsserts => Ok tt
  end.
(** numpy: an operation on two one-dimensional arrays; a length-1 array is repeated *)
Definition np_zip {A B C} (f : A -> B -> C) (a : list A) (b : list B) : res (list C) :=
  if Nat.eqb (length a) (length b) then Ok (map (fun p => f (fst p) (snd p)) (combine a b)) else
  match a, b with
  | [x], _ => Ok (map (f x) b)
  | _, [y] => Ok (map (fun x => f x y) a)
  | _, _ => Raise ValueError
  end.
Definition np_sum (l : list R) : R := fold_right Rplus 0 l.
(** x.flat_cpt() - y.flat_cpt() *)
Definition cpt_diff (x y : bayesnet) : res (list R) :=
  do a <- flat_cpt x ;; do b <- flat_cpt y ;; np_zip (fun p q => qr p - qr q) a b.
(** parameter_distance.py:35-46 *)
Definition euclidean (m : mode) (x y : bayesnet) : res R :=
  do _ <- asserts m x y ;; do d <- cpt_diff x y ;; Ok (np_sum (map (fun e => sqrt (e ^ 2)) d)).
(** parameter_distance.py:48-59 *)
Definition manhattan (m : mode) (x y : bayesnet) : res R :=
  do _ <- asserts m x y ;; do d <- cpt_diff x y ;; Ok (np_sum (map Rabs d)).
(** a ** r for a >= 0, r > 0 *)
Definition py_pow (a r : R) : R := if Req_EM_T a 0 then 0 else Rpower a r.
(** parameter_distance.py:61-78  (p > 0; the default is 1.5) *)
Definition minkowski (m : mode) (x y : bayesnet) (p : R) : res R :=
  do _ <- asserts m x y ;; do d <- cpt_diff x y ;; Ok (py_pow (np_sum (map (fun e => e ^ 2) d)) (1 / p)).
(** parameter_distance.py:80-93, for tables without negative entries.  In the sum of x * log(x / y) an entry
    x = 0 gives nan (0 * log 0, or 0/0), and x > 0, y = 0 gives inf *)
Definition kl_terms (l : list (Qc * Qc)) : num R :=
  if existsb (fun p => Qc_eq_bool (fst p) 0%Qc) l then NaN else
  if existsb (fun p => Qc_eq_bool (snd p) 0%Qc) l then Inf else
  Fin (np_sum (map (fun p => qr (fst p) * ln (qr (fst p) / qr (snd p))) l)).
Definition kl_divergence (m : mode) (x y : bayesnet) : res (num R) :=
  do _ <- asserts m x y ;;
  do a <- flat_cpt x ;; do b <- flat_cpt y ;; do l <- np_zip pair a b ;; Ok (kl_terms l).
(** parameter_distance.py:95-109: z is a numpy array, so kl_divergence(x, z) fails: isinstance(z, BayesNet) is False,
    and without assertions z.flat_cpt does not exist *)
Definition js_divergence (m : mode) (x y : bayesnet) : res R :=
  do _ <- asserts m x y ;;
  do a <- flat_cpt x ;; do b <- flat_cpt y ;; do _ <- np_zip (fun p q => (p + q)%Qc) a b ;;
  match m with NoAsserts => Raise AttributeError | _ => Raise AssertionError end.
(** parameter_distance.py:112-123, for tables without negative entries *)
Definition hellinger (m : mode) (x y : bayesnet) : res R :=
  do _ <- asserts m x y ;;
  do a <- flat_cpt x ;; do b <- flat_cpt y ;;
  do d <- np_zip (fun p q => sqrt (qr p) - sqrt (qr q)) a b ;;
  Ok (1 / sqrt 2 * sqrt (np_sum (map (fun e => e ^ 2) d))).
(** hybrid_distance.py:22-28: hamming is not defined in that module *)
Definition hybrid_distance (x y : bayesnet) (alpha : R) : res R := Raise NameError.
