(** InfoReal.v -- model of the numbers returned by pyBN/learning/structure/score/info_scores.py, over the real
    numbers.  Simplification: floats are exact reals and np.log is the natural logarithm, so the model is
    meant for nrow >= 1 and tables without entries below -1e-7 (np.log gives -inf or nan otherwise). *)
From Verif Require Import Py Num BayesNet Graph StructScore SpecReal MiReal.
From Coq Require Import Reals String.
Open Scope R_scope.

(** info_scores.py:53-116  log_likelihood: the sum of log(nrow * (theta + 1e-7)) over all table entries *)
Definition log_likelihood (bn : bayesnet) (nrow : nat) : res R :=
  do c <- flat_cpt bn ;; Ok (fold_right Rplus 0 (map (fun q => ln (INR nrow * (qr q + eps))) c)).
(** info_scores.py:125-134  BIC *)
Definition BIC (bn : bayesnet) (nrow : nat) : res R :=
  do ll <- log_likelihood bn nrow ;;
  do np <- bn_num_params bn ;;
  do ne <- bn_num_edges bn ;;
  Ok (ll - / 2 * INR np * ln (INR (Nat.max ne 1))).
(** info_scores.py:118-123  MDL *)
Definition MDL (bn : bayesnet) (nrow : nat) : res R := BIC bn nrow.
(** info_scores.py:136-145  AIC *)
Definition AIC (bn : bayesnet) (nrow : nat) : res R :=
  do ll <- log_likelihood bn nrow ;;
  do c <- flat_cpt bn ;;
  Ok (ll - INR (List.length c)).
(** info_scores.py:38-48  info_score: an unknown metric means BIC *)
Definition info_score (bn : bayesnet) (nrow : nat) (metric : string) : res R :=
  if String.eqb (upper metric) "LL"%string then log_likelihood bn nrow
  else if String.eqb (upper metric) "BIC"%string then BIC bn nrow
  else if String.eqb (upper metric) "AIC"%string then AIC bn nrow
  else BIC bn nrow.
