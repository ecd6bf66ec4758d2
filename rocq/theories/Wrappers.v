(** Wrappers.v -- model of learners, classifiers and scores that call names that do not exist:
    hybrid/{mmpc,mmhc}.py, naive/TAN.py, classification/{classification,feature_selection}.py, mdbn.py, score/bayes_scores.py. *)
From Verif Require Import Py Num BayesNet Graph Data ParamLearn StructScore SpecConstraint DataUtils.
Open Scope nat_scope.

(** mmpc.py:49-101.  The module imports nothing: line 55 reads the undefined name np for every column, and comes before the
    loops over the columns.  With no column these loops are empty. *)
Definition mmpc (t : table) : res edict :=
  let CPC := edgeless (t_ncols t) in
  do vd <- mapM (fun n : name => (Raise NameError : res (list name))) (columns (t_ncols t)) ;; Ok CPC.
(** mmhc.py:46-61, with the import of line 10 (a module that does not exist) repaired: hill_climbing, tabu and hill_climbing_rr
    are undefined names *)
Definition mmhc (t : table) : res bayesnet :=
  do pc <- mmpc t ;;
  let restriction := flat_map (fun yp => map (pair (fst yp)) (snd yp)) pc in
  Raise NameError.
(** TAN.py:26-31 for an array with [dims] dimensions: three indices (line 26), then the undefined name reduce_data *)
Definition TAN (dims : nat) (target : nat) : res bayesnet := if dims <? 3 then Raise IndexError else Raise NameError.
(** classification.py:82-104  predict.  The value of a cell is written into an integer array; marginal_lws_a, learn_structure and
    learn_parameters are undefined names.  The accuracy of no rows is 0/0, nan. *)
Definition as_int32 (x : name) : res nat := match x with NInt n => Ok n | NStr s => py_int s end.
Definition predict (t : table) (target : nat) (classifier : option bayesnet) : res (list nat * list nat * option Qc) :=
  do bn <- (match classifier with Some bn => Ok bn | None => Raise NameError end) ;;
  do rows <- mapM (fun r => do vals <- mapM (nget r) (filter (fun i => negb (i =? target)) (seq 0 (t_ncols t))) ;;
                            do x <- nget r target ;; do y <- as_int32 x ;;
                            (Raise NameError : res (nat * nat))) (t_rows t) ;;
  Ok (map fst rows, map snd rows, match length rows with 0 => None | n => Some (nQc (length (filter (fun p => fst p =? snd p) rows)) / nQc n)%Qc end).
(** feature_selection.py:106-107: learn_structure is an undefined name *)
Definition feature_selection (t : table) (target : name) (method : string) : res (list name) := Raise NameError.
(** feature_selection.py:77-83 *)
Definition fs_gambit (t : table) (target : name) : res (dict (list name)) :=
  foldM (fun d algo => do f <- feature_selection t target algo ;; Ok (dset d (NStr algo) f)) ["iamb"; "fast_iamb"; "lambda_iamb"; "gs"]%string [].
(** mdbn.py:80-91  bridge: a BayesNet is not iterable (line 81) *)
Definition iterate (bn : bayesnet) : res (list name) := Raise TypeError.
Definition bridge (c_bn f_bn : bayesnet) : res unit :=
  do us <- iterate c_bn ;; do r <- mapM (fun u => do vs <- iterate f_bn ;; Ok (map (pair u) vs)) us ;; Ok tt.
(** mdbn.py:105-113; [f_bn] and [c_bn] stand for the two calls of hc_rr *)
Definition mdbn (f_bn c_bn : res bayesnet) : res unit := do f <- f_bn ;; do c <- c_bn ;; bridge c f.

(** mle.py:14-57: the counts of mle_fast(bn, data, counts=True, np=True).  [np] is the argument, a bool: np.unique (line 39) fails
    for the first node *)
Definition mle_fast_counts (bn : bayesnet) : res (dict (list Qc)) :=
  do vs <- mapM (fun n => (Raise AttributeError : res (list name))) (bn_V bn) ;; Ok [].
(** bayes_scores.py:60-71 (BDe) and 110-121 (BDeu): line 66 (116) updates k2, which has no value; [counts] is the result of mle_fast *)
Definition bde_of (counts : res (dict (list Qc))) : res Qc :=
  do C <- counts ;; foldM (fun (b : Qc) rv => (Raise UnboundLocalError : res Qc)) C 1%Qc.
(** bayes_scores.py:128-139 (K2): line 135 reads the undefined name cpt *)
Definition k2_of (counts : res (dict (list Qc))) : res Qc :=
  do C <- counts ;; foldM (fun (b : Qc) rv => (Raise NameError : res Qc)) C 1%Qc.
Definition BDe (bn : bayesnet) : res Qc := bde_of (mle_fast_counts bn).
Definition BDeu (bn : bayesnet) : res Qc := bde_of (mle_fast_counts bn).
Definition K2 (bn : bayesnet) : res Qc := k2_of (mle_fast_counts bn).
