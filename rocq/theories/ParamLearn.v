(** ParamLearn.v -- model of pyBN/learning/parameter/mle.py (mle_estimator, mle_fast),
    pyBN/learning/parameter/bayes.py and pyBN/learning/structure/naive/naive_bayes.py.

    Floats are exact rationals.  [o] chooses the iteration order of the dictionaries that are
    iterated (mle.py:163, bayes.py:97) and of the sets turned into lists (bayesnet.py:286). *)
From Verif Require Import Py Num BayesNet Rounding Graph Data.
Open Scope nat_scope.

Definition enum {A} (l : list A) : list (nat * A) := combine (seq 0 (length l)) l.

(** mle.py:142-144, bayes.py:81-82: for i, n in enumerate(nodes): bn.F[n]['values'] =
    list(np.unique(data[:,i])).  (mle.py:143 also writes them into the new dictionary F, the
    first component.) *)
Definition learn_values (t : table) (nodes : list name) (bn : bayesnet) : res (dict (list name) * bayesnet) :=
  foldM (fun st ni =>
    let '(vals, bn) := st in
    do c <- column t (fst ni) ;;
    do bn' <- bn_set_values bn (snd ni) (np_unique c) ;;
    Ok (dset vals (snd ni) (np_unique c), bn')) (enum nodes) ([], bn).
(** mle.py:150, bayes.py:88: int(np.prod([card of parents]) * card) *)
Definition p_idx (bn : bayesnet) (rv : name) : res nat :=
  do ps <- bn_parents bn rv ;; do cs <- mapM (bn_card bn) ps ;; do c <- bn_card bn rv ;; Ok (nprod cs * c).
(** mle.py:157-158, bayes.py:94: the observed value of each node *)
Definition observe_row (nodes : list name) (row : list name) : res (dict name) :=
  mapM (fun rv => do x <- row_get row rv ;; Ok (rv, x)) nodes.
(** mle.py:163-164, bayes.py:97-98: the position to increment, [0] of the list of positions.  That list is made
    from a set, so its order is arbitrary too ([sub o 0]). *)
Definition cell_offset (o : oracle) (bn : bayesnet) (obs : dict name) (rv : name) : res nat :=
  do sc <- bn_scope bn rv ;;
  let keys := ask o (filter (fun n => mem n sc) (dkeys obs)) in
  do rv_dict <- mapM (fun n => do x <- getitem obs n ;; Ok (n, x)) keys ;;
  do idx <- cpt_indices bn rv rv_dict ;;
  match ask (sub o 0) (map NInt idx) with NInt i :: _ => Ok i | _ => Raise IndexError end.
(** [cpt[offset] += 1] *)
Definition incr_at (off : nat) (c : list Qc) : res (list Qc) :=
  do x <- nget c off ;; Ok (upd_nth off (x + 1)%Qc c).

(** mle.py:148-152: empty tables, both in F (first component) and in bn.F *)
Definition mle_zero (nodes : list name) (bn : bayesnet) : res (dict (list Qc) * bayesnet) :=
  foldM (fun st rv =>
    let '(C, bn) := st in
    do k <- p_idx bn rv ;;
    do bn' <- bn_set_cpt bn rv (repeat 0%Qc k) ;;
    Ok (dset C rv (repeat 0%Qc k), bn')) nodes ([], bn).
(** mle.py:155-165: count the rows.  [n] is the row number, used to name the oracle. *)
Definition mle_row (o : oracle) (bn : bayesnet) (nodes : list name) (C : dict (list Qc)) (nr : nat * list name) : res (dict (list Qc)) :=
  do obs <- observe_row nodes (snd nr) ;;
  foldM (fun C rv =>
    do off <- cell_offset (sub o (fst nr)) bn obs rv ;;
    do c <- getitem C rv ;;
    do c' <- incr_at off c ;;
    Ok (dset C rv c')) nodes C.
Definition mle_count (o : oracle) (t : table) (nodes : list name) (bn : bayesnet) : res (dict (list name) * dict (list Qc) * bayesnet) :=
  do st1 <- learn_values t nodes bn ;;
  let '(vals, bn1) := st1 in
  do st2 <- mle_zero nodes bn1 ;;
  let '(C0, bn2) := st2 in
  do C <- foldM (mle_row o bn2 nodes) (enum (t_rows t)) C0 ;;
  Ok (vals, C, bn2).

(** the starts of the groups: range(0, len(cpt), card); ValueError when card is 0 *)
Definition group_starts (len card : nat) : res (list nat) :=
  if card =? 0 then Raise ValueError else Ok (map (fun k => k * card) (seq 0 ((len + card - 1) / card))).
(** mle.py:172-176, bayes.py:104-108: normalise each group in place *)
Definition norm_cell (denom : Qc) (c : list Qc) (k : nat) : res (list Qc) :=
  do x <- nget c k ;;
  if Qc_eq_dec denom 0 then Raise ZeroDivisionError else Ok (upd_nth k (py_round 5 (x / denom))%Qc c).
Definition norm_group (eps : Qc) (card : nat) (c : list Qc) (i : nat) : res (list Qc) :=
  let temp_sum := qsum (firstn card (skipn i c)) in
  foldM (norm_cell (temp_sum + eps)%Qc) (map (fun j => i + j) (seq 0 card)) c.
Definition norm_cpt (eps : Qc) (card : nat) (c : list Qc) : res (list Qc) :=
  do is <- group_starts (length c) card ;; foldM (norm_group eps card) is c.

Definition eps7 : Qc := Q2Qc (1 # 10000000).

(** mle.py:76-177  mle_estimator with counts=True: the returned dictionary (values and counts,
    it has no 'parents'), and the network as left behind *)
Definition mle_counts (o : oracle) (bn : bayesnet) (t : table) (nodes : option (list name))
  : res (dict (list name * list Qc) * bayesnet) :=
  let ns := match nodes with None => bn_V bn | Some l => l end in
  do st <- mle_count o t ns bn ;;
  let '(vals, C, bn2) := st in
  do F <- mapM (fun rv => do vs <- getitem vals rv ;; do c <- getitem C rv ;; Ok (rv, (vs, c))) ns ;;
  Ok (F, bn2).
(** mle.py:170-177: [F[rv]['parents'] = [var for var in nodes if rv in bn.E[var]]], then
    normalisation, then bn.F = F *)
Definition mle_estimator (o : oracle) (bn : bayesnet) (t : table) (nodes : option (list name)) : res bayesnet :=
  let ns := match nodes with None => bn_V bn | Some l => l end in
  do st <- mle_count o t ns bn ;;
  let '(vals, C, bn2) := st in
  do F <- foldM (fun F rv =>
     do flags <- mapM (fun var => do c <- getitem (bn_E bn2) var ;; Ok (var, mem rv c)) ns ;;
     do vs <- getitem vals rv ;;
     do c <- getitem C rv ;;
     do k <- bn_card bn2 rv ;;
     do c' <- norm_cpt eps7 k c ;;
     Ok (dset F rv (mkF (map fst (filter snd flags)) vs c'))) ns [] ;;
  Ok (bn_with_F bn2 F).

(** mle.py:14-66  mle_fast: the parameter [np=False] hides the module, so the first use of
    [np.unique] (line 39, if there is any node) is an attribute of a bool.  Only the default
    np=False / np=True call (a bool) is modelled. *)
Definition mle_fast (bn : bayesnet) (t : table) (nodes : option (list name)) : res bayesnet :=
  match (match nodes with None => bn_V bn | Some l => l end) with
  | [] => Ok (bn_with_F bn [])
  | _ :: _ => Raise AttributeError
  end.

(** bayes.py:86-89 *)
Definition bayes_prior (ess : Qc) (nodes : list name) (bn : bayesnet) : res bayesnet :=
  foldM (fun bn rv =>
    do k <- p_idx bn rv ;;
    if k =? 0 then Raise ZeroDivisionError else
    bn_set_cpt bn rv (repeat (ess / nQc k)%Qc k)) nodes bn.
(** bayes.py:92-99 *)
Definition bayes_row (o : oracle) (nodes : list name) (bn : bayesnet) (nr : nat * list name) : res bayesnet :=
  do obs <- observe_row nodes (snd nr) ;;
  foldM (fun bn rv =>
    do off <- cell_offset (sub o (fst nr)) bn obs rv ;;
    do c <- bn_cpt bn rv ;;
    do c' <- incr_at off c ;;
    bn_set_cpt bn rv c') nodes bn.
(** bayes.py:15-108  bayes_estimator ([prior_dict] is never read) *)
Definition bayes_estimator (o : oracle) (bn : bayesnet) (t : table) (equiv_sample : option Qc) (nodes : option (list name)) : res bayesnet :=
  let ess := match equiv_sample with None => nQc (length (t_rows t)) | Some q => q end in
  let ns := match nodes with None => bn_V bn | Some l => l end in
  do st1 <- learn_values t ns bn ;;
  do bn2 <- bayes_prior ess ns (snd st1) ;;
  do bn3 <- foldM (bayes_row o ns) (enum (t_rows t)) bn2 ;;
  foldM (fun bn rv =>
    do c <- bn_cpt bn rv ;;
    do k <- bn_card bn rv ;;
    do c' <- norm_cpt 0%Qc k c ;;
    bn_set_cpt bn rv c') ns bn3.

(** naive_bayes.py:59-69.  A dict with keys 0..n-1 is iterated in increasing order (CPython's
    hash of a small int is the int itself), so [value_dict] is the list of columns. *)
Definition naive_bayes_structure (t : table) (target : nat) : res bayesnet :=
  do cols <- mapM (fun i => do c <- column t i ;; Ok (NInt i, np_unique c)) (seq 0 (t_ncols t)) ;;
  let others := filter (fun v => negb (name_eqb v (NInt target))) (dkeys cols) in
  let edge_dict := dupdate [(NInt target, others)] (map (fun v => (v, [])) others) in
  set_structure edge_dict (Some cols).
Definition naive_bayes (o : oracle) (t : table) (target : nat) (bayes : bool) : res bayesnet :=
  do bn <- naive_bayes_structure t target ;;
  if bayes then bayes_estimator o bn t None None else mle_estimator o bn t None.
