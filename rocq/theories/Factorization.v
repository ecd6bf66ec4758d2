(** Factorization.v -- model of pyBN/classes/factorization.py and of the two exact
    inference functions built on it (ve_marginal.py, ve_map.py).

    The factors held by a Factorization are created by it and never shared with the
    caller.  [psi *= g] may spoil [g] (see C04), but [g] is dropped right after, so
    only the left result of [multiply_factor] is kept; FactorHeap.v has the same program on objects, and C123 that the two agree. *)
From Verif Require Import Py Num BayesNet Factor Rounding.
Open Scope nat_scope.

(** factorization.py:25-35: attributes bn, _phi, map_factors (an OrderedDict),
    map_assignment; map_prob is never read. *)
Record factorization := mkFz {
  fz_bn : bayesnet; fz_phi : list factor; fz_map : dict factor; fz_asg : dict name }.

(** factorization.py:15-35 with nodes=None, and 37-44 refresh *)
Definition fz_init (bn : bayesnet) : res factorization :=
  do fs <- mapM (factor_init bn) (bn_nodes bn) ;;
  Ok (mkFz bn fs [] []).
(** factorization.py:27-28: the nodes argument *)
Definition fz_init_nodes (bn : bayesnet) (nodes : list name) : res factorization :=
  do fs <- mapM (factor_init bn) nodes ;;
  Ok (mkFz bn fs [] []).

(** factorization.py:138-142 *)
Definition relevant_factors (rv : name) (fs : list factor) : list factor :=
  filter (fun f => mem rv (f_scope f)) fs.
Definition irrelevant_factors (rv : name) (fs : list factor) : list factor :=
  filter (fun f => negb (mem rv (f_scope f))) fs.

(** factorization.py:81-83: the loop reducing every factor that has the variable *)
Fixpoint reduce_all (o : oracle) (rv val : name) (fs : list factor) : res (list factor) :=
  match fs with
  | [] => Ok []
  | f :: r =>
      do f' <- (if mem rv (f_scope f) then reduce_factor (sub o 0) f rv val else Ok f) ;;
      do r' <- reduce_all (sub o 1) rv val r ;;
      Ok (f' :: r')
  end.
(** factorization.py:74-84  Factorization.__sub__ *)
Definition fz_sub (o : oracle) (z : factorization) (rv val : name) : res factorization :=
  do fs <- reduce_all o rv val (fz_phi z) ;;
  Ok (mkFz (fz_bn z) fs (fz_map z) (dset (fz_asg z) rv val)).

(** factorization.py:92-93 and 107-108: [psi *= relevant_factors[i]] *)
Fixpoint mul_all (o : oracle) (psi : factor) (fs : list factor) : res factor :=
  match fs with
  | [] => Ok psi
  | g :: r => do psi' <- factor_mul (sub o 0) psi g ;; mul_all (sub o 1) psi' r
  end.
(** factorization.py:91-93: IndexError when no factor has the variable *)
Definition product_relevant (o : oracle) (rv : name) (fs : list factor) : res factor :=
  match relevant_factors rv fs with
  | [] => Raise IndexError
  | psi :: r => mul_all o psi r
  end.

(** factorization.py:86-99  sum_product_eliminate_var; also 56-63 __div__ *)
Definition fz_sum_elim (o : oracle) (z : factorization) (rv : name) : res factorization :=
  do psi <- product_relevant (sub o 0) rv (fz_phi z) ;;
  do psi' <- sumout_var (sub o 1) psi rv ;;
  Ok (mkFz (fz_bn z) (irrelevant_factors rv (fz_phi z) ++ [psi']) (fz_map z) (fz_asg z)).

(** factorization.py:101-115  max_product_eliminate_var; also 65-72 __floordiv__ *)
Definition fz_max_elim (o : oracle) (z : factorization) (rv : name) : res factorization :=
  do psi <- product_relevant (sub o 0) rv (fz_phi z) ;;
  do psi' <- maxout_var psi rv ;;
  Ok (mkFz (fz_bn z) (irrelevant_factors rv (fz_phi z) ++ [psi']) (dset (fz_map z) rv psi) (fz_asg z)).

(** numpy argmax: first position of a maximum, ValueError on an empty array *)
Fixpoint argmax_from (best : Qc) (bi i : nat) (l : list Qc) : nat :=
  match l with
  | [] => bi
  | x :: r => if qltb best x then argmax_from x i (S i) r else argmax_from best bi (S i) r
  end.
Definition argmax (l : list Qc) : res nat :=
  match l with [] => Raise ValueError | x :: r => Ok (argmax_from x 0 1 r) end.

(** factorization.py:123-125: condition one stored factor on the later nodes *)
Fixpoint reduce_later (o : oracle) (asg : dict name) (later : list name) (f : factor) : res factor :=
  match later with
  | [] => Ok f
  | nd :: r =>
      do f' <- (if mem nd (f_scope f)
                then do v <- getitem asg nd ;; reduce_factor (sub o 0) f nd v
                else Ok f) ;;
      reduce_later (sub o 1) asg r f'
  end.
(** factorization.py:117-129  traceback_map.  The loop runs over the reversed keys with
    nodes[idx:] the keys after the current one: recursion on the items, tail first. *)
Fixpoint traceback (o : oracle) (bn : bayesnet) (items : dict factor) (asg : dict name) : res (dict name) :=
  match items with
  | [] => Ok asg
  | (rv, f) :: later =>
      do asg' <- traceback (sub o 0) bn later asg ;;
      do f' <- reduce_later (sub o 1) asg' (dkeys later) f ;;
      do vs <- bn_values bn rv ;;
      do i <- argmax (f_cpt f') ;;
      do v <- nget vs i ;;
      Ok (dset asg' rv v)
  end.

(** factorization.py:131-136  consolidate: line 134 reads the undefined global [_phi] *)
Definition consolidate (fs : list factor) : res factor :=
  match fs with
  | [] => Raise IndexError
  | [f] => Ok f
  | _ => Raise NameError
  end.

(** ve_marginal.py:43-46, ve_map.py:26-29: evidence in the order of evidence.items() *)
Fixpoint apply_evidence (o : oracle) (z : factorization) (order : list name) (ev : list (name * name))
  : res (factorization * list name) :=
  match ev with
  | [] => Ok (z, order)
  | (E, e) :: r =>
      do z' <- fz_sub (sub o 0) z E e ;;
      do order' <- list_remove order E ;;
      apply_evidence (sub o 1) z' order' r
  end.

Fixpoint elim_all (elim : oracle -> factorization -> name -> res factorization)
         (o : oracle) (z : factorization) (order : list name) : res factorization :=
  match order with
  | [] => Ok z
  | v :: r => do z' <- elim (sub o 0) z v ;; elim_all elim (sub o 1) z' r
  end.

(** ve_marginal.py:12-55  marginal_ve_e, up to the final rounding *)
Definition marginal_factor (o : oracle) (bn : bayesnet) (target : name) (ev : list (name * name)) : res factor :=
  do z <- fz_init bn ;;
  do order <- list_remove (bn_nodes bn) target ;;
  do p <- apply_evidence (sub o 0) z order ev ;;
  do z' <- elim_all fz_sum_elim (sub o 1) (fst p) (snd p) ;;
  consolidate (fz_phi z').
(** ve_marginal.py:55 *)
Definition marginal_ve_e (o : oracle) (bn : bayesnet) (target : name) (ev : list (name * name)) : res (list Qc) :=
  do f <- marginal_factor o bn target ev ;; Ok (map (np_round 4) (f_cpt f)).

(** ve_map.py:12-52  ve_map with target=None: the assignment, and the probability when
    prob=True.  (With a target the returned object is max_assignment[target].) *)
Definition map_run (o : oracle) (bn : bayesnet) (ev : list (name * name)) : res (factorization * dict name) :=
  do z <- fz_init bn ;;
  do p <- apply_evidence (sub o 0) z (bn_nodes bn) ev ;;
  do z' <- elim_all fz_max_elim (sub o 1) (fst p) (snd p) ;;
  do m <- traceback (sub o 2) bn (fz_map z') (fz_asg z') ;;
  Ok (z', m).
Definition ve_map (o : oracle) (bn : bayesnet) (ev : list (name * name)) : res (dict name) :=
  do p <- map_run o bn ev ;; Ok (snd p).
Definition ve_map_prob (o : oracle) (bn : bayesnet) (ev : list (name * name)) : res (Qc * dict name) :=
  do p <- map_run o bn ev ;;
  do f <- consolidate (fz_phi (fst p)) ;;
  do x <- nget (f_cpt f) 0 ;;
  Ok (py_round 5 x, snd p).

(** ve_map.py:12-52  ve_map with all its arguments: lines 38-51 choose what is returned *)
Inductive map_answer :=
| MapAll (m : dict name)                  (* return max_assignment *)
| MapValue (x : name)                     (* return max_assignment[target] *)
| MapProbAll (p : Qc) (m : dict name)     (* return max_prob, max_assignment *)
| MapProbValue (p : Qc) (x : name).       (* return max_prob, max_assignment[target] *)
Definition ve_map_call (o : oracle) (bn : bayesnet) (ev : list (name * name)) (target : option name) (prob : bool)
  : res map_answer :=
  do p <- map_run o bn ev ;;
  if prob then
    do f <- consolidate (fz_phi (fst p)) ;;
    do x <- nget (f_cpt f) 0 ;;
    match target with
    | Some t => do v <- getitem (snd p) t ;; Ok (MapProbValue (py_round 5 x) v)
    | None => Ok (MapProbAll (py_round 5 x) (snd p))
    end
  else
    match target with
    | Some t => do v <- getitem (snd p) t ;; Ok (MapValue v)
    | None => Ok (MapAll (snd p))
    end.
