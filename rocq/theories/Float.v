(** Float.v -- the exact-inference code again, this time with the rounding of floating
    point arithmetic: every product and every sum the Python code computes on table
    entries goes through a rounding function [rnd].  Loops, index arithmetic and errors
    are those of Factor.v and Factorization.v (same source lines); with [rnd] the
    identity the programs coincide (theorem C115_same_program). *)
From Verif Require Import Py Num BayesNet Factor Rounding Factorization.
Open Scope nat_scope.

(** factor.py:295-310: [psi[i] = phi1.cpt[j]*phi2.cpt[k]] on floats *)
Fixpoint fl_mul_loop (rnd : Qc -> Qc) (sc1 sc2 : list name) (card1 card2 st1 st2 : dict nat) (cpt1 cpt2 : list Qc)
         (rvs : list name) (n : nat) (asg : dict nat) (j k : Z) : res (list Qc) :=
  match n with
  | 0 => Ok []
  | S n' =>
      do x <- pyget cpt1 j ;;
      do y <- pyget cpt2 k ;;
      do st <- bump sc1 sc2 card1 card2 st1 st2 rvs asg j k ;;
      let '(asg', j', k') := st in
      do rest <- fl_mul_loop rnd sc1 sc2 card1 card2 st1 st2 cpt1 cpt2 rvs n' asg' j' k' ;;
      Ok (rnd (x * y)%Qc :: rest)
  end.

(** factor.py:245-318  Factor.multiply_factor on floats (left result only) *)
Definition fl_mul (rnd : Qc -> Qc) (o : oracle) (self other : factor) : res factor :=
  let sp := self_is_phi1 self other in
  let phi1 := if sp then self else other in
  let phi2 := if sp then other else self in
  let rv_order0 := sorted_by (stride_key (f_stride phi1)) (ask (sub o 1) (dkeys (f_stride phi1))) in
  let scope_set := set_union (f_scope phi1) (f_scope phi2) in
  let rv_order := rv_order0 ++ ask (sub o 2) (set_diff (f_scope phi2) (f_scope phi1)) in
  let card1 := dupdate (f_card phi1) (f_card phi2) in
  let assignment := dict_of (map (fun rv => (rv, 0)) scope_set) in
  let n := nprod (map snd card1) in
  do psi <- fl_mul_loop rnd (f_scope phi1) (f_scope phi2) card1 (f_card phi2) (f_stride phi1) (f_stride phi2)
              (f_cpt phi1) (f_cpt phi2) rv_order n assignment 0%Z 0%Z ;;
  do st <- run_strides card1 rv_order 1 [] ;;
  Ok (mkFactor (f_bn self) (f_var self) (ask (sub o 3) scope_set) card1 st psi).

(** factor.py:433-434: [new_cpt[i] += self.cpt[k+rv_stride*c]] on floats *)
Definition fl_sum_cells (rnd : Qc -> Qc) (cpt : list Qc) (k stride card : nat) : res Qc :=
  foldM (fun acc c => do x <- nget cpt (k + stride * c) ;; Ok (rnd (acc + x)%Qc)) (seq 0 card) 0%Qc.

(** factor.py:399-448  Factor.sumout_var on floats *)
Definition fl_sumout (rnd : Qc -> Qc) (o : oracle) (self : factor) (rv : name) : res factor :=
  out_var (fl_sum_cells rnd) true o self rv.

(** factorization.py:92-93 and 107-108 *)
Fixpoint fl_mul_all (rnd : Qc -> Qc) (o : oracle) (psi : factor) (fs : list factor) : res factor :=
  match fs with
  | [] => Ok psi
  | g :: r => do psi' <- fl_mul rnd (sub o 0) psi g ;; fl_mul_all rnd (sub o 1) psi' r
  end.
(** factorization.py:91-93 *)
Definition fl_product_relevant (rnd : Qc -> Qc) (o : oracle) (rv : name) (fs : list factor) : res factor :=
  match relevant_factors rv fs with
  | [] => Raise IndexError
  | psi :: r => fl_mul_all rnd o psi r
  end.

(** factorization.py:86-99  sum_product_eliminate_var *)
Definition fl_sum_elim (rnd : Qc -> Qc) (o : oracle) (z : factorization) (rv : name) : res factorization :=
  do psi <- fl_product_relevant rnd (sub o 0) rv (fz_phi z) ;;
  do psi' <- fl_sumout rnd (sub o 1) psi rv ;;
  Ok (mkFz (fz_bn z) (irrelevant_factors rv (fz_phi z) ++ [psi']) (fz_map z) (fz_asg z)).

(** factorization.py:101-115  max_product_eliminate_var (comparisons are exact) *)
Definition fl_max_elim (rnd : Qc -> Qc) (o : oracle) (z : factorization) (rv : name) : res factorization :=
  do psi <- fl_product_relevant rnd (sub o 0) rv (fz_phi z) ;;
  do psi' <- maxout_var psi rv ;;
  Ok (mkFz (fz_bn z) (irrelevant_factors rv (fz_phi z) ++ [psi']) (dset (fz_map z) rv psi) (fz_asg z)).

(** ve_marginal.py:12-53, before the final rounding to 4 decimals *)
Definition fl_marginal_factor (rnd : Qc -> Qc) (o : oracle) (bn : bayesnet) (target : name) (ev : list (name * name)) : res factor :=
  do z <- fz_init bn ;;
  do order <- list_remove (bn_nodes bn) target ;;
  do p <- apply_evidence (sub o 0) z order ev ;;
  do z' <- elim_all (fl_sum_elim rnd) (sub o 1) (fst p) (snd p) ;;
  consolidate (fz_phi z').

(** numpy's [np.round(x, d)]: multiply by 10^d, round to the nearest integer (exact),
    divide by 10^d *)
Definition fl_round (rnd : Qc -> Qc) (d : nat) (x : Qc) : Qc :=
  rnd (zQc (rint (rnd (x * pow10 d))) / pow10 d)%Qc.

(** ve_marginal.py:12-55  marginal_ve_e *)
Definition fl_marginal_ve_e (rnd : Qc -> Qc) (o : oracle) (bn : bayesnet) (target : name) (ev : list (name * name)) : res (list Qc) :=
  do f <- fl_marginal_factor rnd o bn target ev ;; Ok (map (fl_round rnd 4) (f_cpt f)).

(** ve_map.py:12-52  ve_map: the run up to line 37, and the assignment it returns *)
Definition fl_map_run (rnd : Qc -> Qc) (o : oracle) (bn : bayesnet) (ev : list (name * name)) : res (factorization * dict name) :=
  do z <- fz_init bn ;;
  do p <- apply_evidence (sub o 0) z (bn_nodes bn) ev ;;
  do z' <- elim_all (fl_max_elim rnd) (sub o 1) (fst p) (snd p) ;;
  do m <- traceback (sub o 2) bn (fz_map z') (fz_asg z') ;;
  Ok (z', m).
Definition fl_ve_map (rnd : Qc -> Qc) (o : oracle) (bn : bayesnet) (ev : list (name * name)) : res (dict name) :=
  do p <- fl_map_run rnd o bn ev ;; Ok (snd p).
(** ve_map.py:39-47  prob=True.  Python 2.7's round(x, 5) goes through the exact decimal expansion of
    the float x (halves away from zero) and returns the float nearest to that decimal *)
Definition fl_ve_map_prob (rnd : Qc -> Qc) (o : oracle) (bn : bayesnet) (ev : list (name * name)) : res (Qc * dict name) :=
  do p <- fl_map_run rnd o bn ev ;;
  do f <- consolidate (fz_phi (fst p)) ;;
  do x <- nget (f_cpt f) 0 ;;
  Ok (rnd (py_round 5 x), snd p).
