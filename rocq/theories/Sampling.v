(** Sampling.v -- model of pyBN/inference/marginal_approx/{forward_sample,gibbs_sample,lw_sample}.py
    and pyBN/utils/random_sample.py.

    Randomness: each call of [np.random.choice(vals, p=..)] consumes one uniform draw of
    [0,1); the draw made for the j-th node of nodes() in the i-th sample is the argument
    [u i j], so a theorem for all [u] is a theorem for every state of the generator.
    A value drawn from a list of names compares and hashes equal to the list's element.
    Counters are rationals ([int(x)] of a whole number changes nothing). *)
From Verif Require Import Py Num BayesNet Factor Rounding ParamLearn.
Open Scope nat_scope.

(** numpy/random/mtrand.pyx (legacy choice, numpy < 1.12): [cdf = p.cumsum(); cdf /= cdf[-1];
    idx = cdf.searchsorted(u, side='right')], i.e. the number of cdf entries <= u *)
Fixpoint search_right (total u acc : Qc) (p : list Qc) : nat :=
  match p with
  | [] => 0
  | x :: r => if qleb ((acc + x) / total)%Qc u then S (search_right total u (acc + x)%Qc r) else 0
  end.
(** ValueError: empty list, wrong length, a negative entry, or entries that do not sum to 1
    within the tolerance 1e-8 *)
Definition choice_tol : Qc := Q2Qc (1 # 100000000).
Definition np_choice (u : Qc) (vals : list name) (p : list Qc) : res name :=
  if length vals =? 0 then Raise ValueError else
  if negb (length p =? length vals) then Raise ValueError else
  if existsb (fun x => qltb x 0%Qc) p then Raise ValueError else
  if qltb choice_tol (qsum p - 1)%Qc || qltb choice_tol (1 - qsum p)%Qc then Raise ValueError else
  nget vals (search_right (qsum p) u 0%Qc p).
(** [np.random.choice(vals)]: uniform; the generator's integer [d] is reduced to the range *)
Definition np_choice_uniform (d : nat) (vals : list name) : res name :=
  if length vals =? 0 then Raise ValueError else nget vals (d mod length vals).

(** [for p in parents: f.reduce_factor(p, get(p))] (forward_sample.py:55-59, gibbs_sample.py:62-66,
    lw_sample.py:57-60, random_sample.py:49-54); [get(p)] is evaluated before the call *)
Fixpoint reduce_parents (o : oracle) (get : name -> res name) (f : factor) (ps : list name) : res factor :=
  match ps with
  | [] => Ok f
  | p :: r => do x <- get p ;; do f' <- reduce_factor (sub o 0) f p x ;; reduce_parents (sub o 1) get f' r
  end.
Definition reduced_cpt (o : oracle) (bn : bayesnet) (rv : name) (get : name -> res name) : res (list Qc) :=
  do f <- factor_init bn rv ;;
  do ps <- bn_parents bn rv ;;
  do f' <- reduce_parents o get f ps ;;
  Ok (f_cpt f').

(** [sample_dict[rv][val] += w] *)
Definition tally (D : dict (dict Qc)) (rv val : name) (w : Qc) : res (dict (dict Qc)) :=
  do m <- getitem D rv ;; do x <- getitem m val ;; Ok (dset D rv (dset m val (x + w)%Qc)).
(** forward_sample.py:44-48, gibbs_sample.py:40-44, lw_sample.py:47-50: sample_dict[var] = {}; sample_dict[var][val] = 0 *)
Definition empty_tally (bn : bayesnet) : res (dict (dict Qc)) :=
  mapM (fun rv => do vs <- bn_values bn rv ;; Ok (rv, dict_of (map (fun v => (v, 0%Qc)) vs))) (bn_nodes bn).
(** apply [g] to every entry of sample_dict (each entry is visited once; the order is irrelevant) *)
Definition map_tally {A} (g : Qc -> res A) (D : dict (dict Qc)) : res (dict (dict A)) :=
  mapM (fun rm => do m <- mapM (fun vx => do q <- g (snd vx) ;; Ok (fst vx, q)) (snd rm) ;; Ok (fst rm, m)) D.
Definition float_div (x y : Qc) : res Qc := if Qc_eq_dec y 0 then Raise ZeroDivisionError else Ok (x / y)%Qc.

(** forward_sample.py:55-63 *)
Definition fs_node (o : oracle) (bn : bayesnet) (u : nat -> Qc) (st : dict (dict Qc) * dict name) (jr : nat * name)
  : res (dict (dict Qc) * dict name) :=
  let '(D, s) := st in let '(j, rv) := jr in
  do p <- reduced_cpt (sub o j) bn rv (getitem s) ;;
  do vs <- bn_values bn rv ;;
  do x <- np_choice (u j) vs p ;;
  do D' <- tally D rv x 1%Qc ;;
  Ok (D', dset s rv x).
(** forward_sample.py:7-69 *)
Definition forward_sample (o : oracle) (bn : bayesnet) (u : nat -> nat -> Qc) (n : nat) : res (dict (dict Qc)) :=
  do D0 <- empty_tally bn ;;
  do D <- foldM (fun D i =>
            do st <- foldM (fs_node (sub o i) bn (u i)) (enum (bn_nodes bn)) (D, []) ;; Ok (fst st)) (seq 0 n) D0 ;;
  map_tally (fun x => float_div x (nQc n)) D.

(** gibbs_sample.py:53-69: the state is updated node by node *)
Definition gs_node (o : oracle) (bn : bayesnet) (u : nat -> Qc) (s : dict name) (jr : nat * name) : res (dict name) :=
  let '(j, rv) := jr in
  do ps <- bn_parents bn rv ;;
  do p <- (if length ps =? 0 then bn_cpt bn rv else reduced_cpt (sub o j) bn rv (getitem s)) ;;
  do vs <- bn_values bn rv ;;
  do x <- np_choice (u j) vs p ;;
  Ok (dset s rv x).
(** gibbs_sample.py:46-48: the initial state *)
Definition gs_init (bn : bayesnet) (d : nat -> nat) : res (dict name) :=
  foldM (fun s jr => do vs <- bn_values bn (snd jr) ;; do x <- np_choice_uniform (d (fst jr)) vs ;; Ok (dset s (snd jr) x))
    (enum (bn_nodes bn)) [].
(** gibbs_sample.py:71-73: [if i > burn] tally the state (the order of state.items() is
    irrelevant: different nodes have different entries) *)
Definition gs_tally (D : dict (dict Qc)) (s : dict name) : res (dict (dict Qc)) :=
  foldM (fun D rx => tally D (fst rx) (snd rx) 1%Qc) s D.
(** gibbs_sample.py:10-79.  n - burn may be negative. *)
Definition gibbs_sample (o : oracle) (bn : bayesnet) (d : nat -> nat) (u : nat -> nat -> Qc) (n burn : nat) : res (dict (dict Qc)) :=
  do D0 <- empty_tally bn ;;
  do s0 <- gs_init bn d ;;
  do st <- foldM (fun st i =>
             do s' <- foldM (gs_node (sub o i) bn (u i)) (enum (bn_nodes bn)) (snd st) ;;
             do D' <- (if burn <? i then gs_tally (fst st) s' else Ok (fst st)) ;;
             Ok (D', s')) (seq 0 n) (D0, s0) ;;
  map_tally (fun x => do y <- float_div x (nQc n - nQc burn)%Qc ;; Ok (py_round 4 y)) (fst st).

(** lw_sample.py:57-71: one node; the state is the new sample and its weight *)
Definition lw_node (o : oracle) (bn : bayesnet) (ev : dict name) (u : nat -> Qc) (st : dict name * Qc) (jr : nat * name)
  : res (dict name * Qc) :=
  let '(s, w) := st in let '(j, rv) := jr in
  do p <- reduced_cpt (sub o j) bn rv (getitem s) ;;
  match dget ev rv with
  | Some x => do vs <- bn_values bn rv ;; do k <- list_index vs x ;; do q <- nget p k ;; Ok (dset s rv x, (w * q)%Qc)
  | None => do vs <- bn_values bn rv ;; do x <- np_choice (u j) vs p ;; Ok (dset s rv x, w)
  end.
(** lw_sample.py:73-74 *)
Definition lw_tally (D : dict (dict Qc)) (sw : dict name * Qc) : res (dict (dict Qc)) :=
  foldM (fun D rx => tally D (fst rx) (snd rx) (1 * snd sw)%Qc) (fst sw) D.
(** lw_sample.py:76-81.  [weight_sum] is a numpy float when n > 0, so dividing by zero gives
    nan (None here) without an exception; for n = 0 it is the integer 0. *)
Definition lw_entry (n : nat) (weight_sum x : Qc) : res (option Qc) :=
  if Qc_eq_dec weight_sum 0 then if n =? 0 then Raise ZeroDivisionError else Ok None
  else Ok (Some (py_round 4 (x / weight_sum))).
(** lw_sample.py:10-86 with target=None; with a target one entry of the result is returned *)
Definition lw_sample (o : oracle) (bn : bayesnet) (ev : dict name) (u : nat -> nat -> Qc) (n : nat) : res (dict (dict (option Qc))) :=
  do D0 <- empty_tally bn ;;
  do st <- foldM (fun st i =>
             do sw <- foldM (lw_node (sub o i) bn ev (u i)) (enum (bn_nodes bn)) ([], 1%Qc) ;;
             do D' <- lw_tally (fst st) sw ;;
             Ok (D', snd st ++ [snd sw])) (seq 0 n) (D0, []) ;;
  map_tally (lw_entry n (qsum (snd st))) (fst st).
Definition lw_sample_target (o : oracle) (bn : bayesnet) (ev : dict name) (u : nat -> nat -> Qc) (n : nat) (target : name)
  : res (dict (option Qc)) :=
  do D <- lw_sample o bn ev u n ;; getitem D target.

(** random_sample.py:48-56: one row; [row] starts with whatever np.empty left in memory.
    [bn.values(p)[sample[i][k]]]: a negative index counts from the end. *)
Definition rs_get (bn : bayesnet) (row : list Z) (p : name) : res name :=
  do vs <- bn_values bn p ;;
  do k <- match index_of p (bn_nodes bn) with Some k => Ok k | None => Raise KeyError end ;;
  do z <- nget row k ;;
  pyget vs z.
Definition rs_node (o : oracle) (bn : bayesnet) (u : nat -> Qc) (row : list Z) (jr : nat * name) : res (list Z) :=
  let '(j, rv) := jr in
  do p <- reduced_cpt (sub o j) bn rv (rs_get bn row) ;;
  do vs <- bn_values bn rv ;;
  do x <- np_choice (u j) vs p ;;
  do i <- list_index vs x ;;
  Ok (upd_nth j (Z.of_nat i) row).
(** random_sample.py:18-58.  The deepcopy of a precomputed Factor equals a new one.  [junk i j]
    is the uninitialised memory. *)
Definition random_sample (o : oracle) (bn : bayesnet) (junk : nat -> nat -> Z) (u : nat -> nat -> Qc) (n : nat) : res (list (list Z)) :=
  mapM (fun i => foldM (rs_node (sub o i) bn (u i)) (enum (bn_nodes bn)) (map (junk i) (seq 0 (length (bn_nodes bn))))) (seq 0 n).
