(** StructScore.v -- model of pyBN/learning/structure/score/{hill_climbing,tabu,random_restarts}.py.

    [mi cols] stands for [mutual_information(data[:,cols])] (independence_tests.py:33-97): the
    searches are modelled for an arbitrary score; [Ok None] is nan (comparisons with nan are
    False).  Scores are subtracted and multiplied exactly.
    Besides its result each search returns the list of the moves it chose together with the
    graph each was chosen in (what debug=True prints). *)
From Coq Require Import Ascii.
From Verif Require Import Py Num BayesNet Graph Data ParamLearn SpecScore.
Open Scope nat_scope.

Definition score := list name -> res (option Qc).
(** c_dict and p_dict are the two components of a [gstate] (SpecScore.v) *)

(** hill_climbing.py:110-111, tabu.py:78-79, random_restarts.py:77-78: no edges.  The keys are
    range(ncol), iterated in increasing order (CPython's int hashing). *)
Definition edgeless (n : nat) : edict := map (fun i => (NInt i, [])) (seq 0 n).
(** nrow * (mi_old - mi_new) *)
Definition delta (mi : score) (nrow : nat) (old new : list name) : res (option Qc) :=
  do a <- mi old ;; do b <- mi new ;;
  Ok (match a, b with Some x, Some y => Some (nQc nrow * (x - y))%Qc | _, _ => None end).
(** [tuple([i for i in old_cols if i != u])] *)
Definition without (u : name) (l : list name) : list name := filter (fun i => negb (name_eqb i u)) l.
(** the score difference of a move: hill_climbing.py:141-145, 160-164, 179-191.  In the reversal
    the columns are as written there: p_dict[v] for u's family, and [u for i in old_cols if i != u]
    for v's family without u. *)
Definition gain (mi : score) (nrow : nat) (p : edict) (m : move) : res (option Qc) :=
  let '(k, (u, v)) := m in
  do pv <- getitem p v ;;
  match k with
  | Addition => delta mi nrow (v :: pv) ((v :: pv) ++ [u])
  | Deletion => delta mi nrow (v :: pv) (without u (v :: pv))
  | Reversal =>
      do d1 <- delta mi nrow (u :: pv) ((u :: pv) ++ [v]) ;;
      do d2 <- delta mi nrow (v :: pv) (map (fun _ => u) (without u (v :: pv))) ;;
      Ok (match d1, d2 with Some x, Some y => Some (x + y)%Qc | _, _ => None end)
  end.
(** (max_delta, max_operation and max_arc); nothing chosen yet: max_delta = 0 *)
Definition best := option (Qc * move).
Definition max_delta (b : best) : Qc := match b with Some (d, _) => d | None => 0%Qc end.
(** [if delta_score > max_delta] (hill_climbing.py:147-153, 166-172, 193-199) *)
Definition improve (b : best) (d : option Qc) (m : move) : best :=
  match d with Some x => if qltb (max_delta b) x then Some (x, m) else b | None => b end.
Definition restricted (r : option (list (name * name))) (u v : name) : bool :=
  match r with None => true | Some l => emem (u, v) l end.
(** hill_climbing.py:137-153 / tabu.py:104-122: one pair (u,v); [ok] is the tabu test *)
Definition try_add (mi : score) (nrow : nat) (ok : move -> bool) (r : option (list (name * name))) (g : gstate) (b : best) (uv : name * name) : res best :=
  let '(u, v) := uv in let m := (Addition, uv) in
  if negb (ok m) then Ok b else
  do cu <- getitem (g_c g) u ;;
  if mem v cu then Ok b else if name_eqb u v then Ok b else
  do cyc <- would_cause_cycle (g_c g) u v false ;;
  if cyc then Ok b else if negb (restricted r u v) then Ok b else
  do d <- gain mi nrow (g_p g) m ;; Ok (improve b d m).
(** hill_climbing.py:158-172 / tabu.py:128-143 *)
Definition try_del (mi : score) (nrow : nat) (ok : move -> bool) (g : gstate) (b : best) (uv : name * name) : res best :=
  let '(u, v) := uv in let m := (Deletion, uv) in
  if negb (ok m) then Ok b else
  do cu <- getitem (g_c g) u ;;
  if negb (mem v cu) then Ok b else
  do d <- gain mi nrow (g_p g) m ;; Ok (improve b d m).
(** hill_climbing.py:177-199 / tabu.py:149-172 *)
Definition try_rev (mi : score) (nrow : nat) (ok : move -> bool) (g : gstate) (b : best) (uv : name * name) : res best :=
  let '(u, v) := uv in let m := (Reversal, uv) in
  if negb (ok m) then Ok b else
  do cu <- getitem (g_c g) u ;;
  if negb (mem v cu) then Ok b else
  do cyc <- would_cause_cycle (g_c g) v u true ;;
  if cyc then Ok b else
  do d <- gain mi nrow (g_p g) m ;; Ok (improve b d m).
(** hill_climbing.py:134-199: all pairs of nodes, additions, deletions, reversals *)
Definition scan (mi : score) (nrow : nat) (ok : move -> bool) (r : option (list (name * name))) (nodes : list name) (g : gstate) : res best :=
  do b1 <- foldM (try_add mi nrow ok r g) (pairs_of nodes) None ;;
  do b2 <- foldM (try_del mi nrow ok g) (pairs_of nodes) b1 ;;
  foldM (try_rev mi nrow ok g) (pairs_of nodes) b2.

(** d[k].append(x), d[k].remove(x) *)
Definition dappend (d : edict) (k x : name) : res edict := do l <- getitem d k ;; Ok (dset d k (l ++ [x])).
Definition dremove (d : edict) (k x : name) : res edict := do l <- getitem d k ;; do l' <- list_remove l x ;; Ok (dset d k l').
Definition g_add (g : gstate) (u v : name) : res gstate :=
  do c <- dappend (g_c g) u v ;; do p <- dappend (g_p g) v u ;; Ok (mkG c p).
Definition g_del (g : gstate) (u v : name) : res gstate :=
  do c <- dremove (g_c g) u v ;; do p <- dremove (g_p g) v u ;; Ok (mkG c p).
Definition g_rev (g : gstate) (u v : name) : res gstate := do g1 <- g_del g u v ;; g_add g1 v u.
(** hill_climbing.py:205-222: the reversal is under [if debug:] *)
Definition apply_move (debug : bool) (g : gstate) (m : move) : res gstate :=
  let '(k, (u, v)) := m in
  match k with
  | Addition => g_add g u v
  | Deletion => g_del g u v
  | Reversal => if debug then g_rev g u v else Ok g
  end.
(** hill_climbing.py:124-232: at most max_iter + 1 passes ([_iter > max_iter] after the increment) *)
Fixpoint hc_loop (passes : nat) (mi : score) (nrow : nat) (debug : bool) (r : option (list (name * name))) (nodes : list name) (g : gstate)
  : res (list (gstate * move) * gstate) :=
  match passes with
  | 0 => Ok ([], g)
  | S k =>
      do b <- scan mi nrow (fun _ => true) r nodes g ;;
      match b with
      | None => Ok ([], g)
      | Some (_, m) =>
          do g' <- apply_move debug g m ;;
          do lg <- hc_loop k mi nrow debug r nodes g' ;;
          Ok ((g, m) :: fst lg, snd lg)
      end
  end.
(** info_scores.py:38-49, 116, 118-134, 143-145: only the calls that can raise; the number that
    info_score returns is never used.  [metric.upper()] *)
Definition upper (s : string) : string :=
  (fix go s := match s with
    | EmptyString => EmptyString
    | String a r => let n := nat_of_ascii a in
        String (if (97 <=? n) && (n <=? 122) then ascii_of_nat (n - 32) else a) (go r) end) s.
Definition info_score_calls (bn : bayesnet) (metric : string) : res unit :=
  do _ <- flat_cpt bn ;;
  if String.eqb (upper metric) "LL"%string then Ok tt else
  if String.eqb (upper metric) "AIC"%string then Ok tt else
  do _ <- bn_num_params bn ;; do _ <- bn_num_edges bn ;; Ok tt.
(** hill_climbing.py:103-117, tabu.py:71-85, random_restarts.py:70-84: the columns are read, an
    edgeless network is fitted and scored *)
Definition fit_edgeless (o : oracle) (t : table) (metric : string) : res bayesnet :=
  do _ <- mapM (column t) (seq 0 (t_ncols t)) ;;
  do bn <- set_structure (edgeless (t_ncols t)) None ;;
  do bn' <- mle_estimator o bn t None ;;
  do _ <- info_score_calls bn' metric ;;
  Ok bn'.
Definition start (t : table) : gstate := mkG (edgeless (t_ncols t)) (edgeless (t_ncols t)).
(** hill_climbing.py:42-237 *)
Definition hc_run (o : oracle) (t : table) (mi : score) (metric : string) (max_iter : nat) (debug : bool) (r : option (list (name * name)))
  : res (list (gstate * move) * gstate) :=
  do bn <- fit_edgeless o t metric ;;
  hc_loop (S max_iter) mi (length (t_rows t)) debug r (bn_nodes bn) (start t).
Definition hc (o : oracle) (t : table) (mi : score) (metric : string) (max_iter : nat) (debug : bool) (r : option (list (name * name))) : res bayesnet :=
  do lg <- hc_run o t mi metric max_iter debug r ;; set_structure (g_c (snd lg)) None.

(** ** tabu.py *)
Definition op_eqb (a b : op) : bool :=
  match a, b with Addition, Addition => true | Deletion, Deletion => true | Reversal, Reversal => true | _, _ => false end.
Definition move_eqb (a b : move) : bool := op_eqb (fst a) (fst b) && edge_eqb (snd a) (snd b).
Definition in_tabu (tl : list (option move)) (m : move) : bool :=
  existsb (fun x => match x with Some y => move_eqb y m | None => false end) tl.
(** tabu.py:104, 128, 149: an addition is tested against deletions, a deletion against additions,
    a reversal against reversals of the same arc *)
Definition tabu_ok (tl : list (option move)) (m : move) : bool :=
  match m with
  | (Addition, a) => negb (in_tabu tl (Deletion, a))
  | (Deletion, a) => negb (in_tabu tl (Addition, a))
  | (Reversal, a) => negb (in_tabu tl (Reversal, a))
  end.
(** tabu_list[_iter % 5] = move *)
Definition tabu_set (tl : list (option move)) (i : nat) (m : move) : res (list (option move)) :=
  if i mod 5 <? length tl then Ok (upd_nth (i mod 5) (Some m) tl) else Raise IndexError.
(** tabu.py:176-198: the reversal and its tabu entry are under [if debug:] *)
Definition tabu_apply (debug : bool) (g : gstate) (tl : list (option move)) (i : nat) (m : move) : res (gstate * list (option move)) :=
  do g' <- apply_move debug g m ;;
  match m with
  | (Reversal, _) => if debug then do tl' <- tabu_set tl i m ;; Ok (g', tl') else Ok (g', tl)
  | _ => do tl' <- tabu_set tl i m ;; Ok (g', tl')
  end.
(** tabu.py:90-208; [i] is _iter *)
Fixpoint tabu_loop (passes i : nat) (mi : score) (nrow : nat) (debug : bool) (r : option (list (name * name))) (nodes : list name)
    (g : gstate) (tl : list (option move)) : res (list (gstate * move) * gstate) :=
  match passes with
  | 0 => Ok ([], g)
  | S k =>
      do b <- scan mi nrow (tabu_ok tl) r nodes g ;;
      match b with
      | None => Ok ([], g)
      | Some (_, m) =>
          do gt <- tabu_apply debug g tl i m ;;
          do lg <- tabu_loop k (S i) mi nrow debug r nodes (fst gt) (snd gt) ;;
          Ok ((g, m) :: fst lg, snd lg)
      end
  end.
(** tabu.py (def tabu, to line 213); [k] is the length of the tabu list *)
Definition tabu_run (o : oracle) (t : table) (mi : score) (metric : string) (k max_iter : nat) (debug : bool) (r : option (list (name * name)))
  : res (list (gstate * move) * gstate) :=
  do bn <- fit_edgeless o t metric ;;
  tabu_loop (S max_iter) 0 mi (length (t_rows t)) debug r (bn_nodes bn) (start t) (repeat None k).
Definition tabu (o : oracle) (t : table) (mi : score) (metric : string) (k max_iter : nat) (debug : bool) (r : option (list (name * name))) : res bayesnet :=
  do lg <- tabu_run o t mi metric k max_iter debug r ;; set_structure (g_c (snd lg)) None.

(** ** random_restarts.py *)
(** The random choices: an infinite stream of draws; a draw supplies both an operation and an
    ordered pair of distinct nodes (random_restarts.py:199; 202, 212, 222).  A loop that finds no admissible
    pair never ends: [fuel] bounds the number of draws, OutOfFuel is non-termination.  [draw] is in SpecScore.v.
    random_restarts.py:204, 214, 224: is the drawn pair accepted? *)
Definition admissible (g : gstate) (k : op) (u v : name) : res bool :=
  do pv <- getitem (g_p g) v ;;
  match k with
  | Addition => if mem u pv then Ok false else if name_eqb u v then Ok false else
                do cyc <- would_cause_cycle (g_c g) u v false ;; Ok (negb cyc)
  | Deletion => Ok (mem u pv)
  | Reversal => if mem u pv then do cyc <- would_cause_cycle (g_c g) v u true ;; Ok (negb cyc) else Ok false
  end.
(** random_restarts.py:200-231: [while True] until an admissible pair is drawn *)
(** np.random.choice(.., size=2, replace=False) raises ValueError for fewer than two nodes *)
Fixpoint rr_move (fuel : nat) (nodes : list name) (s : nat -> draw) (n : nat) (k : op) (g : gstate) : res (gstate * nat) :=
  match fuel with
  | 0 => Raise OutOfFuel
  | S f =>
      if length nodes <? 2 then Raise ValueError else
      let d := s n in
      do ok <- admissible g k (d_u d) (d_v d) ;;
      if ok then
        do g' <- (match k with Addition => g_add g (d_u d) (d_v d) | Deletion => g_del g (d_u d) (d_v d) | Reversal => g_rev g (d_u d) (d_v d) end) ;;
        Ok (g', S n)
      else rr_move f nodes s (S n) k g
  end.
(** random_restarts.py:197-231: M random moves *)
Fixpoint rr_moves (fuel : nat) (nodes : list name) (s : nat -> draw) (n : nat) (M : nat) (g : gstate) : res (gstate * nat) :=
  match M with
  | 0 => Ok (g, n)
  | S m => do gn <- rr_move fuel nodes s (S n) (d_op (s n)) g ;; rr_moves fuel nodes s (snd gn) m (fst gn)
  end.
(** random_restarts.py:87-238.  [iter] is _iter; a restart sets it to 0 before it is incremented.  [passes] bounds the passes made in total. *)
Fixpoint rr_loop (passes : nat) (fuel : nat) (s : nat -> draw) (n : nat) (mi : score) (nrow max_iter R M : nat) (debug : bool)
    (r : option (list (name * name))) (nodes : list name) (iter restarts : nat) (g : gstate) : res gstate :=
  match passes with
  | 0 => Raise OutOfFuel
  | S k =>
      do b <- scan mi nrow (fun _ => true) r nodes g ;;
      match b with
      | Some (_, m) =>
          do g' <- apply_move debug g m ;;
          if max_iter <? S iter then Ok g' else rr_loop k fuel s n mi nrow max_iter R M debug r nodes (S iter) restarts g'
      | None =>
          if restarts <? R then
            do gn <- rr_moves fuel nodes s n M g ;;
            if max_iter <? 1 then Ok (fst gn)
            else rr_loop k fuel s (snd gn) mi nrow max_iter R M debug r nodes 1 (S restarts) (fst gn)
          else Ok g
      end
  end.
(** random_restarts.py:38-243 *)
Definition hc_rr (o : oracle) (t : table) (mi : score) (metric : string) (fuel : nat) (s : nat -> draw) (max_iter R M : nat) (debug : bool)
    (r : option (list (name * name))) : res bayesnet :=
  do bn <- fit_edgeless o t metric ;;
  do g <- rr_loop (S R * S max_iter) fuel s 0 mi (length (t_rows t)) max_iter R M debug r (bn_nodes bn) 0 0
            (start t) ;;
  set_structure (g_c g) None.
