(** SpecScore.v -- what greedy structure search talks about, independent of the code. *)
From Verif Require Import Py Num BayesNet SpecGraph.
Open Scope nat_scope.

(** single-edge moves *)
Inductive op := Addition | Deletion | Reversal.
Definition move := (op * (name * name))%type.
(** the edges after a move *)
Definition after (R : name -> name -> Prop) (m : move) : name -> name -> Prop :=
  let '(k, (u, v)) := m in
  match k with
  | Addition => fun x y => R x y \/ (x = u /\ y = v)
  | Deletion => fun x y => R x y /\ ~ (x = u /\ y = v)
  | Reversal => fun x y => (R x y /\ ~ (x = u /\ y = v)) \/ (x = v /\ y = u)
  end.
Definition no_cycle (R : name -> name -> Prop) : Prop := forall v, ~ clos_trans _ R v v.
(** [None]: every edge may be added *)
Definition allowed (restriction : option (list (name * name))) (u v : name) : Prop :=
  match restriction with None => True | Some l => In (u, v) l end.
(** the moves a search may consider *)
Definition legal (nodes : list name) (restriction : option (list (name * name))) (R : name -> name -> Prop) (m : move) : Prop :=
  let '(k, (u, v)) := m in
  In u nodes /\ In v nodes /\
  match k with
  | Addition => u <> v /\ ~ R u v /\ allowed restriction u v /\ no_cycle (after R m)
  | Deletion => R u v
  | Reversal => R u v /\ no_cycle (after R m)
  end.
(** [m'] takes back the move [m] *)
Definition undoes (m m' : move) : Prop :=
  match m, m' with
  | (Addition, (u, v)), (Deletion, (x, y)) => x = u /\ y = v
  | (Deletion, (u, v)), (Addition, (x, y)) => x = u /\ y = v
  | (Reversal, (u, v)), (Reversal, (x, y)) => x = v /\ y = u
  | _, _ => False
  end.
(** the children and parents dictionaries a search maintains *)
Record gstate := mkG { g_c : dict (list name); g_p : dict (list name) }.
(** the children dict and the parents dict of a search: keys, no repetitions, same edges, no cycle *)
Record search_graph (nodes : list name) (g : gstate) : Prop := {
  sg_nodes : NoDup nodes;
  sg_c : dkeys (g_c g) = nodes; sg_p : dkeys (g_p g) = nodes;
  sg_cl : forall u l, dget (g_c g) u = Some l -> NoDup l /\ incl l nodes;
  sg_pl : forall u l, dget (g_p g) u = Some l -> NoDup l /\ incl l nodes;
  sg_agree : forall u v, edge (g_c g) u v <-> edge (g_p g) v u;
  sg_acyclic : acyclic (g_c g) }.

(** A search of at most [n] steps from [g]: each step makes a move that is [chosen]; it ends when
    the number of steps is used up or the search is [finished].  The log lists the moves with the
    graphs they were chosen in. *)
Inductive climb (chosen : gstate -> move -> Prop) (next : gstate -> move -> gstate -> Prop) (finished : gstate -> Prop)
  : nat -> gstate -> list (gstate * move) -> gstate -> Prop :=
| climb_limit g : climb chosen next finished 0 g [] g
| climb_finished n g : finished g -> climb chosen next finished n g [] g
| climb_step n g m g1 log g2 : chosen g m -> next g m g1 -> climb chosen next finished n g1 log g2 ->
    climb chosen next finished (S n) g ((g, m) :: log) g2.

(** The score difference of a move, [nrow * (mi(old columns) - mi(new columns))], where [mi cols]
    is the mutual information of the data columns [cols] ([None]: nan).  A family is a node
    followed by its parents.  The reversal adds two differences, with the columns the code uses
    (see finding F-rev in DESIGN.md: they are not the families of u and v). *)
Inductive gains (mi : list name -> res (option Qc)) (nrow : nat) (parents : dict (list name)) : move -> Qc -> Prop :=
| gains_add u v pv x y : dget parents v = Some pv ->
    mi (v :: pv) = Ok (Some x) -> mi ((v :: pv) ++ [u]) = Ok (Some y) ->
    gains mi nrow parents (Addition, (u, v)) (nQc nrow * (x - y))%Qc
| gains_del u v pv x y : dget parents v = Some pv ->
    mi (v :: pv) = Ok (Some x) -> mi (filter (fun i => negb (name_eqb i u)) (v :: pv)) = Ok (Some y) ->
    gains mi nrow parents (Deletion, (u, v)) (nQc nrow * (x - y))%Qc
| gains_rev u v pv x y x' y' : dget parents v = Some pv ->
    mi (u :: pv) = Ok (Some x) -> mi ((u :: pv) ++ [v]) = Ok (Some y) ->
    mi (v :: pv) = Ok (Some x') -> mi (map (fun _ => u) (filter (fun i => negb (name_eqb i u)) (v :: pv))) = Ok (Some y') ->
    gains mi nrow parents (Reversal, (u, v)) (nQc nrow * (x - y) + nQc nrow * (x' - y'))%Qc.
(** among the moves [can], [m] has the largest score difference, and it is positive *)
Definition best_of (can : move -> Prop) (value : move -> Qc -> Prop) (m : move) : Prop :=
  can m /\ exists d, value m d /\ (0 < d)%Qc /\ forall m' d', can m' -> value m' d' -> (d' <= d)%Qc.
(** no move of [can] has a positive score difference *)
Definition none_better (can : move -> Prop) (value : move -> Qc -> Prop) : Prop :=
  forall m d, can m -> value m d -> (d <= 0)%Qc.
(** [g'] is the graph [g] after the move [m] *)
Definition made (nodes : list name) (g : gstate) (m : move) (g' : gstate) : Prop :=
  search_graph nodes g' /\ forall x y, edge (g_c g') x y <-> after (edge (g_c g)) m x y.
(** what a step of the searches does: with [debug] off a chosen reversal is not carried out *)
Definition stepped (nodes : list name) (debug : bool) (g : gstate) (m : move) (g' : gstate) : Prop :=
  if negb debug then match fst m with Reversal => g' = g | _ => made nodes g m g' end else made nodes g m g'.

(** ** tabu search *)
(** the move was carried out (with [debug] off a reversal is not) *)
Definition carried (debug : bool) (m : move) : bool := match fst m with Reversal => debug | _ => true end.
(** [m0] on the tabu list forbids [m]: an addition forbids the deletion of that edge, a deletion its
    addition, and the reversal of u -> v forbids another reversal of u -> v (not its undoing, the
    reversal of v -> u) *)
Definition forbids (m0 m : move) : Prop :=
  match m0, m with
  | (Addition, a), (Deletion, b) => a = b
  | (Deletion, a), (Addition, b) => a = b
  | (Reversal, a), (Reversal, b) => a = b
  | _, _ => False
  end.
(** [m] may be chosen when the moves carried out so far, latest first, are [past] and the last [w] of them are remembered *)
Definition free (w : nat) (past : list move) (m : move) : Prop := forall m0, In m0 (firstn w past) -> ~ forbids m0 m.
(** like [climb], with the moves carried out so far, latest first *)
Inductive tabu_climb (debug : bool) (chosen : list move -> gstate -> move -> Prop) (next : gstate -> move -> gstate -> Prop) (finished : list move -> gstate -> Prop)
  : nat -> list move -> gstate -> list (gstate * move) -> gstate -> Prop :=
| tabu_limit past g : tabu_climb debug chosen next finished 0 past g [] g
| tabu_finished n past g : finished past g -> tabu_climb debug chosen next finished n past g [] g
| tabu_step n past g m g1 log g2 : chosen past g m -> next g m g1 ->
    tabu_climb debug chosen next finished n (if carried debug m then m :: past else past) g1 log g2 ->
    tabu_climb debug chosen next finished (S n) past g ((g, m) :: log) g2.

(** ** random restarts *)
(** What the random generator supplies: an infinite stream of draws; a draw supplies both an operation and an
    ordered pair of distinct nodes (only one of the two is used). *)
Record draw := mkDraw { d_op : op; d_u : name; d_v : name }.
Definition valid_draws (nodes : list name) (s : nat -> draw) : Prop :=
  2 <= length nodes -> forall i, In (d_u (s i)) nodes /\ In (d_v (s i)) nodes /\ d_u (s i) <> d_v (s i).
(** [fuel] draws from number [n] on, none of which gives an admissible pair for [k] *)
Definition waiting (nodes : list name) (fuel : nat) (s : nat -> draw) : Prop :=
  exists g n k, search_graph nodes g /\ forall i, i < fuel -> ~ legal nodes None (edge (g_c g)) (k, (d_u (s (n + i)), d_v (s (n + i)))).
(** [M] random moves from [g], starting with draw number [n]: each draws an operation, then pairs until one is legal for
    that operation (no restriction list), and makes that move.  [n'] is the number of the next unused draw. *)
Inductive random_walk (nodes : list name) (s : nat -> draw) : nat -> nat -> gstate -> nat -> gstate -> Prop :=
| walk_end n g : random_walk nodes s 0 n g n g
| walk_move M n g j g1 n' g' : n < j ->
    (forall i, n < i -> i < j -> ~ legal nodes None (edge (g_c g)) (d_op (s n), (d_u (s i), d_v (s i)))) ->
    legal nodes None (edge (g_c g)) (d_op (s n), (d_u (s j), d_v (s j))) ->
    made nodes g (d_op (s n), (d_u (s j), d_v (s j))) g1 ->
    random_walk nodes s M (S j) g1 n' g' -> random_walk nodes s (S M) n g n' g'.
(** Climbs of at most [b] steps, then at most [max_iter] steps each, with [M] random moves between them: a climb that
    uses up its steps is the last one; one that is finished before that is followed by [M] random moves and another climb,
    as long as there are restarts left ([R]). *)
Inductive restarts (chosen : gstate -> move -> Prop) (next : gstate -> move -> gstate -> Prop) (finished : gstate -> Prop)
    (nodes : list name) (s : nat -> draw) (max_iter M : nat) : nat -> nat -> nat -> gstate -> gstate -> Prop :=
| steps_used R b n g log g' : climb chosen next finished b g log g' -> length log = b -> restarts chosen next finished nodes s max_iter M R b n g g'
| last_climb b n g log g' : climb chosen next finished b g log g' -> length log < b -> finished g' -> restarts chosen next finished nodes s max_iter M 0 b n g g'
| restart R b n g log g1 n2 g2 g' : climb chosen next finished b g log g1 -> length log < b -> finished g1 ->
    random_walk nodes s M n g1 n2 g2 -> restarts chosen next finished nodes s max_iter M R max_iter n2 g2 g' ->
    restarts chosen next finished nodes s max_iter M (S R) b n g g'.
