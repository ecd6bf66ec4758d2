(** Graph.v -- model of pyBN/utils/graph.py and of the graph methods of
    pyBN/classes/bayesnet.py, utils/markov_blanket.py (markov_blanket),
    utils/class_equivalence.py and utils/structure_distance.py.

    An edge dict is an association list; Python 2 iterates a dict in an arbitrary but
    fixed order, so the theorems, which quantify over every association list, cover
    every iteration order of [edge_dict.keys()]. *)
From Verif Require Import Py Num BayesNet.
Open Scope nat_scope.

Definition edict := dict (list name).

(** graph.py:43  [rv in edge_dict[p]] *)
Definition edge_in (E : edict) (p rv : name) : bool :=
  match dget E p with Some c => mem rv c | None => false end.

(** graph.py:40-46: the parentless keys, in iteration order *)
Definition topsort_roots (E : edict) : list name :=
  filter (fun rv => negb (existsb (fun p => edge_in E p rv) (dkeys E))) (dkeys E).

(** graph.py:49-56: [while queue] with [queue.pop(0)]; [edge_dict[vertex]] raises KeyError
    for a vertex that is not a key *)
Fixpoint topsort_loop (fuel : nat) (E : edict) (queue visited : list name) : res (list name) :=
  match queue with
  | [] => Ok visited
  | v :: rest =>
      match fuel with
      | O => Raise OutOfFuel
      | S k => if mem v visited then topsort_loop k E rest visited
               else do c <- getitem E v ;; topsort_loop k E (rest ++ c) (visited ++ [v])
      end
  end.
(** more steps than the loop can make: every vertex is expanded once *)
Definition topsort_fuel (E : edict) (queue : list name) : nat :=
  length queue + nsum (map (fun kc => length (snd kc)) E).

(** graph.py:31-56  topsort *)
Definition topsort_from (E : edict) (queue : list name) : res (list name) :=
  topsort_loop (topsort_fuel E queue) E queue [].
Definition topsort (E : edict) (root : option name) : res (list name) :=
  topsort_from E (match root with Some r => [r] | None => topsort_roots E end).

(** graph.py:58-59  dfs_postorder *)
Definition dfs_postorder (E : edict) (root : option name) : res (list name) :=
  do l <- topsort E root ;; Ok (rev l).

(** ** would_cause_cycle *)
(** networkx [find_cycle(G, source=u)] is not modelled line by line; its documented answer
    is "a directed cycle that is reachable from u".  [nx_reach] is breadth-first search. *)
Definition succs (E : edict) (v : name) : list name := match dget E v with Some c => c | None => [] end.
Fixpoint nx_bfs (fuel : nat) (E : edict) (queue visited : list name) : list name :=
  match fuel, queue with
  | S k, v :: rest => if mem v visited then nx_bfs k E rest visited
                      else nx_bfs k E (rest ++ succs E v) (visited ++ [v])
  | _, _ => visited
  end.
Definition nx_reach (E : edict) (u : name) : list name := nx_bfs (topsort_fuel E [u]) E [u] [].
Definition nx_find_cycle (E : edict) (u : name) : bool :=
  existsb (fun w => existsb (fun x => mem w (nx_reach E x)) (succs E w)) (nx_reach E u).
(** DiGraph.add_edge / remove_edge on a dict of successor lists; a DiGraph has no parallel
    edges, remove_edge raises for a missing edge (nx_remove_edge is applied to a graph built
    by [nx.DiGraph(e)], so it drops every repetition in the list) *)
Definition nx_add_edge (E : edict) (u v : name) : edict := dset E u (succs E u ++ [v]).
Definition nx_remove_edge (E : edict) (u v : name) : res edict :=
  if mem v (succs E u) then Ok (dset E u (filter (fun w => negb (name_eqb w v)) (succs E u)))
  else Raise NetworkXError.
(** graph.py:14-27  would_cause_cycle *)
Definition would_cause_cycle (E : edict) (u v : name) (reverse : bool) : res bool :=
  do G <- (if reverse then nx_remove_edge E v u else Ok E) ;;
  Ok (nx_find_cycle (nx_add_edge G u v) u).

(** ** BayesNet graph methods *)
(** bayesnet.py:307-351  set_structure (as BayesNet(E, value_dict), bayesnet.py:80-82).
    The edge dict object becomes bn.E without being copied: see BayesNetHeap.v. *)
Definition set_structure (E : edict) (value_dict : option (dict (list name))) : res bayesnet :=
  do V <- topsort E None ;;
  do F <- foldM (fun F rv =>
            do flags <- mapM (fun p => do c <- getitem E p ;; Ok (p, mem rv c)) V ;;
            let ps := map fst (filter snd flags) in
            do vs <- (match value_dict with Some vd => getitem vd rv | None => Ok [] end) ;;
            Ok (dset F rv (mkF ps vs [])))
          V [] ;;
  Ok (mkBN V E F).

(** bayesnet.py:353-363  adj_list.  Raises KeyError if a child is not a node. *)
Definition adj_list (bn : bayesnet) : res (list (list nat)) :=
  do es <- bn_edges bn ;;
  foldM (fun adj uv =>
    do i <- match index_of (fst uv) (bn_V bn) with Some i => Ok i | None => Raise KeyError end ;;
    do j <- match index_of (snd uv) (bn_V bn) with Some j => Ok j | None => Raise KeyError end ;;
    do row <- nget adj i ;;
    Ok (upd_nth i (row ++ [j]) adj)) es (map (fun _ => []) (bn_V bn)).

Definition edge_eqb (a b : name * name) : bool := name_eqb (fst a) (fst b) && name_eqb (snd a) (snd b).
Definition emem (x : name * name) (l : list (name * name)) : bool := existsb (edge_eqb x) l.
(** set.add *)
Definition eadd (x : name * name) (l : list (name * name)) : list (name * name) :=
  if emem x l then l else l ++ [x].

(** bayesnet.py:365-386  moralized_edges; [list(e)] of a set, returned in some order.  We
    return the set's elements in insertion order; nothing is claimed about the order. *)
Definition moralized_edges (bn : bayesnet) : res (list (name * name)) :=
  foldM (fun e u =>
    do ps <- bn_parents bn u ;;
    Ok (fold_left (fun e p1 =>
          fold_left (fun e p2 => if negb (name_eqb p1 p2) && negb (emem (p2, p1) e) then eadd (p1, p2) e else e)
                    ps (eadd (p1, u) e)) ps e))
    (bn_V bn) [].

(** markov_blanket.py:23-49  markov_blanket.  Line 42 builds a new list [parents + children]
    per node, so appending to it does not touch the network. *)
Definition markov_blanket (bn : bayesnet) : res (dict (list name)) :=
  do mb0 <- mapM (fun rv => do p <- bn_parents bn rv ;; do c <- bn_children bn rv ;; Ok (rv, p ++ c)) (bn_V bn) ;;
  foldM (fun mb rv =>
    do cs <- bn_children bn rv ;;
    foldM (fun mb child =>
      do ps <- bn_parents bn child ;;
      foldM (fun mb cp => if name_eqb cp rv then Ok mb else
                          do l <- getitem mb rv ;; Ok (dset mb rv (l ++ [cp]))) ps mb) cs mb)
    (bn_V bn) (dict_of mb0).

(** class_equivalence.py:16-32  are_class_equivalent = BayesNet.__eq__ (bayesnet.py:88-95).
    [set(..) + set(..)] raises TypeError after both sets have been built. *)
Definition same_set (a b : list name) : bool :=
  forallb (fun x => mem x b) a && forallb (fun x => mem x a) b.
Definition are_class_equivalent (x y : bayesnet) : res bool :=
  if negb (same_set (bn_V x) (bn_V y)) then Ok false else
  match bn_V x with
  | [] => Ok true
  | rv :: _ => do _ <- bn_parents x rv ;; do _ <- bn_children y rv ;; Raise TypeError
  end.

(** structure_distance.py:52-65  missing_edges *)
Definition missing_edges (x y : bayesnet) : res nat :=
  foldM (fun missing rv =>
    if negb (bn_has_node y rv) then do d <- bn_degree x rv ;; Ok (missing + d) else
    do cx <- bn_children x rv ;;
    foldM (fun m child => do cy <- bn_children y rv ;; Ok (if mem child cy then m else S m)) cx missing)
    (bn_V x) 0.
(** structure_distance.py:67-80  extra_edges *)
Definition extra_edges (x y : bayesnet) : res nat :=
  foldM (fun extra rv =>
    if negb (bn_has_node x rv) then do d <- bn_degree y rv ;; Ok (extra + d) else
    do cy <- bn_children y rv ;;
    foldM (fun m child => do cx <- bn_children x rv ;; Ok (if mem child cx then m else S m)) cy extra)
    (bn_V y) 0.
(** structure_distance.py:82-93  incorrect_direction_edges ([rv in y.parents(rv)], as written) *)
Definition incorrect_direction_edges (x y : bayesnet) : res nat :=
  foldM (fun inc rv =>
    if bn_has_node x rv then
      do cx <- bn_children x rv ;;
      foldM (fun m child => do py <- bn_parents y rv ;; Ok (if mem rv py then S m else m)) cx inc
    else Ok inc) (bn_V x) 0.
(** structure_distance.py:95-96  hamming *)
Definition hamming (x y : bayesnet) : res nat :=
  do a <- missing_edges x y ;; do b <- extra_edges x y ;; do c <- incorrect_direction_edges x y ;; Ok (a + b + c).

(** ** CPT indexing *)
Fixpoint zrange (fuel : nat) (a b : Z) : list Z :=
  match fuel with O => [] | S k => if (a <? b)%Z then a :: zrange k (a + 1) b else [] end.
(** bayesnet.py:281-283: the while loop collecting the rows of one rv=val *)
Fixpoint rv_rows (fuel : nat) (s_idx stride step len : Z) : res (list Z) :=
  if (s_idx <? len)%Z then
    match fuel with
    | O => Raise OutOfFuel
    | S k => do r <- rv_rows k (s_idx + step) stride step len ;;
             Ok (zrange (Z.to_nat stride) s_idx (s_idx + stride) ++ r)
    end
  else Ok [].
(** bayesnet.py:250-286  cpt_indices; [val_dict] in iteration order.  The set is represented
    by the increasing list of its elements. *)
Definition cpt_indices (bn : bayesnet) (target : name) (val_dict : dict name) : res (list nat) :=
  do scope <- bn_scope bn target ;;
  do stride <- mapM (fun n => do s <- bn_stride bn target n ;; Ok (n, s)) scope ;;
  do card <- mapM (fun n => do s <- bn_card bn n ;; Ok (n, s)) scope ;;
  do cpt <- bn_cpt bn target ;;
  foldM (fun idx kv =>
    do vi <- bn_value_idx bn (fst kv) (snd kv) ;;
    do s <- getitem (dict_of stride) (fst kv) ;;
    do rows <- (if (vi * Z.of_nat s <? Z.of_nat (length cpt))%Z then
                  do c <- getitem (dict_of card) (fst kv) ;;
                  rv_rows (length cpt + 2) (vi * Z.of_nat s) (Z.of_nat s) (Z.of_nat s * Z.of_nat c) (Z.of_nat (length cpt))
                else Ok []) ;;
    Ok (filter (fun i => existsb (Z.eqb (Z.of_nat i)) rows) idx))
    val_dict (seq 0 (length cpt)).

(** bayesnet.py:237-248  flat_cpt.  bayesnet.py has no [from __future__ import division], so
    [len(cpt)/card] on line 245 is integer division. *)
Definition flat_cpt (bn : bayesnet) : res (list Qc) :=
  do ls <- mapM (bn_cpt bn) (bn_V bn) ;; Ok (concat ls).
Definition flat_cpt_by_var (bn : bayesnet) : res (list Qc) :=
  mapM (fun rv => do c <- bn_cpt bn rv ;; Ok (qsum c)) (bn_V bn).
Definition flat_cpt_by_parents (bn : bayesnet) : res (list Qc) :=
  do ls <- mapM (fun rv => do c <- bn_cpt bn rv ;; do k <- bn_card bn rv ;;
             if k =? 0 then Raise ZeroDivisionError else
             Ok (map (fun i => qsum (firstn k (skipn i c))) (seq 0 (length c / k)))) (bn_V bn) ;;
  Ok (concat ls).

(** ** mst *)
(** graph.py:110  [e.sort(key=lambda x: x[1])]: stable sort by weight *)
Fixpoint winsert (x : name * Qc) (l : list (name * Qc)) : list (name * Qc) :=
  match l with [] => [x] | y :: r => if qleb (snd x) (snd y) then x :: y :: r else y :: winsert x r end.
Definition wsort (l : list (name * Qc)) : list (name * Qc) := fold_right winsert [] l.

(** graph.py:111-116: first unreached sink cheaper than the best so far ([None] = np.inf) *)
Definition better (w : Qc) (best : option (Qc * name * name)) : bool :=
  match best with None => true | Some (c, _, _) => qltb w c end.
Fixpoint mst_scan (unreached : list name) (rn : name) (e : list (name * Qc))
         (best : option (Qc * name * name)) : option (Qc * name * name) :=
  match e with
  | [] => best
  | (sn, w) :: r => if mem sn unreached && better w best then Some (w, rn, sn)
                    else mst_scan unreached rn r best
  end.
(** graph.py:105-128: one pass per k; [break] when nothing was found *)
Fixpoint mst_loop (k : nat) (W : dict (dict Qc)) (reached unreached : list name) (G : edict) : res edict :=
  match k with
  | O => Ok G
  | S k' =>
      do best <- foldM (fun best rn => do e <- getitem W rn ;; Ok (mst_scan unreached rn (wsort e) best)) reached None ;;
      match best with
      | None => Ok G
      | Some (_, src, snk) =>
          do c <- getitem G src ;;
          mst_loop k' W (reached ++ [snk]) (remove1 snk unreached) (dset G src (c ++ [snk]))
      end
  end.
(** graph.py:61-130  mst *)
Definition mst (W : dict (dict Qc)) : res edict :=
  let n := length W in
  mst_loop n W [NInt 0] (map NInt (seq 1 (n - 1))) (map (fun i => (NInt i, [])) (seq 0 n)).

(** ** make_chordal *)
(** edges are tuples (from moralized_edges) or lists (fill-ins); [[a,b] in l] only matches
    lists, so an edge carries a flag: true for a list *)
Definition cedge := (bool * (name * name))%type.
Definition lmem (x : name * name) (l : list cedge) : bool := existsb (fun e => fst e && edge_eqb x (snd e)) l.
Definition touches (v : name) (e : cedge) : bool := name_eqb v (fst (snd e)) || name_eqb v (snd (snd e)).
(** graph.py:190  the neighbours of v in temp_E *)
Definition adj_v (v : name) (tE : list cedge) : list name :=
  dedup (flat_map (fun e => filter (fun n => touches v e && negb (name_eqb n v)) [fst (snd e); snd (snd e)]) tE).
(** graph.py:191-196: connect the neighbours pairwise *)
Definition fill_pair (st : list cedge * list cedge) (ab : name * name) : list cedge * list cedge :=
  let '(cE, tE) := st in
  if negb (name_eqb (fst ab) (snd ab)) && negb (lmem ab cE) && negb (lmem (snd ab, fst ab) cE)
  then (cE ++ [(true, ab)], tE ++ [(true, ab)]) else st.
Definition pairs_of (l : list name) : list (name * name) := flat_map (fun a => map (fun b => (a, b)) l) l.
(** graph.py:187-202: eliminate the vertices in order *)
Fixpoint eliminate (o : oracle) (vs : list name) (cE tE : list cedge) : list cedge :=
  match vs with
  | [] => cE
  | v :: r =>
      let '(cE', tE') := fold_left fill_pair (pairs_of (ask (sub o (length vs)) (adj_v v tE))) (cE, tE) in
      eliminate o r cE' (filter (fun e => negb (touches v e)) tE')
  end.
(** nodes and degrees of nx.Graph(edges) *)
Definition evertices (es : list (name * name)) : list name := dedup (flat_map (fun e => [fst e; snd e]) es).
Definition eadjb (es : list (name * name)) (a b : name) : bool := emem (a, b) es || emem (b, a) es.
Definition edegree (es : list (name * name)) (v : name) : nat :=
  length (filter (eadjb es v) (evertices es)).
(** graph.py:132-207  make_chordal; [nx_chordal] stands for networkx's is_chordal (graph.py:210-235);
    the result is the edge list given to nx.Graph *)
Definition make_chordal (nx_chordal : list (name * name) -> bool) (o : oracle) (bn : bayesnet)
           (ve : option (list name * list (name * name))) : res (list (name * name)) :=
  do m <- moralized_edges bn ;;
  if nx_chordal m then Ok m else
  let '(vs, es) := match ve with
                   | Some (v, e) => if (length v =? 0) || (length e =? 0)
                                    then (sorted_by (edegree m) (ask (sub o 0) (evertices m)), m) else (v, e)
                   | None => (sorted_by (edegree m) (ask (sub o 0) (evertices m)), m)
                   end in
  Ok (map snd (eliminate (sub o 1) vs (map (fun e => (false, e)) es) (map (fun e => (false, e)) es))).
