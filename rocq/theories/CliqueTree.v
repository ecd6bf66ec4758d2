(** CliqueTree.v -- model of pyBN/classes/cliquetree.py on a heap of Factor objects.

    [copy(f)] is a shallow copy: the new Factor shares the scope list, the card dict and the
    stride dict of the old one, and [sumout_var] edits these three in place.  So a Factor object
    holds addresses of its scope, card and stride; tables are never edited in place by the
    operations used here and are held by value. *)
From Verif Require Import Py Num BayesNet Factor Factorization Graph.
Open Scope nat_scope.

Record fobj := mkO { o_bn : bayesnet; o_var : name; o_scope : nat; o_card : nat; o_stride : nat; o_cpt : list Qc }.
Record fheap := mkH { h_obj : list fobj; h_scope : list (list name); h_card : list (dict nat); h_stride : list (dict nat) }.
Definition no_heap : fheap := mkH [] [] [] [].

(** an address that was never allocated: cannot happen *)
Definition cell {A} (l : list A) (i : nat) : res A :=
  match nth_error l i with Some x => Ok x | None => Raise RuntimeErr end.

(** the attributes of a Factor object (factor.py:39-56) *)
Definition fload (h : fheap) (a : nat) : res factor :=
  do ob <- cell (h_obj h) a ;;
  do sc <- cell (h_scope h) (o_scope ob) ;;
  do cd <- cell (h_card h) (o_card ob) ;;
  do st <- cell (h_stride h) (o_stride ob) ;;
  Ok (mkFactor (o_bn ob) (o_var ob) sc cd st (o_cpt ob)).

(** factor.py:138-148  a new Factor: every part is a new object *)
Definition falloc (h : fheap) (f : factor) : fheap * nat :=
  (mkH (h_obj h ++ [mkO (f_bn f) (f_var f) (length (h_scope h)) (length (h_card h)) (length (h_stride h)) (f_cpt f)])
       (h_scope h ++ [f_scope f]) (h_card h ++ [f_card f]) (h_stride h ++ [f_stride f]), length (h_obj h)).

(** copy.copy(f): a new object with the same attribute values, i.e. the same addresses *)
Definition fcopy (h : fheap) (a : nat) : res (fheap * nat) :=
  do ob <- cell (h_obj h) a ;;
  Ok (mkH (h_obj h ++ [ob]) (h_scope h) (h_card h) (h_stride h), length (h_obj h)).

(** factor.py:275-318  [s *= t]: phi1.card is updated in place (288) and becomes self.card (313); scope and
    stride are new objects (312, 314); [s] and [t] may be the same object *)
Definition fmul (o : oracle) (h : fheap) (s t : nat) : res fheap :=
  do fs <- fload h s ;;
  do ft <- fload h t ;;
  do p <- multiply_factor o fs ft ;;
  do os <- cell (h_obj h) s ;;
  do ot <- cell (h_obj h) t ;;
  let cd := if self_is_phi1 fs ft then o_card os else o_card ot in
  Ok (mkH (upd_nth s (mkO (o_bn os) (o_var os) (length (h_scope h)) cd (length (h_stride h)) (f_cpt (fst p))) (h_obj h))
          (h_scope h ++ [f_scope (fst p)])
          (upd_nth cd (f_card (fst p)) (h_card h))
          (h_stride h ++ [f_stride (fst p)])).

(** factor.py:438-448  [s /= rv]: [del self.card[rv]], [self.stride.update], [del self.stride[rv]] and
    [self.scope.remove(rv)] edit the shared objects in place; the table is a new array *)
Definition fsumout (o : oracle) (h : fheap) (s : nat) (rv : name) : res fheap :=
  do f <- fload h s ;;
  do f' <- sumout_var o f rv ;;
  do os <- cell (h_obj h) s ;;
  Ok (mkH (upd_nth s (mkO (o_bn os) (f_var f') (o_scope os) (o_card os) (o_stride os) (f_cpt f')) (h_obj h))
          (upd_nth (o_scope os) (f_scope f') (h_scope h))
          (upd_nth (o_card os) (f_card f') (h_card h))
          (upd_nth (o_stride os) (f_stride f') (h_stride h))).

(** cliquetree.py:223-230  attributes of a Clique; is_ready is never read *)
Record clique := mkC { c_scope : list name; c_F : list nat; c_psi : option nat; c_belief : option nat; c_msgs : list nat }.

(** cliquetree.py:302  [max(self._F, key=lambda x: len(x.cpt))]: the first factor with the longest table *)
Definition longest (h : fheap) (fs : list nat) : res nat :=
  match fs with
  | [] => Raise ValueError
  | f :: r =>
      do ob <- cell (h_obj h) f ;;
      do best <- foldM (fun best g => do og <- cell (h_obj h) g ;;
                   Ok (if snd best <? length (o_cpt og) then (g, length (o_cpt og)) else best)) r (f, length (o_cpt ob)) ;;
      Ok (fst best)
  end.

(** cliquetree.py:274-275, 303-304, 351-352  [for f in l: s *= f] *)
Fixpoint fmul_all (o : oracle) (h : fheap) (s : nat) (l : list nat) : res fheap :=
  match l with
  | [] => Ok h
  | f :: r => do h' <- fmul (sub o 0) h s f ;; fmul_all (sub o 1) h' s r
  end.

(** cliquetree.py:290-305  Clique.initialize_psi *)
Definition initialize_psi (o : oracle) (h : fheap) (c : clique) : res (fheap * clique) :=
  match c_F c with
  | [] => Raise AssertionError
  | [f] =>
      do p <- fcopy h f ;;
      do b <- fcopy (fst p) (snd p) ;;
      Ok (fst b, mkC (c_scope c) (c_F c) (Some (snd p)) (Some (snd b)) (c_msgs c))
  | fs =>
      do m <- longest h fs ;;
      do h' <- fmul_all o h m fs ;;
      do b <- fcopy h' m ;;
      Ok (fst b, mkC (c_scope c) (c_F c) (Some m) (Some (snd b)) (c_msgs c))
  end.

(** cliquetree.py:284-285  [for v in l: s /= v] *)
Fixpoint fsumout_all (o : oracle) (h : fheap) (s : nat) (l : list name) : res fheap :=
  match l with
  | [] => Ok h
  | v :: r => do h' <- fsumout (sub o 0) h s v ;; fsumout_all (sub o 1) h' s r
  end.

(** cliquetree.py:272-273, 279-280  [if not self.belief: self.belief = copy(self.psi)]; a Factor is always true; copy(None) is None,
    which fails at the next [*=] or [/=] (a message None, when there is nothing to multiply or sum out, is not modelled) *)
Definition ensure_belief (h : fheap) (c : clique) : res (fheap * nat) :=
  match c_belief c with
  | Some b => Ok (h, b)
  | None => match c_psi c with Some p => fcopy h p | None => Raise TypeError end
  end.

(** cliquetree.py:247-288  Clique.send_message from clique [i] to clique [j] of a list (they may be the same);
    cliquetree.py:235-245  [>>] and [<<] *)
Definition send_message (o : oracle) (h : fheap) (cs : list clique) (i j : nat) : res (fheap * list clique) :=
  do c <- cell cs i ;;
  do hb <- ensure_belief h c ;;
  do h1 <- fmul_all (sub o 0) (fst hb) (snd hb) (c_msgs c) ;;
  do m <- fcopy h1 (snd hb) ;;
  do d <- cell cs j ;;
  do h2 <- fsumout_all (sub o 1) (fst m) (snd m) (ask (sub o 2) (set_diff (c_scope c) (set_inter (c_scope c) (c_scope d)))) ;;
  let cs1 := upd_nth i (mkC (c_scope c) (c_F c) (c_psi c) (Some (snd hb)) (c_msgs c)) cs in
  do d1 <- cell cs1 j ;;
  Ok (h2, upd_nth j (mkC (c_scope d1) (c_F d1) (c_psi d1) (c_belief d1) (c_msgs d1 ++ [snd m])) cs1).

(** cliquetree.py:307-330  Clique.send_initial_message from clique [i] to clique [j]: the message is made from a copy of
    the potential, and the sender's belief is replaced by another copy of it.  copy(None) has no sumout_var_list.  The
    print (327) is left out. *)
Definition send_initial_message (o : oracle) (h : fheap) (cs : list clique) (i j : nat) : res (fheap * list clique) :=
  do c <- cell cs i ;;
  match c_psi c with
  | None => Raise AttributeError
  | Some p =>
      do m <- fcopy h p ;;
      do d <- cell cs j ;;
      do h2 <- fsumout_all (sub o 1) (fst m) (snd m) (ask (sub o 2) (set_diff (c_scope c) (set_inter (c_scope c) (c_scope d)))) ;;
      let cs1 := upd_nth j (mkC (c_scope d) (c_F d) (c_psi d) (c_belief d) (c_msgs d ++ [snd m])) cs in
      do b <- fcopy h2 p ;;
      do c1 <- cell cs1 i ;;
      Ok (fst b, upd_nth i (mkC (c_scope c1) (c_F c1) (c_psi c1) (Some (snd b)) (c_msgs c1)) cs1)
  end.

(** cliquetree.py:332-356  Clique.collect_beliefs *)
Definition collect_beliefs (o : oracle) (h : fheap) (c : clique) : res (fheap * clique) :=
  match c_msgs c with
  | [] =>
      match c_belief c with
      | Some b => do p <- fcopy h b ;; Ok (fst p, mkC (c_scope c) (c_F c) (c_psi c) (Some (snd p)) [])
      | None => Ok (h, c)
      end
  | ms =>
      match c_psi c with
      | None => Raise TypeError
      | Some p =>
          do b <- fcopy h p ;;
          do h' <- fmul_all o (fst b) (snd b) ms ;;
          Ok (h', mkC (c_scope c) (c_F c) (c_psi c) (Some (snd b)) [])
      end
  end.

(** cliquetree.py:371-383  Clique.marginalize_over: sumover_var gives the copy new parts (factor.py:365-368),
    so nothing else changes *)
Definition marginalize_over (h : fheap) (c : clique) (target : name) : res factor :=
  match c_belief c with
  | None => Raise AttributeError
  | Some b => do f <- fload h b ;; sumover_var f target
  end.

(** ** The tree *)
(** cliquetree.py:91-93, 159-162  attributes V, E, C; C as the list of its values for the keys 0, 1, ... *)
Record ctree := mkCT { t_V : list name; t_E : edict; t_C : list clique; t_heap : fheap }.

(** cliquetree.py:115-120  CliqueTree.parents: appends [v], not [rv] *)
Definition ct_parents (t : ctree) (v : name) : res (list name) :=
  do ls <- mapM (fun rv => do c <- getitem (t_E t) rv ;; Ok (if mem v c then [v] else [])) (t_V t) ;;
  Ok (concat ls).
(** cliquetree.py:122-123  CliqueTree.children *)
Definition ct_children (t : ctree) (n : name) : res (list name) := getitem (t_E t) n.

(** cliquetree.py:151-157  weights of the complete graph: minus the size of the intersection *)
Definition sep_weights (scopes : list (list name)) : dict (dict Qc) :=
  map (fun i => (NInt i, flat_map (fun j => if i =? j then [] else
        [(NInt j, (- nQc (length (set_inter (nth i scopes []) (nth j scopes []))))%Qc)]) (seq 0 (length scopes))))
      (seq 0 (length scopes)).

(** cliquetree.py:165-173: each clique takes the not yet taken nodes whose family it contains; [order] is the
    iteration order of the dict v_a *)
Fixpoint assign_factors (bn : bayesnet) (order taken : list name) (scopes : list (list name)) : res (list (list name)) :=
  match scopes with
  | [] => Ok []
  | s :: r =>
      do mine <- mapM (fun v => do sc <- bn_scope bn v ;;
                   Ok (if negb (mem v taken) && forallb (fun w => mem w s) sc then [v] else [])) order ;;
      do rest <- assign_factors bn order (taken ++ concat mine) r ;;
      Ok (concat mine :: rest)
  end.

(** cliquetree.py:173  Factorization(bn, nodes): one new Factor per node *)
Definition alloc_factors (bn : bayesnet) (h : fheap) (nodes : list name) : res (fheap * list nat) :=
  foldM (fun st v => do f <- factor_init bn v ;; let p := falloc (fst st) f in Ok (fst p, snd st ++ [snd p])) nodes (h, []).

(** cliquetree.py:165-180  the cliques with their factors, then their potentials *)
Definition build_cliques (o : oracle) (bn : bayesnet) (scopes : list (list name)) : res (fheap * list clique) :=
  do asg <- assign_factors bn (ask (sub o 0) (bn_nodes bn)) [] scopes ;;
  do st <- foldM (fun st sn => do p <- alloc_factors bn (fst st) (snd sn) ;;
             Ok (fst p, snd st ++ [mkC (fst sn) (snd p) None None []])) (combine scopes asg) (no_heap, []) ;;
  foldM (fun acc c => do p <- initialize_psi (sub (sub o 1) (length (snd acc))) (fst acc) c ;;
           Ok (fst p, snd acc ++ [snd p])) (snd st) (fst st, []).

(** cliquetree.py:75-98, 131-180  CliqueTree(bn).  [max_cliques] stands for
    reversed(list(nx.chordal_graph_cliques(G))): the maximal cliques of the graph in some order. *)
Definition clique_tree (nx_chordal : list (name * name) -> bool) (max_cliques : list (name * name) -> list (list name))
           (o : oracle) (bn : bayesnet) : res ctree :=
  do F <- mapM (factor_init bn) (bn_nodes bn) ;;
  do es <- make_chordal nx_chordal (sub o 0) bn None ;;
  let scopes := max_cliques es in
  do E <- mst (sep_weights scopes) ;;
  do hc <- build_cliques (sub o 1) bn scopes ;;
  Ok (mkCT (dkeys E) E (snd hc) (fst hc)).

(** the clique stored under the integer key [v] *)
Definition clique_at (t : ctree) (v : name) : res clique :=
  match v with NInt i => cell (t_C t) i | NStr _ => Raise KeyError end.

(** exact_bp.py:58-80, the body of exact_bp up to the marginal, for an already built tree; [post] stands for
    CliqueTree.dfs_postorder (networkx).  The downward pass (82-92) comes after the marginal, whose parts are
    all new objects, and cannot change it. *)
Definition exact_bp_on (post : edict -> name -> list name) (o : oracle) (t : ctree) (target : name) : res factor :=
  do root0 <- nget (t_V t) 0 ;;
  do hits <- mapM (fun v => do c <- clique_at t v ;; Ok (if mem target (c_scope c) then [v] else [])) (t_V t) ;;
  let root := match concat hits with v :: _ => v | [] => root0 end in
  do st <- foldM (fun st v =>
      do ps <- ct_parents t v ;;
      foldM (fun st p =>
        match v, p with
        | NInt i, NInt j => send_message (sub o i) (fst st) (snd st) i j
        | _, _ => Raise KeyError
        end) ps st) (post (t_E t) root) (t_heap t, t_C t) ;;
  match root with
  | NStr _ => Raise KeyError
  | NInt r =>
      do c <- cell (snd st) r ;;
      do hc <- collect_beliefs o (fst st) c ;;
      marginalize_over (fst hc) (snd hc) target
  end.

(** exact_bp.py:13-94  exact_bp: line 54 uses the name CliqueTree, which the module does not import *)
Definition exact_bp (bn : bayesnet) (target : option name) (evidence : option (dict name)) (downward_pass : bool) : res factor :=
  Raise NameError.
(** loopy_bp.py:11-69  loopy_bp: ClusterGraph and bn are undefined names (line 49) *)
Definition loopy_bp (target : option name) (evidence : option (dict name)) (max_iter : nat) : res unit := Raise NameError.
(** clustergraph.py:36-46  ClusterGraph(bn): line 41 reads the undefined name BN *)
Definition cluster_graph (bn : bayesnet) : res unit := Raise NameError.
