(** BayesNet.v -- model of pyBN/classes/bayesnet.py (value-level part).

    A BayesNet object has attributes V (list of nodes), E (dict node -> list of
    children) and F (dict node -> dict with keys 'parents','values','cpt');
    bayesnet.py lines 9-32 and 73-86.  Mutation is modelled by returning the new
    object; aliasing between objects (mutable default arguments, copy) is the
    subject of the separate heap model in BayesNetHeap.v. *)
From Verif Require Import Py Num.
Open Scope nat_scope.

(** bn.F[rv] -- bayesnet.py:59-65.  The three keys always exist together in every
    constructor of the library (set_structure, add_node, the readers). *)
Record fdata := mkF { f_parents : list name; f_values : list name; f_cptl : list Qc }.

(** bayesnet.py:84-86 *)
Record bayesnet := mkBN { bn_V : list name; bn_E : dict (list name); bn_F : dict fdata }.

(** bayesnet.py:198-199  BayesNet.cpt *)
Definition bn_cpt (bn : bayesnet) (rv : name) : res (list Qc) :=
  do d <- getitem (bn_F bn) rv ;; Ok (f_cptl d).
(** bayesnet.py:201-202  BayesNet.card *)
Definition bn_card (bn : bayesnet) (rv : name) : res nat :=
  do d <- getitem (bn_F bn) rv ;; Ok (List.length (f_values d)).
(** bayesnet.py:209-210  BayesNet.parents *)
Definition bn_parents (bn : bayesnet) (rv : name) : res (list name) :=
  do d <- getitem (bn_F bn) rv ;; Ok (f_parents d).
(** bayesnet.py:204-207  BayesNet.scope *)
Definition bn_scope (bn : bayesnet) (rv : name) : res (list name) :=
  do ps <- bn_parents bn rv ;; Ok (rv :: ps).
(** bayesnet.py:212-213  BayesNet.children *)
Definition bn_children (bn : bayesnet) (rv : name) : res (list name) := getitem (bn_E bn) rv.
(** bayesnet.py:218-219  BayesNet.values *)
Definition bn_values (bn : bayesnet) (rv : name) : res (list name) :=
  do d <- getitem (bn_F bn) rv ;; Ok (f_values d).
(** bayesnet.py:160-162  BayesNet.nodes *)
Definition bn_nodes (bn : bayesnet) : list name := bn_V bn.
(** bayesnet.py:170-171  BayesNet.has_node *)
Definition bn_has_node (bn : bayesnet) (rv : name) : bool := mem rv (bn_V bn).
(** bayesnet.py:173-174  BayesNet.has_edge *)
Definition bn_has_edge (bn : bayesnet) (u v : name) : res bool :=
  do l <- getitem (bn_E bn) u ;; Ok (mem v l).
(** bayesnet.py:164-168  BayesNet.node_idx: -1 when absent *)
Definition bn_node_idx (bn : bayesnet) (rv : name) : Z :=
  match index_of rv (bn_V bn) with Some i => Z.of_nat i | None => (-1)%Z end.
(** bayesnet.py:192-193  BayesNet.scope_size *)
Definition bn_scope_size (bn : bayesnet) (rv : name) : res nat :=
  do ps <- bn_parents bn rv ;; Ok (S (List.length ps)).
(** bayesnet.py:195-196  BayesNet.num_nodes *)
Definition bn_num_nodes (bn : bayesnet) : nat := List.length (bn_V bn).
(** bayesnet.py:215-216  BayesNet.degree *)
Definition bn_degree (bn : bayesnet) (rv : name) : res nat :=
  do p <- bn_parents bn rv ;; do c <- bn_children bn rv ;; Ok (List.length p + List.length c).
(** bayesnet.py:176-179  BayesNet.edges (generator, as the list it yields) *)
Definition bn_edges (bn : bayesnet) : res (list (name * name)) :=
  do ls <- mapM (fun u => do c <- getitem (bn_E bn) u ;; Ok (map (fun v => (u, v)) c)) (bn_V bn) ;;
  Ok (concat ls).
(** bayesnet.py:180-184  BayesNet.num_edges *)
Definition bn_num_edges (bn : bayesnet) : res nat :=
  foldM (fun num u => do c <- getitem (bn_E bn) u ;; Ok (num + List.length c)) (bn_V bn) 0.
(** bayesnet.py:186-190  BayesNet.num_params *)
Definition bn_num_params (bn : bayesnet) : res nat :=
  foldM (fun num u => do c <- bn_cpt bn u ;; Ok (num + List.length c)) (bn_V bn) 0.

(** bayesnet.py:221-226  BayesNet.value_idx: -1 (after printing) when [val] is not a
    value of [rv]; KeyError when [rv] is unknown. *)
Definition bn_value_idx (bn : bayesnet) (rv val : name) : res Z :=
  do d <- getitem (bn_F bn) rv ;;
  match index_of val (f_values d) with Some i => Ok (Z.of_nat i) | None => Ok (-1)%Z end.

(** bayesnet.py:228-235  BayesNet.stride *)
Definition bn_stride (bn : bayesnet) (rv n : name) : res nat :=
  if name_eqb n rv then Ok 1 else
  do c0 <- bn_card bn rv ;;
  do ps <- bn_parents bn rv ;;
  do cs <- mapM (bn_card bn) ps ;;
  do i <- list_index ps n ;;
  Ok (nprod (firstn (i + 1) (c0 :: cs))).

(** bayesnet.py:147-158  set_data, set_cpt, set_parents, set_values: each writes
    bn.F[rv]; set_cpt/set_parents/set_values raise KeyError for an unknown rv. *)
Definition bn_with_F (bn : bayesnet) (F : dict fdata) : bayesnet := mkBN (bn_V bn) (bn_E bn) F.
Definition bn_set_data (bn : bayesnet) (rv : name) (d : fdata) : bayesnet :=
  bn_with_F bn (dset (bn_F bn) rv d).
Definition bn_set_cpt (bn : bayesnet) (rv : name) (c : list Qc) : res bayesnet :=
  do d <- getitem (bn_F bn) rv ;;
  Ok (bn_with_F bn (dset (bn_F bn) rv (mkF (f_parents d) (f_values d) c))).
Definition bn_set_parents (bn : bayesnet) (rv : name) (p : list name) : res bayesnet :=
  do d <- getitem (bn_F bn) rv ;;
  Ok (bn_with_F bn (dset (bn_F bn) rv (mkF p (f_values d) (f_cptl d)))).
Definition bn_set_values (bn : bayesnet) (rv : name) (vs : list name) : res bayesnet :=
  do d <- getitem (bn_F bn) rv ;;
  Ok (bn_with_F bn (dset (bn_F bn) rv (mkF (f_parents d) vs (f_cptl d)))).
