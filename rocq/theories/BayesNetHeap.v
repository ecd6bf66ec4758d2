(** BayesNetHeap.v -- model of the mutating methods of pyBN/classes/bayesnet.py on a heap,
    so that aliasing (mutable default arguments, shared lists, deepcopy) is visible.

    Every Python list/dict/object is a heap cell addressed by a reference. *)
From Verif Require Import Py Num BayesNet Graph.
Open Scope nat_scope.

Definition ref := nat.
(** ONames: list of names (V, children, parents, values lists); ONums: a cpt;
    ODict: dict name -> object (E: lists, F: data dicts); ODat: the dict
    {'cpt':..,'parents':..,'values':..}; ONet: a BayesNet object with attributes V, E, F *)
Inductive obj :=
| ONames (l : list name) | ONums (l : list Qc) | ODict (d : dict ref)
| ODat (cpt parents values : ref) | ONet (V E F : ref).
Definition heap := list obj.
Definition refs (o : obj) : list ref :=
  match o with
  | ONames _ => [] | ONums _ => [] | ODict d => map snd d
  | ODat c p v => [c; p; v] | ONet V E F => [V; E; F]
  end.

(** state and exceptions: the effects made before an exception persist *)
Definition M (A : Type) := heap -> heap * res A.
Definition ret {A} (a : A) : M A := fun h => (h, Ok a).
Definition raise {A} (e : exn) : M A := fun h => (h, Raise e).
Definition bindM {A B} (m : M A) (k : A -> M B) : M B :=
  fun h => match m h with (h', Ok a) => k a h' | (h', Raise e) => (h', Raise e) end.
Notation "'mdo' x <- m ;; k" := (bindM m (fun x => k)) (at level 200, x name, m at level 100, k at level 200).
Definition lift {A} (r : res A) : M A := fun h => (h, r).

Definition load (r : ref) : M obj :=
  fun h => match nth_error h r with Some o => (h, Ok o) | None => (h, Raise RuntimeErr) end.
Definition store (r : ref) (o : obj) : M unit :=
  fun h => if r <? length h then (upd_nth r o h, Ok tt) else (h, Raise RuntimeErr).
Definition alloc (o : obj) : M ref := fun h => (h ++ [o], Ok (length h)).

Definition load_names (r : ref) : M (list name) := mdo o <- load r ;; match o with ONames l => ret l | _ => raise TypeError end.
Definition load_dict (r : ref) : M (dict ref) := mdo o <- load r ;; match o with ODict d => ret d | _ => raise TypeError end.
Definition load_dat (r : ref) : M (ref * ref * ref) := mdo o <- load r ;; match o with ODat c p v => ret (c, p, v) | _ => raise TypeError end.
Definition load_net (r : ref) : M (ref * ref * ref) := mdo o <- load r ;; match o with ONet a b c => ret (a, b, c) | _ => raise TypeError end.

(** the attributes *)
Definition net_V (b : ref) : M ref := mdo n <- load_net b ;; ret (fst (fst n)).
Definition net_E (b : ref) : M ref := mdo n <- load_net b ;; ret (snd (fst n)).
Definition net_F (b : ref) : M ref := mdo n <- load_net b ;; ret (snd n).
(** self.E[u] and self.F[v]: KeyError when absent *)
Definition E_at (b : ref) (u : name) : M ref := mdo e <- net_E b ;; mdo d <- load_dict e ;; lift (getitem d u).
Definition F_at (b : ref) (v : name) : M ref := mdo f <- net_F b ;; mdo d <- load_dict f ;; lift (getitem d v).

(** list.append and list.remove on the list object at r *)
Definition append_to (r : ref) (x : name) : M unit := mdo l <- load_names r ;; store r (ONames (l ++ [x])).
Definition remove_from (r : ref) (x : name) : M unit := mdo l <- load_names r ;; mdo l' <- lift (list_remove l x) ;; store r (ONames l').
(** d[k] = v *)
Definition setitem_ref (r : ref) (k : name) (v : ref) : M unit := mdo d <- load_dict r ;; store r (ODict (dset d k v)).

(** the default argument objects of add_node, created once when the class is defined *)
Definition dflt_cpt : ref := 0.
Definition dflt_parents : ref := 1.
Definition dflt_values : ref := 2.
Definition heap0 : heap := [ONums []; ONames []; ONames []].

(** bayesnet.py:84-86: BayesNet() *)
Definition new_net : M ref :=
  mdo v <- alloc (ONames []) ;; mdo e <- alloc (ODict []) ;; mdo f <- alloc (ODict []) ;; alloc (ONet v e f).
(** bayesnet.py:170-171, 173-174 *)
Definition h_has_node (b : ref) (rv : name) : M bool := mdo r <- net_V b ;; mdo l <- load_names r ;; ret (mem rv l).
Definition h_has_edge (b : ref) (u v : name) : M bool := mdo r <- E_at b u ;; mdo l <- load_names r ;; ret (mem v l).
(** bayesnet.py:120-122  add_node *)
Definition h_add_node (b : ref) (rv : name) (cpt parents values : ref) : M unit :=
  mdo r <- net_V b ;; mdo _ <- append_to r rv ;;
  mdo d <- alloc (ODat cpt parents values) ;; mdo f <- net_F b ;; setitem_ref f rv d.
(** bayesnet.py:124-133  add_edge *)
Definition h_add_edge (b : ref) (u v : name) : M unit :=
  mdo hu <- h_has_node b u ;;
  mdo _ <- (if hu then ret tt else h_add_node b u dflt_cpt dflt_parents dflt_values) ;;
  mdo hv <- h_has_node b v ;;
  mdo _ <- (if hv then ret tt else h_add_node b v dflt_cpt dflt_parents dflt_values) ;;
  mdo he <- h_has_edge b u v ;;
  if he then ret tt else
  mdo r <- E_at b u ;; mdo _ <- append_to r v ;;
  mdo d <- F_at b v ;; mdo t <- load_dat d ;; append_to (snd (fst t)) u.
(** bayesnet.py:138-140  remove_edge *)
Definition h_remove_edge (b : ref) (u v : name) : M unit :=
  mdo r <- E_at b u ;; mdo _ <- remove_from r v ;;
  mdo d <- F_at b v ;; mdo t <- load_dat d ;; remove_from (snd (fst t)) u.
(** bayesnet.py:142-145  reverse_arc *)
Definition h_reverse_arc (b : ref) (u v : name) : M unit :=
  mdo he <- h_has_edge b u v ;;
  if he then mdo r <- E_at b u ;; mdo _ <- remove_from r v ;; mdo s <- E_at b v ;; append_to s u else ret tt.
(** bayesnet.py:151-158  set_cpt, set_parents, set_values *)
Definition h_set_cpt (b : ref) (rv : name) (c : ref) : M unit :=
  mdo d <- F_at b rv ;; mdo t <- load_dat d ;; store d (ODat c (snd (fst t)) (snd t)).
Definition h_set_parents (b : ref) (rv : name) (p : ref) : M unit :=
  mdo d <- F_at b rv ;; mdo t <- load_dat d ;; store d (ODat (fst (fst t)) p (snd t)).
Definition h_set_values (b : ref) (rv : name) (v : ref) : M unit :=
  mdo d <- F_at b rv ;; mdo t <- load_dat d ;; store d (ODat (fst (fst t)) (snd (fst t)) v).

(** deepcopy of a list of names / numbers (names and numbers are immutable) *)
Definition deep_leaf (r : ref) : M ref := mdo o <- load r ;; match o with ONames _ => alloc o | ONums _ => alloc o | _ => raise TypeError end.
(** deepcopy of a dict of lists; the memo table keeps sharing inside one deepcopy call *)
Fixpoint memo_get (m : list (ref * ref)) (r : ref) : option ref :=
  match m with [] => None | (a, b) :: t => if a =? r then Some b else memo_get t r end.
Fixpoint deep_items (d : dict ref) (memo : list (ref * ref)) : M (dict ref) :=
  match d with
  | [] => ret []
  | (k, r) :: t =>
      match memo_get memo r with
      | Some r' => mdo t' <- deep_items t memo ;; ret ((k, r') :: t')
      | None => mdo r' <- deep_leaf r ;; mdo t' <- deep_items t ((r, r') :: memo) ;; ret ((k, r') :: t')
      end
  end.
Definition deep_dict (r : ref) : M ref := mdo d <- load_dict r ;; mdo d' <- deep_items d [] ;; alloc (ODict d').
(** bayesnet.py:107-111: the loop over V; three separate deepcopy calls *)
Fixpoint copy_F (b : ref) (vs : list name) (F : dict ref) : M (dict ref) :=
  match vs with
  | [] => ret F
  | v :: t =>
      mdo d <- F_at b v ;; mdo x <- load_dat d ;;
      mdo c <- deep_leaf (fst (fst x)) ;; mdo p <- deep_leaf (snd (fst x)) ;; mdo w <- deep_leaf (snd x) ;;
      mdo nd <- alloc (ODat c p w) ;;
      copy_F b t (dset F v nd)
  end.
(** bayesnet.py:104-118  copy *)
Definition h_copy (b : ref) : M ref :=
  mdo rv <- net_V b ;; mdo V <- deep_leaf rv ;;
  mdo re <- net_E b ;; mdo E <- deep_dict re ;;
  mdo vs <- load_names V ;;
  mdo F <- copy_F b vs [] ;;
  mdo f <- alloc (ODict F) ;;
  alloc (ONet V E f).

(** bayesnet.py:341-351  set_structure, as called by BayesNet(E, value_dict) (bayesnet.py:80-82):
    [e] is the caller's edge dict object and becomes bn.E itself; the values lists are the
    lists of the caller's value dict [vd].  The reads of E made by topsort and by the list
    comprehension are done at once ([load_edges]); nothing is written in between. *)
Fixpoint load_edges (d : dict ref) : M edict :=
  match d with
  | [] => ret []
  | (k, r) :: t => mdo l <- load_names r ;; mdo t' <- load_edges t ;; ret ((k, l) :: t')
  end.
Fixpoint build_F (E : edict) (V : list name) (vd : option ref) (vs : list name) (F : dict ref) : M (dict ref) :=
  match vs with
  | [] => ret F
  | rv :: t =>
      mdo flags <- lift (mapM (fun p => do c <- getitem E p ;; Ok (p, mem rv c)) V) ;;
      mdo p <- alloc (ONames (map fst (filter snd flags))) ;;
      mdo c <- alloc (ONums []) ;;
      mdo w <- match vd with
               | None => alloc (ONames [])
               | Some r => mdo d <- load_dict r ;; lift (getitem d rv)
               end ;;
      mdo nd <- alloc (ODat c p w) ;;
      build_F E V vd t (dset F rv nd)
  end.
Definition h_set_structure (e : ref) (vd : option ref) : M ref :=
  mdo d <- load_dict e ;; mdo E <- load_edges d ;;
  mdo V <- lift (topsort E None) ;; mdo v <- alloc (ONames V) ;;
  mdo F <- build_F E V vd V [] ;; mdo f <- alloc (ODict F) ;;
  alloc (ONet v e f).

(** ** Histories of edits *)
(** list arguments are fresh list objects ([Some l]) or the omitted default ([None]) *)
Inductive edit :=
| EAddNode (b : ref) (rv : name) (cpt : option (list Qc)) (parents values : option (list name))
| EAddEdge (b : ref) (u v : name)
| ERemoveEdge (b : ref) (u v : name)
| EReverse (b : ref) (u v : name)
| ESetCpt (b : ref) (rv : name) (l : list Qc)
| ESetParents (b : ref) (rv : name) (l : list name)
| ESetValues (b : ref) (rv : name) (l : list name).
Definition arg_names (dflt : ref) (o : option (list name)) : M ref := match o with Some l => alloc (ONames l) | None => ret dflt end.
Definition arg_nums (dflt : ref) (o : option (list Qc)) : M ref := match o with Some l => alloc (ONums l) | None => ret dflt end.
Definition do_edit (e : edit) : M unit :=
  match e with
  | EAddNode b rv c p v =>
      mdo rc <- arg_nums dflt_cpt c ;; mdo rp <- arg_names dflt_parents p ;; mdo rv' <- arg_names dflt_values v ;;
      h_add_node b rv rc rp rv'
  | EAddEdge b u v => h_add_edge b u v
  | ERemoveEdge b u v => h_remove_edge b u v
  | EReverse b u v => h_reverse_arc b u v
  | ESetCpt b rv l => mdo r <- alloc (ONums l) ;; h_set_cpt b rv r
  | ESetParents b rv l => mdo r <- alloc (ONames l) ;; h_set_parents b rv r
  | ESetValues b rv l => mdo r <- alloc (ONames l) ;; h_set_values b rv r
  end.
(** a caller that catches every exception: only the heap is threaded through *)
Definition run1 (h : heap) (e : edit) : heap := fst (do_edit e h).
Definition run (h : heap) (es : list edit) : heap := fold_left run1 es h.
Definition edited (e : edit) : ref :=
  match e with
  | EAddNode b _ _ _ _ => b | EAddEdge b _ _ => b | ERemoveEdge b _ _ => b | EReverse b _ _ => b
  | ESetCpt b _ _ => b | ESetParents b _ _ => b | ESetValues b _ _ => b
  end.

(** ** What can be observed of a network: the value-level object it stands for *)
Fixpoint mapO {A B} (f : A -> option B) (l : list A) : option (list B) :=
  match l with
  | [] => Some []
  | x :: r => match f x, mapO f r with Some y, Some ys => Some (y :: ys) | _, _ => None end
  end.
Definition get_names (h : heap) (r : ref) : option (list name) := match nth_error h r with Some (ONames l) => Some l | _ => None end.
Definition get_nums (h : heap) (r : ref) : option (list Qc) := match nth_error h r with Some (ONums l) => Some l | _ => None end.
Definition get_data (h : heap) (r : ref) : option fdata :=
  match nth_error h r with
  | Some (ODat c p v) =>
      match get_names h p, get_names h v, get_nums h c with
      | Some ps, Some vs, Some cs => Some (mkF ps vs cs)
      | _, _, _ => None
      end
  | _ => None
  end.
Definition get_dict {A} (h : heap) (g : ref -> option A) (r : ref) : option (dict A) :=
  match nth_error h r with
  | Some (ODict d) => mapO (fun kr => match g (snd kr) with Some a => Some (fst kr, a) | None => None end) d
  | _ => None
  end.
Definition observe (h : heap) (b : ref) : option bayesnet :=
  match nth_error h b with
  | Some (ONet V E F) =>
      match get_names h V, get_dict h (get_names h) E, get_dict h (get_data h) F with
      | Some vs, Some es, Some fs => Some (mkBN vs es fs)
      | _, _, _ => None
      end
  | _ => None
  end.
