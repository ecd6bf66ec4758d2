(** FactorHeap.v -- Factor and Factorization objects as the interpreter holds them: objects with addresses, edited in place.

    Uses the heap of CliqueTree.v (an object holds the addresses of its scope list, card dict and stride dict).
    Factor.v and Factorization.v describe the same methods on values; here every method writes back to the object
    it was called on, [psi *= g] can make two objects share a card dict, and operators return [self]. *)
From Verif Require Import Py Num BayesNet Factor Factorization CliqueTree Rounding.
Open Scope nat_scope.

(** a method that edits the object in place: del self.card[rv], self.stride.update, del self.stride[rv],
    self.scope.remove(rv) work on the object's own scope, card and stride; the table is a new array
    (factor.py:438-448, 498-503, 600-610) *)
Definition fwrite (op : factor -> res factor) (h : fheap) (s : nat) : res fheap :=
  do f <- fload h s ;;
  do f' <- op f ;;
  do os <- cell (h_obj h) s ;;
  Ok (mkH (upd_nth s (mkO (o_bn os) (f_var f') (o_scope os) (o_card os) (o_stride os) (f_cpt f')) (h_obj h))
          (upd_nth (o_scope os) (f_scope f') (h_scope h))
          (upd_nth (o_card os) (f_card f') (h_card h))
          (upd_nth (o_stride os) (f_stride f') (h_stride h))).
(** factor.py:453-509 on an object *)
Definition fmaxout (h : fheap) (s : nat) (rv : name) : res fheap := fwrite (fun f => maxout_var f rv) h s.
(** factor.py:545-610 on an object *)
Definition freduce (o : oracle) (h : fheap) (s : nat) (rv val : name) : res fheap := fwrite (fun f => reduce_factor o f rv val) h s.
(** copy.deepcopy(f): a new object all of whose parts are new *)
Definition fdeepcopy (h : fheap) (s : nat) : res (fheap * nat) := do f <- fload h s ;; Ok (falloc h f).

(** ** expressions in the operator notation of factor.py:170-200; [At a] is a variable holding the object at [a] *)
Inductive fexpr := At (a : nat) | Times (x y : fexpr) | Minus (x : fexpr) (rv val : name) | Over (x : fexpr) (rv : name) | OverMax (x : fexpr) (rv : name).
(** every operator edits its left operand and returns it; operands are evaluated left to right *)
Fixpoint feval (o : oracle) (h : fheap) (e : fexpr) : res (fheap * nat) :=
  match e with
  | At a => Ok (h, a)
  | Times x y => do p <- feval (sub o 0) h x ;; do q <- feval (sub o 1) (fst p) y ;; do h' <- fmul (sub o 2) (fst q) (snd p) (snd q) ;; Ok (h', snd p)
  | Minus x rv val => do p <- feval (sub o 0) h x ;; do h' <- freduce (sub o 1) (fst p) (snd p) rv val ;; Ok (h', snd p)
  | Over x rv => do p <- feval (sub o 0) h x ;; do h' <- fsumout (sub o 1) (fst p) (snd p) rv ;; Ok (h', snd p)
  | OverMax x rv => do p <- feval (sub o 0) h x ;; do h' <- fmaxout (fst p) (snd p) rv ;; Ok (h', snd p)
  end.

(** ** Factorization objects *)
(** factorization.py:25-35: _phi is a list of Factor objects, map_factors an OrderedDict of Factor objects *)
Record hfz := mkHz { hz_bn : bayesnet; hz_phi : list nat; hz_map : dict nat; hz_asg : dict name }.
(** factorization.py:15-35 *)
Fixpoint new_factors (h : fheap) (bn : bayesnet) (nodes : list name) : res (fheap * list nat) :=
  match nodes with
  | [] => Ok (h, [])
  | v :: r =>
      do f <- factor_init bn v ;;
      let p := falloc h f in
      do q <- new_factors (fst p) bn r ;;
      Ok (fst q, snd p :: snd q)
  end.
Definition hz_init (h : fheap) (bn : bayesnet) : res (fheap * hfz) :=
  do p <- new_factors h bn (bn_nodes bn) ;; Ok (fst p, mkHz bn (snd p) [] []).
(** factorization.py:138-142: [rv in f.scope] for each object *)
Fixpoint hfilter (want : bool) (rv : name) (h : fheap) (l : list nat) : res (list nat) :=
  match l with
  | [] => Ok []
  | a :: r => do f <- fload h a ;; do r' <- hfilter want rv h r ;; Ok (if Bool.eqb (mem rv (f_scope f)) want then a :: r' else r')
  end.
(** factorization.py:74-84 *)
Fixpoint hreduce_all (o : oracle) (rv val : name) (h : fheap) (l : list nat) : res fheap :=
  match l with
  | [] => Ok h
  | a :: r =>
      do f <- fload h a ;;
      do h' <- (if mem rv (f_scope f) then freduce (sub o 0) h a rv val else Ok h) ;;
      hreduce_all (sub o 1) rv val h' r
  end.
Definition hz_sub (o : oracle) (h : fheap) (z : hfz) (rv val : name) : res (fheap * hfz) :=
  do h' <- hreduce_all o rv val h (hz_phi z) ;;
  Ok (h', mkHz (hz_bn z) (hz_phi z) (hz_map z) (dset (hz_asg z) rv val)).
(** factorization.py:87-93, 102-108: the relevant objects are multiplied into the first of them *)
Definition hproduct (o : oracle) (rv : name) (h : fheap) (l : list nat) : res (fheap * nat) :=
  do rel <- hfilter true rv h l ;;
  match rel with
  | [] => Raise IndexError
  | a :: r => do h' <- fmul_all o h a r ;; Ok (h', a)
  end.
(** factorization.py:86-99 *)
Definition hz_sum_elim (o : oracle) (h : fheap) (z : hfz) (rv : name) : res (fheap * hfz) :=
  do irr <- hfilter false rv h (hz_phi z) ;;
  do p <- hproduct (sub o 0) rv h (hz_phi z) ;;
  do h' <- fsumout (sub o 1) (fst p) (snd p) rv ;;
  Ok (h', mkHz (hz_bn z) (irr ++ [snd p]) (hz_map z) (hz_asg z)).
(** factorization.py:101-115 *)
Definition hz_max_elim (o : oracle) (h : fheap) (z : hfz) (rv : name) : res (fheap * hfz) :=
  do irr <- hfilter false rv h (hz_phi z) ;;
  do p <- hproduct (sub o 0) rv h (hz_phi z) ;;
  do c <- fdeepcopy (fst p) (snd p) ;;
  do h' <- fmaxout (fst c) (snd p) rv ;;
  Ok (h', mkHz (hz_bn z) (irr ++ [snd p]) (dset (hz_map z) rv (snd c)) (hz_asg z)).
(** factorization.py:123-125 *)
Fixpoint hreduce_later (o : oracle) (asg : dict name) (later : list name) (h : fheap) (a : nat) : res fheap :=
  match later with
  | [] => Ok h
  | nd :: r =>
      do f <- fload h a ;;
      do h' <- (if mem nd (f_scope f) then do v <- getitem asg nd ;; freduce (sub o 0) h a nd v else Ok h) ;;
      hreduce_later (sub o 1) asg r h' a
  end.
(** factorization.py:117-129 *)
Fixpoint htraceback (o : oracle) (bn : bayesnet) (h : fheap) (items : dict nat) (asg : dict name) : res (fheap * dict name) :=
  match items with
  | [] => Ok (h, asg)
  | (rv, a) :: later =>
      do p <- htraceback (sub o 0) bn h later asg ;;
      do h' <- hreduce_later (sub o 1) (snd p) (dkeys later) (fst p) a ;;
      do vs <- bn_values bn rv ;;
      do f <- fload h' a ;;
      do i <- argmax (f_cpt f) ;;
      do v <- nget vs i ;;
      Ok (h', dset (snd p) rv v)
  end.
(** factorization.py:131-136 *)
Definition hconsolidate (l : list nat) : res nat :=
  match l with [] => Raise IndexError | [a] => Ok a | _ => Raise NameError end.
(** ve_marginal.py:43-46, ve_map.py:26-29 *)
Fixpoint happly_evidence (o : oracle) (h : fheap) (z : hfz) (order : list name) (ev : list (name * name)) : res (fheap * hfz * list name) :=
  match ev with
  | [] => Ok (h, z, order)
  | (E, e) :: r =>
      do p <- hz_sub (sub o 0) h z E e ;;
      do order' <- list_remove order E ;;
      happly_evidence (sub o 1) (fst p) (snd p) order' r
  end.
Fixpoint helim_all (elim : oracle -> fheap -> hfz -> name -> res (fheap * hfz)) (o : oracle) (h : fheap) (z : hfz) (order : list name) : res (fheap * hfz) :=
  match order with
  | [] => Ok (h, z)
  | v :: r => do p <- elim (sub o 0) h z v ;; helim_all elim (sub o 1) (fst p) (snd p) r
  end.
(** ve_marginal.py:12-55, on objects; [h] holds whatever else exists in the interpreter *)
Definition h_marginal_ve_e (o : oracle) (h : fheap) (bn : bayesnet) (target : name) (ev : list (name * name)) : res (fheap * list Qc) :=
  do z <- hz_init h bn ;;
  do order <- list_remove (bn_nodes bn) target ;;
  do p <- happly_evidence (sub o 0) (fst z) (snd z) order ev ;;
  do q <- helim_all hz_sum_elim (sub o 1) (fst (fst p)) (snd (fst p)) (snd p) ;;
  do a <- hconsolidate (hz_phi (snd q)) ;;
  do f <- fload (fst q) a ;;
  Ok (fst q, map (np_round 4) (f_cpt f)).
(** ve_map.py:12-52, on objects *)
Definition h_map_run (o : oracle) (h : fheap) (bn : bayesnet) (ev : list (name * name)) : res (fheap * hfz * dict name) :=
  do z <- hz_init h bn ;;
  do p <- happly_evidence (sub o 0) (fst z) (snd z) (bn_nodes bn) ev ;;
  do q <- helim_all hz_max_elim (sub o 1) (fst (fst p)) (snd (fst p)) (snd p) ;;
  do m <- htraceback (sub o 2) bn (fst q) (hz_map (snd q)) (hz_asg (snd q)) ;;
  Ok (fst m, snd q, snd m).
Definition h_ve_map (o : oracle) (h : fheap) (bn : bayesnet) (ev : list (name * name)) : res (fheap * dict name) :=
  do r <- h_map_run o h bn ev ;; Ok (fst (fst r), snd r).
Definition h_ve_map_prob (o : oracle) (h : fheap) (bn : bayesnet) (ev : list (name * name)) : res (fheap * (Qc * dict name)) :=
  do r <- h_map_run o h bn ev ;;
  do a <- hconsolidate (hz_phi (snd (fst r))) ;;
  do f <- fload (fst (fst r)) a ;;
  do x <- nget (f_cpt f) 0 ;;
  Ok (fst (fst r), (py_round 5 x, snd r)).
