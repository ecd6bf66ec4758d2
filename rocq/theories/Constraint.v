(** Constraint.v -- model of pyBN/learning/structure/constraint/{path_condition,grow_shrink,iamb}.py
    and of pyBN/utils/{orient_edges,markov_blanket}.py (resolve_markov_blanket).

    [test cols] stands for [mi_test(data[:,cols])] (independence_tests.py:105-226): the algorithms
    are modelled for an arbitrary test; [Ok None] is nan (comparisons with nan are False).
    The columns are 0..n-1; a dict with these keys is iterated in increasing order (CPython's
    int hashing); a set of columns is iterated in an order given by an oracle. *)
From Verif Require Import Py Num BayesNet Graph Data ParamLearn SpecConstraint StructScore.
Open Scope nat_scope.

(** [pval > alpha], [pval < alpha] *)
Definition p_gt (p : option Qc) (alpha : Qc) : bool := match p with Some x => qltb alpha x | None => false end.
Definition p_lt (p : option Qc) (alpha : Qc) : bool := match p with Some x => qltb x alpha | None => false end.
(** itertools.combinations(l, k) *)
Fixpoint combs (l : list name) (k : nat) : list (list name) :=
  match k, l with
  | 0, _ => [[]]
  | S _, [] => []
  | S k', x :: r => map (cons x) (combs r k') ++ combs r k
  end.
(** value_dict: path_condition.py:94-95, iamb.py:146-147, data.py:27-31 (replace_strings) *)
Definition value_dict (t : table) : res (dict (list name)) :=
  mapM (fun i => do c <- column t i ;; Ok (NInt i, np_unique c)) (seq 0 (t_ncols t)).

(** ** pc: path_condition.py:92-136 *)
(** path_condition.py:97: every column adjacent to every other *)
Definition complete (n : nat) : edict :=
  map (fun i => (NInt i, map NInt (filter (fun j => negb (i =? j)) (seq 0 n)))) (seq 0 n).
(** block_dict: for each column the (last) column it was separated from, with the separating set.
    It starts as a dict of empty lists, of which only [y in block_dict[x]] is asked. *)
Definition bdict := dict (dict (list name)).
Definition pc_state := (edict * bdict)%type.
(** path_condition.py:112-121: one conditioning set z.  (Lines 104-109, i == 0, are never reached.) *)
Definition pc_try (test : ptest) (alpha : Qc) (x y : name) (st : pc_state) (z : list name) : res pc_state :=
  if mem y z then Ok st else
  do p <- test (x :: y :: z) ;;
  if p_gt p alpha then
    let B := dset (dset (snd st) x [(y, z)]) y [(x, z)] in
    do ex <- getitem (fst st) x ;;
    if mem y ex then do E1 <- dremove (fst st) x y ;; do E2 <- dremove E1 y x ;; Ok (E2, B)
    else Ok (fst st, B)
  else Ok st.
(** path_condition.py:103, 111: [for y in edge_dict[x]] goes through the list by position while
    the body removes elements from it; combinations takes a copy of the list *)
Fixpoint pc_neighbours (fuel : nat) (test : ptest) (alpha : Qc) (i : nat) (x : name) (pos : nat) (st : pc_state) : res pc_state :=
  match fuel with
  | 0 => Raise OutOfFuel
  | S f =>
      do ex <- getitem (fst st) x ;;
      match nth_error ex pos with
      | None => Ok st
      | Some y => do st' <- foldM (pc_try test alpha x y) (combs ex i) st ;; pc_neighbours f test alpha i x (S pos) st'
      end
  end.
(** path_condition.py:102: one level *)
Definition pc_level (test : ptest) (alpha : Qc) (n i : nat) (st : pc_state) : res pc_state :=
  foldM (fun st x => pc_neighbours (S n) test alpha i x 0 st) (columns n) st.
(** path_condition.py:101-129 *)
Fixpoint pc_levels (fuel : nat) (test : ptest) (alpha : Qc) (n i : nat) (st : pc_state) : res pc_state :=
  match fuel with
  | 0 => Raise OutOfFuel
  | S f =>
      do st' <- pc_level test alpha n i st ;;
      do lens <- mapM (fun x => do l <- getitem (fst st') x ;; Ok (length l)) (columns n) ;;
      if existsb (fun k => i <? k) lens then pc_levels f test alpha n (S i) st' else Ok st'
  end.
Definition pc_skeleton (test : ptest) (alpha : Qc) (n : nat) : res pc_state :=
  pc_levels (S n) test alpha n 1 (complete n, map (fun i => (NInt i, [])) (seq 0 n)).

(** [if v not in d[u]: d[u].append(v)] (orient_edges.py:165-173, markov_blanket.py:112-113, orient_edges.py:108-109) *)
Definition put (d : edict) (u v : name) : res edict :=
  do l <- getitem d u ;; if mem v l then Ok d else dappend d u v.
(** orient_edges.py:162-173: one meeting x - z - y *)
Definition cs_meet (E : edict) (B : bdict) (x z : name) (d : edict) (y : name) : res edict :=
  if name_eqb y x then Ok d else
  do ey <- getitem E y ;; if mem x ey then Ok d else
  do ex <- getitem E x ;; if mem y ex then Ok d else
  do b <- getitem B x ;;
  match dget b y with
  | None => Ok d
  | Some s => if mem z s then do d1 <- put d z x ;; put d1 z y
              else do d1 <- put d x z ;; put d1 y z
  end.
(** orient_edges.py:158-175  orient_edges_CS *)
Definition orient_edges_CS (E : edict) (B : bdict) : res edict :=
  foldM (fun d x => do ex <- getitem E x ;;
    foldM (fun d z => do ez <- getitem E z ;; foldM (cs_meet E B x z) ez d) ex d)
    (dkeys E) (map (fun x => (x, [])) (dkeys E)).
(** path_condition.py:92-136  pc *)
Definition pc (test : ptest) (alpha : Qc) (t : table) : res bayesnet :=
  do vd <- value_dict t ;;
  do st <- pc_skeleton test alpha (t_ncols t) ;;
  do D <- orient_edges_CS (fst st) (snd st) ;;
  set_structure D (Some vd).

(** ** resolve_markov_blanket: markov_blanket.py:84-114 *)
(** markov_blanket.py:91-98 *)
Definition smaller (Mb : edict) (X Y : name) : res (list name) :=
  do mx <- getitem Mb X ;; do my <- getitem Mb Y ;;
  Ok (if length mx <? length my then remove1 Y mx else remove1 X my).
(** markov_blanket.py:102-108: direct_neighbors *)
Definition direct (test : ptest) (alpha : Qc) (X Y : name) (T : list name) : res bool :=
  foldM (fun b s => do p <- test (X :: Y :: s) ;; Ok (if p_gt p alpha then false else b))
    (flat_map (combs T) (seq 0 (length T))) true.
(** markov_blanket.py:86-113 *)
Definition resolve_pair (test : ptest) (alpha : Qc) (Mb : edict) (X : name) (E : edict) (Y : name) : res edict :=
  do T <- smaller Mb X Y ;;
  do b <- direct test alpha X Y T ;;
  if negb b then Ok E else
  do ex <- getitem E X ;; 
  do E1 <- (if mem Y ex then Ok E else do ey <- getitem E Y ;; if mem X ey then Ok E else dappend E X Y) ;;
  put E1 Y X.
Definition resolve_markov_blanket (test : ptest) (alpha : Qc) (n : nat) (Mb : edict) : res edict :=
  foldM (fun E X => do mx <- getitem Mb X ;; foldM (resolve_pair test alpha Mb X) mx E) (columns n) (edgeless n).
(** the default alpha=0.05, used by gs and iamb (grow_shrink.py:143, iamb.py:136; are_independent: iamb.py:119) *)
Definition alpha05 : Qc := Q2Qc (5 # 100).

(** ** orient_edges_MB: orient_edges.py:68-96 *)
(** [min(by, bz)] of two sets: the second one if it is a proper subset of the first *)
Definition set_min (a b : list name) : list name :=
  if forallb (fun x => mem x a) b && existsb (fun x => negb (mem x b)) a then b else a.
(** orient_edges.py:73-75 *)
Definition mb_T (Mb : edict) (X Y Z : name) : res (list name) :=
  do my <- getitem Mb Y ;; do mz <- getitem Mb Z ;;
  Ok (set_min (set_diff my [X; Z]) (set_diff mz [X; Y])).
(** orient_edges.py:79-86: note the guard of the second removal (line 85) *)
Definition mb_try (test : ptest) (alpha : Qc) (X Y Z : name) (E : edict) (s : list name) : res edict :=
  do p <- test (Y :: Z :: X :: s) ;;
  do ex <- getitem E X ;;
  if mem Y ex then (if p_lt p alpha then dremove E X Y else dremove E Y X) else Ok E.
(** orient_edges.py:88-95 *)
Definition mb_try0 (test : ptest) (alpha : Qc) (X Y Z : name) (E : edict) : res edict :=
  do p <- test [Y; Z; X] ;;
  if p_lt p alpha then do ex <- getitem E X ;; if mem Y ex then dremove E X Y else Ok E
  else do ey <- getitem E Y ;; if mem X ey then dremove E Y X else Ok E.
(** orient_edges.py:73-95 *)
Definition mb_meet (o : oracle) (test : ptest) (alpha : Qc) (Mb : edict) (X Y : name) (E : edict) (iZ : nat * name) : res edict :=
  let Z := snd iZ in
  do T <- mb_T Mb X Y Z ;;
  if 0 <? length T
  then foldM (fun E i => foldM (mb_try test alpha X Y Z) (combs (ask (sub (sub o (fst iZ)) (S i)) T) i) E) (seq 0 (length T)) E
  else mb_try0 test alpha X Y Z E.
(** orient_edges.py:69-95: [for Y in edge_dict[X]] by position, while the body changes the list *)
Fixpoint mb_neighbours (fuel : nat) (o : oracle) (test : ptest) (alpha : Qc) (Mb : edict) (X : name) (pos : nat) (E : edict) : res edict :=
  match fuel with
  | 0 => Raise OutOfFuel
  | S f =>
      do ex <- getitem E X ;;
      match nth_error ex pos with
      | None => Ok E
      | Some Y =>
          do ey <- getitem E Y ;;
          let nxy := ask (sub o pos) (set_diff ex (Y :: ey)) in
          do E' <- foldM (mb_meet (sub o pos) test alpha Mb X Y) (enum nxy) E ;;
          mb_neighbours f o test alpha Mb X (S pos) E'
      end
  end.
Definition orient_edges_MB (o : oracle) (test : ptest) (alpha : Qc) (Mb E : edict) : res edict :=
  foldM (fun E iX => mb_neighbours (S (length (succs E (snd iX)))) (sub o (fst iX)) test alpha Mb (snd iX) 0 E)
    (enum (dkeys E)) E.

(** ** gs: grow_shrink.py:89-158 *)
(** grow_shrink.py:109-117: one pass of the grow phase; the flag is grow_condition *)
Definition grow_pass (test : ptest) (alpha : Qc) (n : nat) (X : name) (s0 : list name) : res (list name * bool) :=
  foldM (fun (st : list name * bool) Y =>
    if name_eqb X Y || mem Y (fst st) then Ok st else
    do p <- test (X :: Y :: fst st) ;;
    Ok (if p_lt p alpha then (fst st ++ [Y], true) else st)) (columns n) (s0, false).
(** grow_shrink.py:105-117 *)
Fixpoint grow (fuel : nat) (test : ptest) (alpha : Qc) (n : nat) (X : name) (s : list name) : res (list name) :=
  match fuel with
  | 0 => Raise OutOfFuel
  | S f =>
      do st <- grow_pass test alpha n X s ;;
      if snd st then grow f test alpha n X (fst st) else Ok (fst st)
  end.
(** grow_shrink.py:122-134: one pass of the shrink phase: TEMP_S and shrink_condition *)
Definition shrink_pass (test : ptest) (alpha : Qc) (X : name) (s : list name) : res (list name * bool) :=
  foldM (fun (st : list name * bool) Y =>
    do p <- test (X :: Y :: remove1 Y s) ;;
    Ok (if p_lt p alpha then (fst st ++ [Y], snd st) else (fst st, true))) s ([], false).
(** grow_shrink.py:119-134: S is never assigned in the loop *)
Fixpoint shrink (fuel : nat) (test : ptest) (alpha : Qc) (X : name) (s : list name) : res (list name) :=
  match fuel with
  | 0 => Raise OutOfFuel
  | S f =>
      do st <- shrink_pass test alpha X s ;;
      if snd st then shrink f test alpha X s else Ok (fst st)
  end.
(** grow_shrink.py:100-136: the blankets of the columns _T; [fuel] bounds the shrink loop *)
Definition gs_blankets (fuel : nat) (test : ptest) (alpha : Qc) (n : nat) (targets : list name) : res edict :=
  foldM (fun Mb X =>
    do s <- grow (S n) test alpha n X [] ;;
    do T <- shrink fuel test alpha X s ;;
    Ok (dset Mb X T)) targets (edgeless n).
(** feature_selection=None / a column / a list (grow_shrink.py:93-97, iamb.py:91-95) *)
Inductive selection := SelNone | SelOne (v : name) | SelList (l : list name).
(** what gs and iamb return *)
Inductive learned := Net (bn : bayesnet) | Blanket (s : list name).
(** grow_shrink.py:89-158; the test is of the data after replace_strings (data.py), whose
    value_dict is the list of distinct values of each column.  [Mb[_T]] with the list _T as a key
    raises TypeError. *)
Definition gs (fuel : nat) (o : oracle) (test : ptest) (alpha : Qc) (t : table) (sel : selection) : res learned :=
  do vd <- value_dict t ;;
  match sel with
  | SelList _ => Raise AssertionError
  | SelOne v => do Mb <- gs_blankets fuel test alpha (t_ncols t) [v] ;; Raise TypeError
  | SelNone =>
      do Mb <- gs_blankets fuel test alpha (t_ncols t) (columns (t_ncols t)) ;;
      do E <- resolve_markov_blanket test alpha05 (t_ncols t) Mb ;;
      do D <- orient_edges_MB o test alpha Mb E ;;
      do bn <- set_structure D (Some vd) ;; Ok (Net bn)
  end.

(** ** iamb: iamb.py:88-152 *)
(** independence_tests.py:24-29: the answer is True when the p-value is below alpha *)
Definition are_independent (test : ptest) (alpha : Qc) (cols : list name) : res bool :=
  do p <- test cols ;; Ok (p_lt p alpha).
(** iamb.py:109-116: the candidate with the largest mutual information; [mi cols] stands for
    [mi_test(data[:,cols], test=False)]; max_val starts at -1 *)
Definition iamb_best (mi : ptest) (T : name) (Mb cands : list name) : res (Qc * option name) :=
  foldM (fun (st : Qc * option name) X =>
    do v <- mi (X :: T :: Mb) ;;
    Ok (if p_gt v (fst st) then (match v with Some q => q | None => 0%Qc end, Some X) else st)) cands ((- (1))%Qc, None).
(** iamb.py:101-121: the growing phase; line 120 appends the loop variable X, the last candidate *)
Fixpoint iamb_grow (fuel : nat) (o : oracle) (mi test : ptest) (n : nat) (T : name) (Mb : list name) : res (list name) :=
  match fuel with
  | 0 => Raise OutOfFuel
  | S f =>
      let cands := ask (sub o f) (set_diff (columns n) (T :: Mb)) in
      do b <- iamb_best mi T Mb cands ;;
      match snd b with
      | None => Ok Mb
      | Some mx =>
          do d <- are_independent test alpha05 (mx :: T :: Mb) ;;
          if d then iamb_grow f o mi test n T (Mb ++ [last cands mx]) else Ok Mb
      end
  end.
(** iamb.py:126-130: the shrinking phase, removing from the list it iterates over *)
Fixpoint iamb_shrink (fuel : nat) (o : oracle) (test : ptest) (alpha : Qc) (T : name) (pos : nat) (Mb : list name) : res (list name) :=
  match fuel with
  | 0 => Raise OutOfFuel
  | S f =>
      match nth_error Mb pos with
      | None => Ok Mb
      | Some X =>
          do d <- are_independent test alpha (X :: T :: ask (sub o pos) (set_diff Mb [X])) ;;
          do Mb' <- (if d then list_remove Mb X else Ok Mb) ;;
          iamb_shrink f o test alpha T (S pos) Mb'
      end
  end.
(** iamb.py:98-130 *)
Definition iamb_blankets (o : oracle) (mi test : ptest) (alpha : Qc) (n : nat) (targets : list name) : res edict :=
  foldM (fun Mb iT =>
    do m0 <- getitem Mb (snd iT) ;;
    do m1 <- iamb_grow (S n) (sub (sub o (fst iT)) 0) mi test n (snd iT) m0 ;;
    do m2 <- iamb_shrink (S (length m1)) (sub (sub o (fst iT)) 1) test alpha (snd iT) 0 m1 ;;
    Ok (dset Mb (snd iT) m2)) (enum targets) (edgeless n).

(** ** orient_edges_gs2: orient_edges.py:103-119 *)
(** orient_edges.py:107-118: the elements Z in turn, stopping after one that leaves X in d_edge_dict[Y] *)
Fixpoint gs2_meets (o : oracle) (test : ptest) (alpha : Qc) (Mb : edict) (X Y : name) (k : nat) (zs : list name) (d : edict) : res edict :=
  match zs with
  | [] => Ok d
  | Z :: r =>
      do d1 <- put d X Y ;;
      do T <- mb_T Mb X Y Z ;;
      do d2 <- foldM (fun d i => foldM (fun d s =>
                 do p <- test (Y :: Z :: X :: s) ;;
                 do dy <- getitem d Y ;;
                 if p_lt p alpha && mem X dy then dremove d Y X else Ok d)
               (combs (ask (sub (sub o k) (S i)) T) i) d) (seq 0 (length T)) d1 ;;
      do dy <- getitem d2 Y ;;
      if mem X dy then Ok d2 else gs2_meets o test alpha Mb X Y (S k) r d2
  end.
Definition orient_edges_gs2 (o : oracle) (test : ptest) (alpha : Qc) (Mb E : edict) : res edict :=
  foldM (fun d iX =>
    do ex <- getitem E (snd iX) ;;
    foldM (fun d iY =>
      do ey <- getitem E (snd iY) ;;
      let o' := sub (sub o (fst iX)) (fst iY) in
      gs2_meets o' test alpha Mb (snd iX) (snd iY) 1 (ask (sub o' 0) (set_diff ex (snd iY :: ey))) d) (enum ex) d)
    (enum (dkeys E)) (map (fun x => (x, [])) (dkeys E)).
(** iamb.py:88-152 *)
Definition iamb (o : oracle) (mi test : ptest) (alpha : Qc) (t : table) (sel : selection) : res learned :=
  match sel with
  | SelList _ => Raise AssertionError
  | SelOne v => do Mb <- iamb_blankets (sub o 0) mi test alpha (t_ncols t) [v] ;; Raise TypeError
  | SelNone =>
      do Mb <- iamb_blankets (sub o 0) mi test alpha (t_ncols t) (columns (t_ncols t)) ;;
      do E <- resolve_markov_blanket test alpha05 (t_ncols t) Mb ;;
      do D <- orient_edges_gs2 (sub o 1) test alpha Mb E ;;
      do vd <- value_dict t ;;
      do bn <- set_structure D (Some vd) ;; Ok (Net bn)
  end.
