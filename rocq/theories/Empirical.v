(** Empirical.v -- model of pyBN/classes/empiricaldistribution.py.
    An object is a record; a method call returns its result and the object after the call. *)
From Verif Require Import Py Num BayesNet Data SpecConstraint SpecData DataUtils.
Open Scope nat_scope.

Record empirical := mkED { ed_names : list name; ed_nrow : nat; ed_nvar : nat; ed_bins : list nat;
                           ed_counts : list nat; ed_joint : list Qc; ed_cache : dict (list Qc) }.
(** empiricaldistribution.py:37-61  __init__.  Line 40 reads self.NVAR before line 44 sets it.  The arrays are flattened
    in row-major order. *)
Definition new_empirical (t : table) (names : option (list name)) : res empirical :=
  match names with
  | Some _ => Raise AttributeError
  | None =>
      let n := t_ncols t in let N := length (t_rows t) in
      do cs <- select t (columns n) ;;
      let bins := map nunique cs in
      do h <- hist N bins cs ;;
      Ok (mkED (columns n) N n bins h (map (fun c => (nQc c / nQc (list_sum h) + Q2Qc (1 # 1000))%Qc) h) [])
  end.
(** the arguments of cpd: a name, a tuple of names, a list *)
Inductive arg := ArgName (v : name) | ArgTuple (l : list name) | ArgList (l : list name).
(** what a caller can do with an object; [CNames l] is the assignment ed.names = l *)
Inductive call := CMpd (rv : name) | CJpd (rvs : list name) | CCpd (lhs rhs : arg) | CMi | CIdx (rv : name) | CIdxMap (rvs : list name) | CBayesCounts | CAxisTuple | CNames (l : list name).
Inductive answer := ANone | AArray (l : list Qc) | AIndex (i : nat).
(** empiricaldistribution.py:85-86: [_axis = range(NVAR); _axis.remove(self.idx(rv))], then np.sum over the axes left *)
Definition marginal_of (ed : empirical) (rv : name) : res (list Qc) :=
  do i <- list_index (ed_names ed) rv ;;
  if i <? ed_nvar ed then
    Ok (map (fun k => qsum (map snd (filter (fun p => nth i (fst p) 0 =? k) (combine (tuples (ed_bins ed)) (ed_joint ed))))) (seq 0 (nth i (ed_bins ed) 0)))
  else Raise ValueError.
(** empiricaldistribution.py:77-90  mpd *)
Definition mpd (ed : empirical) (rv : name) : res answer * empirical :=
  match rv with
  | NInt _ => (Raise AssertionError, ed)
  | NStr _ =>
      match dget (ed_cache ed) rv with
      | Some a => (Ok (AArray a), ed)
      | None =>
          match marginal_of ed rv with
          | Ok a => (Ok (AArray a), mkED (ed_names ed) (ed_nrow ed) (ed_nvar ed) (ed_bins ed) (ed_counts ed) (ed_joint ed) (dset (ed_cache ed) rv a))
          | Raise e => (Raise e, ed)
          end
      end
  end.
(** empiricaldistribution.py:92-100  jpd: line 93 reads the undefined name args *)
Definition jpd (ed : empirical) (rvs : list name) : res answer := Raise NameError.
(** empiricaldistribution.py:102-119  cpd: the key (lhs, rhs) is never in the cache, whose keys are the arguments of mpd;
    a list on the left cannot be hashed; otherwise line 117 calls jpd *)
Definition cpd (ed : empirical) (lhs rhs : arg) : res answer :=
  match rhs with
  | ArgTuple r =>
      match lhs with
      | ArgList _ => Raise TypeError
      | ArgTuple l => jpd ed (l ++ r)
      | ArgName v => jpd ed (v :: r)
      end
  | _ => Raise AssertionError
  end.
(** empiricaldistribution.py:131: data is assigned later in the function, so it is a local without a value *)
Definition mi : res answer := Raise UnboundLocalError.
(** one call: empiricaldistribution.py:63-75 for the rest *)
Definition run_call (ed : empirical) (c : call) : res answer * empirical :=
  match c with
  | CMpd rv => mpd ed rv
  | CJpd rvs => (jpd ed rvs, ed)
  | CCpd l r => (cpd ed l r, ed)
  | CMi => (mi, ed)
  | CIdx rv => (do i <- list_index (ed_names ed) rv ;; Ok (AIndex i), ed)
  | CIdxMap _ => (Raise NameError, ed)
  | CBayesCounts | CAxisTuple => (Ok ANone, ed)
  | CNames l => (Ok ANone, mkED l (ed_nrow ed) (ed_nvar ed) (ed_bins ed) (ed_counts ed) (ed_joint ed) (ed_cache ed))
  end.
(** a history of calls *)
Definition run_calls (ed : empirical) (h : list call) : empirical := fold_left (fun ed c => snd (run_call ed c)) h ed.
