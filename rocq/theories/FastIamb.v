(** FastIamb.v -- model of pyBN/learning/structure/constraint/{fast_iamb,lambda_iamb}.py.
    [test cols] stands for [mi_test(data[:,cols])] of the data after replace_strings (see Constraint.v); the same number, a
    p-value, is what fast_iamb sorts by.  Sets of columns are iterated in an order given by an oracle; sorted(..., key=..)
    is represented by an arbitrary order as well. *)
From Verif Require Import Py Num BayesNet Graph Data ParamLearn StructScore SpecConstraint Constraint DataUtils.
Open Scope nat_scope.

(** fast_iamb.py:97-99: [for A in S: if not are_independent(..): S.remove(A)].  CPython's set iterator raises RuntimeError at the
    first step at which the set does not have the size it had at the start, also after the last element. *)
Fixpoint fi_screen (test : ptest) (T : name) (size : nat) (todo : list name) (cur : list name) : res (list name) :=
  if negb (length cur =? size) then Raise RuntimeErr else
  match todo with
  | [] => Ok cur
  | A :: r => do d <- are_independent test alpha05 [A; T] ;; fi_screen test T size r (if d then cur else remove1 A cur)
  end.
(** fast_iamb.py:110: N / card[x_i]*card[T]*np.prod([card[b] for b in Mb[T]]) >= k *)
Definition fi_enough (N : nat) (card : dict nat) (k : Qc) (T x : name) (Mb : list name) : res bool :=
  do cx <- getitem card x ;; if cx =? 0 then Raise ZeroDivisionError else
  do ct <- getitem card T ;; do cs <- mapM (getitem card) Mb ;;
  Ok (negb (qltb (nQc N / nQc cx * nQc ct * nQc (fold_right Nat.mul 1%nat cs))%Qc k)).
(** fast_iamb.py:108-114: the blanket and insufficient_data *)
Fixpoint fi_grow (N : nat) (card : dict nat) (k : Qc) (T : name) (order Mb : list name) : res (list name * bool) :=
  match order with
  | [] => Ok (Mb, false)
  | x :: r => do b <- fi_enough N card k T x Mb ;; if b then fi_grow N card k T r (Mb ++ [x]) else Ok (Mb, true)
  end.
(** fast_iamb.py:117-123: removing from the list it iterates over; the blanket and removed_vars *)
Fixpoint fi_shrink (fuel : nat) (o : oracle) (test : ptest) (T : name) (pos : nat) (Mb : list name) (removed : bool) : res (list name * bool) :=
  match fuel with
  | 0 => Raise OutOfFuel
  | S f =>
      match nth_error Mb pos with
      | None => Ok (Mb, removed)
      | Some A =>
          do d <- are_independent test alpha05 (A :: T :: ask (sub o pos) (set_diff Mb [A])) ;;
          if d then do Mb' <- list_remove Mb A ;; fi_shrink f o test T (S pos) Mb' true
          else fi_shrink f o test T (S pos) Mb removed
      end
  end.
(** fast_iamb.py:101-137: the while loop; [fuel] bounds the passes *)
Fixpoint fi_loop (fuel : nat) (o : oracle) (test : ptest) (N : nat) (card : dict nat) (k : Qc) (n : nat) (T : name) (cand Mb : list name) : res (list name) :=
  match cand with
  | [] => Ok Mb
  | _ :: _ =>
      match fuel with
      | 0 => Raise OutOfFuel
      | S f =>
          let o' := sub o f in
          do _ <- mapM (fun s => test (s :: T :: Mb)) cand ;;
          do g <- fi_grow N card k T (ask (sub o' 0) cand) Mb ;;
          do m <- fi_shrink (S (length (fst g))) (sub o' 1) test T 0 (fst g) false ;;
          if snd g && negb (snd m) then Ok (fst m) else
          let A := ask (sub o' 2) (set_diff (columns n) (T :: fst m)) in
          do fl <- mapM (fun a => do d <- are_independent test alpha05 (a :: T :: fst m) ;; Ok (a, d)) A ;;
          fi_loop f o test N card k n T (map fst (filter snd fl)) (fst m)
      end
  end.
(** fast_iamb.py:95-139: the targets *)
Definition fi_blankets (fuel : nat) (o : oracle) (test : ptest) (N : nat) (card : dict nat) (k : Qc) (n : nat) (targets : list name) : res edict :=
  foldM (fun Mb iT =>
    let T := snd iT in let o' := sub o (fst iT) in
    let s0 := ask (sub o' 0) (set_diff (columns n) [T]) in
    do s <- fi_screen test T (length s0) s0 s0 ;;
    do m0 <- getitem Mb T ;;
    do m <- fi_loop fuel (sub o' 1) test N card k n T s m0 ;;
    Ok (dset Mb T m)) (enum targets) (edgeless n).
(** fast_iamb.py:77-153.  resolve_markov_blanket is not imported (line 143: NameError); line 153 uses the list _T as a key.
    A target that is no column is refused by [test] (IndexError) or by the dict (KeyError). *)
Definition fast_iamb (fuel : nat) (o : oracle) (test : ptest) (w : option nat) (t : table) (k : Qc) (sel : selection) : res learned :=
  do vd <- value_dict t ;;
  do dv <- replace_strings w t ;;
  do bins <- unique_bins (fst dv) ;;
  let n := t_ncols t in
  let card := combine (columns n) bins in
  let N := length (t_rows t) in
  match sel with
  | SelList _ => Raise AssertionError
  | SelOne v => do Mb <- fi_blankets fuel o test N card k n [v] ;; Raise TypeError
  | SelNone => do Mb <- fi_blankets fuel o test N card k n (columns n) ;; Raise NameError
  end.

(** lambda_iamb.py:52-119.  Mb maps every column to a dict, and a set minus a dict (line 77) is a TypeError: the loop fails at
    the first target, after [entropy(data[:,(T,)])] (line 71).  Without a target resolve_markov_blanket is not defined (line 106). *)
Definition lambda_iamb (ent : ptest) (t : table) (sel : selection) : res learned :=
  let Mb := edgeless (t_ncols t) in
  let body T := do m <- getitem Mb T ;; do H <- ent [T] ;; Raise TypeError in
  match sel with
  | SelList _ => Raise AssertionError
  | SelOne v => body v
  | SelNone => match columns (t_ncols t) with [] => Raise NameError | T :: _ => body T end
  end.
