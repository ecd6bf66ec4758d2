(** DataUtils.v -- model of pyBN/utils/data.py, pyBN/utils/discretize.py and of how
    pyBN/utils/independence_tests.py turns columns into histograms.

    numpy.histogramdd and numpy.linspace are represented by exact arithmetic: the edges are
    equally spaced from the smallest to the largest entry, an entry belongs to the bin whose left
    edge it reaches, the last bin contains its right edge. *)
From Verif Require Import Py Num BayesNet Data IO StructScore SpecConstraint SpecData.
From Coq Require Import Ascii.
Open Scope nat_scope.

(** int(s) for a string of digits; [Raise ValueError] otherwise *)
Definition digit (c : ascii) : option nat :=
  let n := nat_of_ascii c in if (48 <=? n) && (n <=? 57) then Some (n - 48) else None.
Fixpoint int_acc (s : string) (acc : nat) : res nat :=
  match s with
  | EmptyString => Ok acc
  | String c r => match digit c with Some d => int_acc r (acc * 10 + d) | None => Raise ValueError end
  end.
Definition py_int (s : string) : res nat := match s with EmptyString => Raise ValueError | _ => int_acc s 0 end.

(** ** data.py *)
(** data.py:29: [data[:,i] = ret] on an array of dtype 'S<w>' ([Some w]) keeps the first w
    characters of str(code), which data.py:33-36 converts to int again; an integer array ([None])
    keeps the code *)
Definition put_code (w : option nat) (i : nat) : res nat :=
  match w with None => Ok i | Some k => py_int (substring 0 k (str_nat i)) end.
(** data.py:15-36  replace_strings(data, return_values=True).  The cells are written column by
    column; each depends on its own column only. *)
Definition replace_strings (w : option nat) (t : table) : res (table * dict (list name)) :=
  do vd <- mapM (fun i => do c <- column t i ;; Ok (NInt i, np_unique c)) (seq 0 (t_ncols t)) ;;
  do rows <- mapM (fun r => mapM (fun i => do x <- nget r i ;; do vals <- getitem vd (NInt i) ;; do k <- list_index vals x ;;
                                           do c <- put_code w k ;; Ok (NInt c)) (seq 0 (t_ncols t))) (t_rows t) ;;
  Ok (mkT (t_ncols t) rows, vd).
(** data.py:38-46  unique_bins *)
Definition unique_bins (t : table) : res (list nat) :=
  mapM (fun i => do c <- column t i ;; Ok (length (np_unique c))) (seq 0 (t_ncols t)).

(** ** discretize.py *)
(** np.linspace(a, b, n) *)
Definition linspace (a b : Qc) (n : nat) : list Qc :=
  map (fun i => (a + nQc i * (b - a) / nQc (n - 1))%Qc) (seq 0 n).
(** np.digitize(x, edges) for increasing edges: the number of edges that x reaches *)
Definition digitize (edges : list Qc) (x : Qc) : nat := length (filter (fun e => negb (qltb x e)) edges).
Definition qmin_list (l : list Qc) : Qc := match l with [] => 0%Qc | x :: r => fold_left (fun a b => if qltb b a then b else a) r x end.
Definition qmax_list (l : list Qc) : Qc := match l with [] => 0%Qc | x :: r => fold_left (fun a b => if qltb a b then b else a) r x end.
(** conversion of a float to int32: towards zero *)
Definition truncz (q : Qc) : Z := Z.quot (Qnum (this q)) (Zpos (Qden (this q))).
Definition qcolumn (rows : list (list Qc)) (c : nat) : res (list Qc) := mapM (fun r => nget r c) rows.
(** discretize.py:75-82: the loop over the columns; the minima and maxima are those of the data
    passed in *)
Definition discretize_col (bins : list nat) (minmax : list (Qc * Qc)) (rows : list (list Qc)) (c : nat) : res (list (list Qc)) :=
  do mm <- nget minmax c ;;
  do n <- nget bins c ;;
  mapM (fun r => do x <- nget r c ;; Ok (upd_nth c (nQc (digitize (linspace (fst mm) (snd mm) n) x)) r)) rows.
(** discretize.py:19-84 for a two-dimensional array with [ncols] columns.  (A one-dimensional
    array raises IndexError on line 62 or 70, where only ValueError is caught.)  np.amin of no rows raises ValueError (unless there
    are no columns either, which is not modelled). *)
Definition discretize (ncols : nat) (rows : list (list Qc)) (cols bins : option (list nat)) : res (list (list Z)) :=
  let bins := match bins with Some b => b | None => repeat 5 ncols end in
  let cols := match cols with Some c => c | None => seq 0 ncols end in
  if length rows =? 0 then Raise ValueError else
  do mm <- mapM (fun c => do l <- qcolumn rows c ;; Ok (qmin_list l, qmax_list l)) (seq 0 ncols) ;;
  do out <- foldM (discretize_col bins mm) cols rows ;;
  Ok (map (map truncz) out).

(** ** independence_tests.py: histograms *)
Definition as_ints (l : list name) : res (list nat) :=
  mapM (fun x => match x with NInt n => Ok n | NStr _ => Raise TypeError end) l.
Definition select (t : table) (cols : list name) : res (list (list nat)) :=
  mapM (fun c => match c with NInt i => do l <- column t i ;; as_ints l | NStr _ => Raise IndexError end) cols.
Definition nmin_list (l : list nat) : nat := match l with [] => 0 | x :: r => fold_left Nat.min r x end.
Definition nmax_list (l : list nat) : nat := fold_left Nat.max l 0.
(** the bin of x among n equal bins of [lo, hi] (numpy widens an empty range by 1/2 each side) *)
Definition bin_of (lo hi n x : nat) : nat :=
  if lo =? hi then n / 2 else Nat.min (n - 1) ((x - lo) * n / (hi - lo)).
Definition binned (n : nat) (l : list nat) : list nat := map (bin_of (nmin_list l) (nmax_list l) n) l.
(** the rows of a list of columns *)
Fixpoint transpose (N : nat) (cs : list (list nat)) : list (list nat) :=
  match cs with
  | [] => repeat [] N
  | c :: r => map (fun xr => fst xr :: snd xr) (combine c (transpose N r))
  end.
(** the counts: np.histogramdd(data, bins)[0], flattened *)
Definition row_eqb (a b : list nat) : bool := if list_eq_dec Nat.eq_dec a b then true else false.
Definition hist (N : nat) (bins : list nat) (cs : list (list nat)) : res (list nat) :=
  if existsb (Nat.eqb 0) bins then Raise ValueError else
  let rows := transpose N (map (fun bc => binned (fst bc) (snd bc)) (combine bins cs)) in
  Ok (map (fun i => length (filter (row_eqb i) rows)) (tuples bins)).
(** len(np.unique(col)) *)
Definition nunique (l : list nat) : nat := length (nodup Nat.eq_dec l).
(** independence_tests.py:54-59, 85-89, 190-195: [data.astype('str')], the columns joined row by row,
    [astype('int')].  Simplification: the string array is wide enough for the joined string and
    the number fits into an int64 (at most 18 single-digit columns). *)
Fixpoint join_digits (l : list nat) : string :=
  match l with [] => EmptyString | x :: r => (str_nat x ++ join_digits r)%string end.
Definition merge (N : nat) (cs : list (list nat)) : res (list nat) := mapM (fun r => py_int (join_digits r)) (transpose N cs).

(** independence_tests.py:31-101  mutual_information(data[:,cols]).  [F bins hist] stands for the
    number computed from the histogram (lines 36-38, 43-51, 93-101), including its rounding;
    [None] is nan.  With three columns or more, columns 1.. are merged into one but the numbers
    of bins stay those of the first two columns. *)
Definition mutual_information {A} (F : list nat -> list nat -> A) (t : table) (cols : list name) : res A :=
  let N := length (t_rows t) in
  do cs <- select t cols ;;
  let bins := map nunique cs in
  match cs with
  | [] => Raise TypeError
  | [_] | [_; _] => do h <- hist N bins cs ;; Ok (F bins h)
  | x :: rest => do m <- merge N rest ;; do h <- hist N (firstn 2 bins) [x; m] ;; Ok (F (firstn 2 bins) h)
  end.
(** independence_tests.py:105-226  mi_test(data[:,cols]).  [G bins hist N] stands for lines 173-187
    and 201-226.  With four columns or more, columns 2.. are merged and the bins recomputed. *)
Definition mi_test {A} (G : list nat -> list nat -> nat -> A) (t : table) (cols : list name) : res A :=
  let N := length (t_rows t) in
  do cs <- select t cols ;;
  match cs with
  | [] | [_] => Raise ValueError
  | [_; _] | [_; _; _] => let bins := map nunique cs in do h <- hist N bins cs ;; Ok (G bins h N)
  | x :: y :: rest => do m <- merge N rest ;; let cs' := [x; y; m] in let bins := map nunique cs' in do h <- hist N bins cs' ;; Ok (G bins h N)
  end.

(** independence_tests.py:52-83 mutual_information(data[:,cols], conditional=True) with three columns or
    more: [F bins hist] stands for lines 64-82.  Columns 2.. are merged when there are four or more.
    The numbers of bins are the largest codes (np.amax, line 61), not the numbers of levels. *)
Definition merge3 (N : nat) (cs : list (list nat)) : res (list (list nat)) :=
  match cs with
  | x :: y :: z :: z' :: rest => do m <- merge N (z :: z' :: rest) ;; Ok [x; y; m]
  | _ => Ok cs
  end.
(** np.amax of no rows raises ValueError *)
Definition hist_amax (N : nat) (cs : list (list nat)) : res (list nat * list nat) :=
  if N =? 0 then Raise ValueError else
  let bins := map nmax_list cs in do h <- hist N bins cs ;; Ok (bins, h).
Definition conditional_mi {A} (F : list nat -> list nat -> A) (t : table) (cols : list name) : res A :=
  let N := length (t_rows t) in
  do cs <- select t cols ;;
  match cs with
  | [] => Raise TypeError
  | [_] | [_; _] => do h <- hist N (map nunique cs) cs ;; Ok (F (map nunique cs) h)
  | _ => do cs' <- merge3 N cs ;; do bh <- hist_amax N cs' ;; Ok (F (fst bh) (snd bh))
  end.
(** independence_tests.py:228-305  entropy of a two-dimensional array with the columns [cs]; [H bins
    hist] stands for the number computed from the histogram, rounded *)
Definition entropy_cols {A} (H : list nat -> list nat -> A) (N : nat) (cs : list (list nat)) : res A :=
  match cs with
  | [] => Raise ValueError
  | [_] | [_; _] => let bins := map nunique cs in do h <- hist N bins cs ;; Ok (H bins h)
  | _ => do cs' <- merge3 N cs ;; do bh <- hist_amax N cs' ;; Ok (H (fst bh) (snd bh))
  end.
Definition entropy {A} (H : list nat -> list nat -> A) (t : table) (cols : list name) : res A :=
  do cs <- select t cols ;; entropy_cols H (length (t_rows t)) cs.
(** entropy of a one-dimensional array: data.T has one scalar per row, so [bins] is N ones; unless
    N = 1, np.histogramdd raises AttributeError (bins has another length than the sample's dimension 1) *)
Definition entropy_1d {A} (H : list nat -> list nat -> A) (t : table) (c : name) : res A :=
  do cs <- select t [c] ;;
  match cs with
  | [x] => if length (t_rows t) =? 1 then do h <- hist 1 [1] [x] ;; Ok (H [1] h) else Raise AttributeError
  | _ => Raise ValueError
  end.
(** independence_tests.py:307-345  mi_from_en(data[:,cols]).  With one column MI is never assigned.
    [rnd] is round(., 4). *)
Definition osub (a b : option Qc) : option Qc := match a, b with Some x, Some y => Some (x - y)%Qc | _, _ => None end.
Definition mi_from_en (H : list nat -> list nat -> option Qc) (rnd : option Qc -> option Qc) (t : table) (cols : list name) : res (option Qc) :=
  let N := length (t_rows t) in
  match cols with
  | [] => Raise ValueError
  | [_] => Raise UnboundLocalError
  | [x; y] => do a <- entropy_1d H t x ;; do b <- entropy H t [x; y] ;; Ok (rnd (osub a b))
  | _ => do cs <- select t cols ;; do cs' <- merge3 N cs ;;
         match cs' with
         | [x; y; z] => do a <- entropy_cols H N [x; z] ;; do b <- entropy_cols H N [x; y; z] ;; Ok (rnd (osub a b))
         | _ => Raise IndexError
         end
  end.
(** independence_tests.py:349-414  chi2_test: [Pxy_z] (line 402) is not defined anywhere *)
Definition chi2_test (t : table) (cols : list name) : res (Qc * Qc) :=
  do cs <- select t cols ;;
  do _ <- hist (length (t_rows t)) (map nunique cs) cs ;;
  if length cols <? 2 then Raise ValueError else Raise NameError.
