(** SpecData.v -- what the statements about data utilities talk about, independent of the code. *)
From Verif Require Import Py Num Data SpecLearn.
Open Scope nat_scope.

(** the entry in row r, column i *)
Definition cell (t : table) (r i : nat) : option name := match nth_error (t_rows t) r with Some row => nth_error row i | None => None end.
(** a column of integer codes; a column of zeros and ones *)
Definition coded (t : table) (v : name) : Prop := exists i, v = NInt i /\ i < t_ncols t /\ forall r x, cell t r i = Some x -> exists n, x = NInt n.
Definition binary (t : table) (v : name) : Prop := exists i, v = NInt i /\ i < t_ncols t /\ forall r x, cell t r i = Some x -> x = NInt 0 \/ x = NInt 1.
(** the distinct values of a column *)
Definition occurs (t : table) (i : nat) (x : name) : Prop := exists r, cell t r i = Some x.

(** column [v] contains exactly the integers a, .., a+k-1 *)
Definition consecutive (t : table) (v : name) (ak : nat * nat) : Prop :=
  exists i, v = NInt i /\ i < t_ncols t /\ forall x, occurs t i x <-> exists n, x = NInt n /\ fst ak <= n < fst ak + snd ak.
(** column [v] contains one-digit integers *)
Definition one_digit (t : table) (v : name) : Prop := exists i, v = NInt i /\ i < t_ncols t /\ forall r x, cell t r i = Some x -> exists n, x = NInt n /\ n < 10.
(** all tuples of indices below [bins], in row-major order *)
Fixpoint tuples (bins : list nat) : list (list nat) :=
  match bins with
  | [] => [[]]
  | n :: r => flat_map (fun i => map (cons i) (tuples r)) (seq 0 n)
  end.
(** the contingency table of the columns [cols], with first level and number of levels given by [ranges]: for every
    tuple of levels the number of rows with these levels *)
Definition contingency (t : table) (cols : list name) (ranges : list (nat * nat)) : list nat :=
  map (fun idx => rows_with t (combine cols (map (fun p => NInt (fst (fst p) + snd p)) (combine ranges idx)))) (tuples (map snd ranges)).

(** [z] is [x] truncated towards zero *)
Definition toward_zero (x : Qc) (z : Z) : Prop :=
  let zq := Q2Qc (inject_Z z) in ((0 <= x -> 0 <= zq /\ zq <= x /\ x < zq + 1) /\ (x <= 0 -> zq <= 0 /\ x <= zq /\ zq - 1 < x))%Qc.
(** [n] points from lo to hi, equally spaced *)
Definition point (lo hi : Qc) (n i : nat) : Qc := (lo + nQc i * ((hi - lo) / nQc (n - 1)))%Qc.
(** code [k] (counting from 1): at least the k-th point, below the next one *)
Definition in_interval (lo hi : Qc) (n k : nat) (x : Qc) : Prop :=
  1 <= k <= n /\ (point lo hi n (k - 1) <= x)%Qc /\ (k < n -> (x < point lo hi n k)%Qc).
Definition qcell {A} (rows : list (list A)) (r c : nat) : option A := match nth_error rows r with Some row => nth_error row c | None => None end.
Definition is_min (l : list Qc) (m : Qc) : Prop := In m l /\ forall x, In x l -> (m <= x)%Qc.
Definition is_max (l : list Qc) (m : Qc) : Prop := In m l /\ forall x, In x l -> (x <= m)%Qc.
(** the product of all numbers but the i-th *)
Definition others (bins : list nat) (i : nat) : nat := fold_right Nat.mul 1 (firstn i bins ++ skipn (S i) bins).
