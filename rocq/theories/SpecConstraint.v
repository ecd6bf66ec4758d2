(** SpecConstraint.v -- what constraint-based structure learning talks about, independent of the code. *)
From Verif Require Import Py Num BayesNet SpecGraph.
Open Scope nat_scope.

(** An independence test: the p-value of the first two columns of the list given the others;
    [None] is nan. *)
Definition ptest := list name -> res (option Qc).
(** the test accepts / rejects independence of x and y given z at level alpha (NOTE in
    independence_tests.py: a small p-value means dependence) *)
Definition indep (test : ptest) (alpha : Qc) (x y : name) (z : list name) : Prop :=
  exists p, test (x :: y :: z) = Ok (Some p) /\ (alpha < p)%Qc.
Definition dep (test : ptest) (alpha : Qc) (x y : name) (z : list name) : Prop :=
  exists p, test (x :: y :: z) = Ok (Some p) /\ (p < alpha)%Qc.
(** the test gives an answer (possibly nan) for every list of columns *)
Definition answers (test : ptest) : Prop := forall cols, exists p, test cols = Ok p.
(** the columns 0 .. n-1 of a data table *)
Definition columns (n : nat) : list name := map NInt (seq 0 n).
(** [z] is [l] with some elements left out *)
Inductive sublist : list name -> list name -> Prop :=
| sub_nil l : sublist [] l
| sub_take x z l : sublist z l -> sublist (x :: z) (x :: l)
| sub_skip x z l : sublist z l -> sublist z (x :: l).

(** an undirected graph over [nodes] kept as a dict of neighbour lists *)
Record adjacency (nodes : list name) (E : dict (list name)) : Prop := {
  ad_keys : dkeys E = nodes;
  ad_lists : forall x l, dget E x = Some l -> NoDup l /\ incl l nodes;
  ad_irrefl : forall x, ~ edge E x x;
  ad_sym : forall x y, edge E x y -> edge E y x }.
(** [z] separates [x] and [y]: a set of other columns given which the test accepts independence *)
Definition separates (test : ptest) (alpha : Qc) (nodes : list name) (x y : name) (z : list name) : Prop :=
  z <> [] /\ NoDup z /\ incl z nodes /\ ~ In x z /\ ~ In y z /\ (indep test alpha x y z \/ indep test alpha y x z).
(** an uncoupled meeting x - z - y *)
Definition meeting (E : dict (list name)) (x z y : name) : Prop :=
  edge E x z /\ edge E z y /\ y <> x /\ ~ edge E x y /\ ~ edge E y x.
(** [s] is the separating set recorded for x and y *)
Definition recorded (B : dict (dict (list name))) (x y : name) (s : list name) : Prop :=
  exists b, dget B x = Some b /\ dget b y = Some s.
(** every edge of D is an edge of E *)
Definition sub_edges (D E : dict (list name)) : Prop := forall x y, edge D x y -> edge E x y.

(** [S] is a Markov blanket of [x] among [nodes] as far as the test can tell: x depends on every
    member given the other members, and on no other column given [S].  ([list_remove]-free:
    [y] is the only element left out.) *)
Definition rest_of (S : list name) (y : name) (r : list name) : Prop := exists a b, S = a ++ y :: b /\ r = a ++ b.
Definition blanket (test : ptest) (alpha : Qc) (nodes : list name) (x : name) (S : list name) : Prop :=
  NoDup S /\ incl S nodes /\ ~ In x S /\
  (forall y r, rest_of S y r -> dep test alpha x y r) /\
  (forall y, In y nodes -> y <> x -> ~ In y S -> ~ dep test alpha x y S).

(** ** resolving blankets *)
(** the blanket, of x without y or of y without x, that has fewer elements (that of y if equally many) *)
Definition smaller_blanket (Mb : dict (list name)) (x y : name) (T : list name) : Prop :=
  exists mx my, dget Mb x = Some mx /\ dget Mb y = Some my /\
    T = if length mx <? length my then filter (fun v => negb (name_eqb v y)) mx else filter (fun v => negb (name_eqb v x)) my.
(** y is in x's blanket and the test accepts independence given no set s smaller than T *)
Definition linked (test : ptest) (alpha : Qc) (Mb : dict (list name)) (x y : name) : Prop :=
  edge Mb x y /\ forall T, smaller_blanket Mb x y T -> forall s, sublist s T -> length s < length T -> ~ indep test alpha x y s.
(** what Margaritis' rule asks for: dependence given every subset of T, T included *)
Definition linked_full (test : ptest) (alpha : Qc) (Mb : dict (list name)) (x y : name) : Prop :=
  edge Mb x y /\ forall T, smaller_blanket Mb x y T -> forall s, sublist s T -> ~ indep test alpha x y s.

(** the edge x -> y belongs to an uncoupled meeting y - x - z *)
Definition uncoupled (E : dict (list name)) (x y : name) : Prop := edge E x y /\ exists z, edge E x z /\ z <> y /\ ~ edge E y z.

(** the test does not care in which order the conditioning columns are given *)
Definition order_free (test : ptest) : Prop := forall x y s s', Permutation s s' -> test (x :: y :: s) = test (x :: y :: s').
(** the set from which the conditioning sets of a meeting y - x - z are drawn: of the blankets of y
    (without x, z) and of z (without x, y), the one of z if it is a proper subset, else the one of y *)
Definition compared (Mb : dict (list name)) (x y z : name) (T : list name) : Prop :=
  exists by_ bz, (forall v, In v by_ <-> edge Mb y v /\ v <> x /\ v <> z) /\ (forall v, In v bz <-> edge Mb z v /\ v <> x /\ v <> y) /\
    ((incl bz by_ /\ ~ incl by_ bz /\ T = bz) \/ (~ (incl bz by_ /\ ~ incl by_ bz) /\ T = by_)).
(** the test finds y and z dependent given x and some proper subset of that set, which is listed in the order
    [L i] when its subsets of size i are drawn *)
Definition listings (Mb : dict (list name)) (x y z : name) (L : nat -> list name) : Prop :=
  exists T, NoDup T /\ compared Mb x y z T /\ forall i, Permutation (L i) T.
Definition dependent_meeting (test : ptest) (alpha : Qc) (x y z : name) (L : nat -> list name) : Prop :=
  exists s, sublist s (L (length s)) /\ length s < length (L (length s)) /\ dep test alpha y z (x :: s).
(** column x comes before column y *)
Definition earlier (x y : name) : Prop := exists i j, x = NInt i /\ y = NInt j /\ i < j.

(** ** growing a blanket by association *)
(** [mx] is a candidate of largest mutual information with T given m (among those above -1) *)
Definition best_candidate (mi : ptest) (T : name) (m cands : list name) (mx : name) : Prop :=
  In mx cands /\ exists v, mi (mx :: T :: m) = Ok (Some v) /\ (- (1) < v)%Qc /\
    forall x w, In x cands -> mi (x :: T :: m) = Ok (Some w) -> (w <= v)%Qc.
Definition no_candidate (mi : ptest) (T : name) (m cands : list name) : Prop :=
  forall x w, In x cands -> mi (x :: T :: m) = Ok (Some w) -> (w <= - (1))%Qc.
(** growing stopped with a reason: no candidate, or the best one is not dependent *)
Definition grow_stopped (mi test : ptest) (alpha : Qc) (nodes : list name) (T : name) (m : list name) : Prop :=
  exists cands, (forall x, In x cands <-> In x nodes /\ x <> T /\ ~ In x m) /\
    (no_candidate mi T m cands \/ exists mx, best_candidate mi T m cands mx /\ ~ dep test alpha mx T m).

(** ** the perfect test of a DAG: d-separation
    x and y are d-separated by z iff z separates them in the moral graph of the ancestors of
    x, y and z.  A DAG over the columns 0..n-1 is the list of its parent lists. *)
Fixpoint iter {A} (k : nat) (f : A -> A) (a : A) : A := match k with 0 => a | S k' => iter k' f (f a) end.
Definition nmem (i : nat) (l : list nat) : bool := existsb (Nat.eqb i) l.
Definition close (n : nat) (f : nat -> list nat) (l : list nat) : list nat :=
  iter n (fun l => filter (fun i => nmem i l || existsb (fun j => nmem i (f j)) l) (seq 0 n)) l.
Definition moral_adj (dag : list (list nat)) (anc : list nat) (i : nat) : list nat :=
  filter (fun j => nmem j anc && negb (j =? i) &&
     (nmem j (nth i dag []) || nmem i (nth j dag []) || existsb (fun c => nmem i (nth c dag []) && nmem j (nth c dag [])) anc)) (seq 0 (length dag)).
Definition code (x : name) : nat := match x with NInt i => i | NStr _ => 0 end.
Definition d_separatedb (dag : list (list nat)) (x y : nat) (z : list nat) : bool :=
  let anc := close (length dag) (fun j => nth j dag []) (x :: y :: z) in
  negb (nmem y (close (length dag) (fun j => if nmem j z then [] else filter (fun i => negb (nmem i z)) (moral_adj dag anc j)) [x])).
(** p-value 1 for d-separated columns, 0 for others *)
Definition perfect (dag : list (list nat)) : ptest := fun cols =>
  match cols with x :: y :: z => Ok (Some (if d_separatedb dag (code x) (code y) (map code z) then 1%Qc else 0%Qc)) | _ => Raise IndexError end.
