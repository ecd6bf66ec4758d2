(** Py.v -- the fragment of Python used by the models: names, exceptions as
    values, dictionaries, list primitives and the iteration-order oracle.

    Nothing here models pyBN itself; it models the Python 2.7 built-ins the code
    uses.  Simplifications are stated next to each definition. *)
From Coq Require Export String Arith ZArith Lia Bool.
From Coq Require Export List Permutation.
Export ListNotations.
Open Scope list_scope.
Open Scope nat_scope.

(** Node names and node values.  pyBN uses Python strings for networks read from
    files and Python ints for networks learned from data (columns 0..n-1, and
    levels 0..k-1); nothing else is used as a name or as a value. *)
Inductive name : Type :=
| NInt (n : nat)
| NStr (s : string).

Definition name_eqb (a b : name) : bool :=
  match a, b with
  | NInt m, NInt n => Nat.eqb m n
  | NStr s, NStr t => String.eqb s t
  | _, _ => false
  end.

Lemma name_eqb_spec a b : reflect (a = b) (name_eqb a b).
Proof.
  destruct a as [m|s], b as [n|t]; simpl; try (constructor; congruence).
  - destruct (Nat.eqb_spec m n); constructor; congruence.
  - destruct (String.eqb_spec s t); constructor; congruence.
Qed.

Lemma name_eqb_refl a : name_eqb a a = true.
Proof. destruct (name_eqb_spec a a); congruence. Qed.

Lemma name_eqb_eq a b : name_eqb a b = true <-> a = b.
Proof. destruct (name_eqb_spec a b); intuition congruence. Qed.

Lemma name_eqb_neq a b : name_eqb a b = false <-> a <> b.
Proof. destruct (name_eqb_spec a b); intuition congruence. Qed.

Lemma name_eqb_sym a b : name_eqb a b = name_eqb b a.
Proof. destruct (name_eqb_spec a b), (name_eqb_spec b a); congruence. Qed.

Definition name_eq_dec (a b : name) : {a = b} + {a <> b}.
Proof. destruct (name_eqb a b) eqn:E; [left|right]; [now apply name_eqb_eq|now apply name_eqb_neq]. Defined.

(** ** Exceptions as values *)
Inductive exn : Type :=
| KeyError | ValueError | IndexError | NameError | TypeError | AttributeError
| AssertionError | ZeroDivisionError | RuntimeErr | NetworkXError | UnboundLocalError
| OutOfFuel.  (* not a Python exception: the model's loop bound ran out *)

Inductive res (A : Type) : Type :=
| Ok (a : A)
| Raise (e : exn).
Arguments Ok {A} a.
Arguments Raise {A} e.

Definition bind {A B} (m : res A) (k : A -> res B) : res B :=
  match m with Ok a => k a | Raise e => Raise e end.

Notation "'do' x <- m ;; k" := (bind m (fun x => k))
  (at level 200, x pattern, m at level 100, k at level 200, right associativity).

Lemma bind_Ok {A B} (m : res A) (k : A -> res B) b :
  bind m k = Ok b -> exists a, m = Ok a /\ k a = Ok b.
Proof. destruct m; simpl; [eauto|discriminate]. Qed.

(** [for x in l: s = f(s,x)] where the body may raise. *)
Fixpoint foldM {A S} (f : S -> A -> res S) (l : list A) (s : S) : res S :=
  match l with
  | [] => Ok s
  | x :: r => do s' <- f s x ;; foldM f r s'
  end.

(** [[f(x) for x in l]] where [f] may raise. *)
Fixpoint mapM {A B} (f : A -> res B) (l : list A) : res (list B) :=
  match l with
  | [] => Ok []
  | x :: r => do y <- f x ;; do ys <- mapM f r ;; Ok (y :: ys)
  end.

Lemma mapM_ok {A B} (f : A -> res B) (g : A -> B) l :
  (forall x, In x l -> f x = Ok (g x)) -> mapM f l = Ok (map g l).
Proof.
  induction l as [|x r IH]; intros H; simpl; [reflexivity|].
  rewrite H by (left; reflexivity). simpl. rewrite IH; [reflexivity|].
  intros y Hy. apply H. now right.
Qed.

Lemma mapM_inv {A B} (f : A -> res B) l ys :
  mapM f l = Ok ys -> Forall2 (fun x y => f x = Ok y) l ys.
Proof.
  revert ys; induction l as [|x r IH]; simpl; intros ys H.
  - inversion H. constructor.
  - apply bind_Ok in H as (y & Hy & H). apply bind_Ok in H as (zs & Hz & H).
    inversion H; subst. constructor; auto.
Qed.

Lemma foldM_app {A S} (f : S -> A -> res S) l1 l2 s :
  foldM f (l1 ++ l2) s = bind (foldM f l1 s) (foldM f l2).
Proof.
  revert s; induction l1 as [|x r IH]; intros s; simpl; [reflexivity|].
  destruct (f s x); simpl; auto.
Qed.

(** ** Lists *)
(** [x in l] *)
Definition mem (x : name) (l : list name) : bool := existsb (name_eqb x) l.

Lemma mem_In x l : mem x l = true <-> In x l.
Proof.
  unfold mem. rewrite existsb_exists. split.
  - intros (y & Hy & E). apply name_eqb_eq in E. now subst.
  - intros H. exists x. split; [assumption|apply name_eqb_refl].
Qed.

Lemma mem_false x l : mem x l = false <-> ~ In x l.
Proof. rewrite <- mem_In. destruct (mem x l); intuition congruence. Qed.

Lemma mem_spec x l : reflect (In x l) (mem x l).
Proof. destruct (mem x l) eqn:E; constructor; [now apply mem_In|now apply mem_false]. Qed.

(** [l.index(x)]: position of the first occurrence, [ValueError] if absent. *)
Fixpoint index_of (x : name) (l : list name) : option nat :=
  match l with
  | [] => None
  | y :: r => if name_eqb x y then Some 0 else option_map S (index_of x r)
  end.

Definition list_index (l : list name) (x : name) : res nat :=
  match index_of x l with Some i => Ok i | None => Raise ValueError end.

(** [l.remove(x)]: removes the first occurrence, [ValueError] if absent. *)
Fixpoint remove1 (x : name) (l : list name) : list name :=
  match l with
  | [] => []
  | y :: r => if name_eqb x y then r else y :: remove1 x r
  end.

Definition list_remove (l : list name) (x : name) : res (list name) :=
  if mem x l then Ok (remove1 x l) else Raise ValueError.

(** [l[i]] for a Python (possibly negative) integer index. *)
Definition pyget {A} (l : list A) (i : Z) : res A :=
  let j := if (i <? 0)%Z then (i + Z.of_nat (List.length l))%Z else i in
  if (j <? 0)%Z then Raise IndexError
  else match nth_error l (Z.to_nat j) with Some x => Ok x | None => Raise IndexError end.

(** [l[i]] for a natural number index. *)
Definition nget {A} (l : list A) (i : nat) : res A :=
  match nth_error l i with Some x => Ok x | None => Raise IndexError end.

(** [l[i] = x] *)
Fixpoint upd_nth {A} (i : nat) (x : A) (l : list A) : list A :=
  match l, i with
  | [], _ => []
  | _ :: r, 0 => x :: r
  | y :: r, S i' => y :: upd_nth i' x r
  end.

Lemma upd_nth_length {A} i (x : A) l : List.length (upd_nth i x l) = List.length l.
Proof. revert i; induction l as [|y r IH]; intros [|i]; simpl; auto. Qed.

Lemma nth_error_upd_nth {A} i j (x : A) l :
  nth_error (upd_nth i x l) j =
  if (i =? j) && (i <? List.length l) then Some x else nth_error l j.
Proof.
  revert i j; induction l as [|y r IH]; intros i j; simpl.
  - destruct i; simpl; rewrite andb_false_r; reflexivity.
  - destruct i as [|i]; destruct j as [|j]; simpl; auto.
    rewrite IH. reflexivity.
Qed.

Lemma NoDup_app_intro {A} (l m : list A) :
  NoDup l -> NoDup m -> (forall x, In x l -> ~ In x m) -> NoDup (l ++ m).
Proof.
  induction l as [|y r IH]; simpl; intros N1 N2 D; [assumption|]. inversion N1; subst. constructor.
  - rewrite in_app_iff. intros [H|H]; [contradiction|]. apply (D y); auto.
  - apply IH; auto.
Qed.

(** removal of repetitions, first occurrence kept: [set(l)] in insertion order *)
Fixpoint dedup (l : list name) : list name :=
  match l with
  | [] => []
  | x :: r => x :: filter (fun y => negb (name_eqb x y)) (dedup r)
  end.

Lemma In_dedup x l : In x (dedup l) <-> In x l.
Proof.
  induction l as [|y r IH]; simpl; [tauto|].
  rewrite filter_In, IH. destruct (name_eqb_spec y x) as [E|E]; simpl; intuition congruence.
Qed.

Lemma NoDup_dedup l : NoDup (dedup l).
Proof.
  induction l as [|y r IH]; simpl; constructor.
  - rewrite filter_In. intros [_ H]. rewrite name_eqb_refl in H. discriminate.
  - now apply NoDup_filter.
Qed.

Lemma filter_all {A} (f : A -> bool) l : (forall x, In x l -> f x = true) -> filter f l = l.
Proof.
  induction l as [|y r IH]; simpl; intros H; [reflexivity|].
  rewrite (H y) by now left. f_equal. apply IH. intros x Hx. apply H. now right.
Qed.

Lemma dedup_id l : NoDup l -> dedup l = l.
Proof.
  induction l as [|y r IH]; simpl; intros H; [reflexivity|]. inversion H; subst.
  rewrite IH by assumption. f_equal. apply filter_all.
  intros x Hx. destruct (name_eqb_spec y x); [subst; contradiction|reflexivity].
Qed.

(** [set(a).union(set(b))] and [set(a).difference(set(b))], in insertion order *)
Definition set_union (a b : list name) : list name := dedup (a ++ b).
Definition set_diff (a b : list name) : list name :=
  filter (fun x => negb (mem x b)) (dedup a).
Definition set_inter (a b : list name) : list name :=
  filter (fun x => mem x b) (dedup a).

Lemma In_set_diff x a b : In x (set_diff a b) <-> In x a /\ ~ In x b.
Proof.
  unfold set_diff. rewrite filter_In, In_dedup.
  destruct (mem_spec x b); simpl; intuition congruence.
Qed.

Lemma In_set_union x a b : In x (set_union a b) <-> In x a \/ In x b.
Proof. unfold set_union. now rewrite In_dedup, in_app_iff. Qed.

Lemma In_set_inter x a b : In x (set_inter a b) <-> In x a /\ In x b.
Proof. unfold set_inter. rewrite filter_In, In_dedup, mem_In. tauto. Qed.

Lemma NoDup_set_union a b : NoDup (set_union a b).
Proof. apply NoDup_dedup. Qed.
Lemma NoDup_set_diff a b : NoDup (set_diff a b).
Proof. apply NoDup_filter, NoDup_dedup. Qed.

(** ** Dictionaries: association lists in insertion order *)
Definition dict (A : Type) := list (name * A).

Fixpoint dget {A} (d : dict A) (k : name) : option A :=
  match d with
  | [] => None
  | (k', v) :: r => if name_eqb k k' then Some v else dget r k
  end.

(** [d[k]] *)
Definition getitem {A} (d : dict A) (k : name) : res A :=
  match dget d k with Some v => Ok v | None => Raise KeyError end.

(** [d[k] = v] *)
Fixpoint dset {A} (d : dict A) (k : name) (v : A) : dict A :=
  match d with
  | [] => [(k, v)]
  | (k', v') :: r => if name_eqb k k' then (k', v) :: r else (k', v') :: dset r k v
  end.

(** [del d[k]] *)
Fixpoint ddel {A} (d : dict A) (k : name) : dict A :=
  match d with
  | [] => []
  | (k', v') :: r => if name_eqb k k' then r else (k', v') :: ddel r k
  end.

Definition delitem {A} (d : dict A) (k : name) : res (dict A) :=
  match dget d k with Some _ => Ok (ddel d k) | None => Raise KeyError end.

(** [d.update(e)] *)
Definition dupdate {A} (d e : dict A) : dict A :=
  fold_left (fun acc kv => dset acc (fst kv) (snd kv)) e d.

(** [d.keys()] in insertion order *)
Definition dkeys {A} (d : dict A) : list name := map fst d.

(** [dict(l)] *)
Definition dict_of {A} (l : list (name * A)) : dict A := dupdate [] l.

Lemma dget_dset {A} (d : dict A) k v k' :
  dget (dset d k v) k' = if name_eqb k' k then Some v else dget d k'.
Proof.
  induction d as [|[q w] r IH]; simpl.
  - reflexivity.
  - destruct (name_eqb_spec k q) as [E|E]; simpl.
    + subst q. destruct (name_eqb_spec k' k); reflexivity.
    + rewrite IH. destruct (name_eqb_spec k' q) as [E2|E2]; [|reflexivity].
      subst q. destruct (name_eqb_spec k' k); [congruence|reflexivity].
Qed.

Lemma dget_In {A} (d : dict A) k : dget d k <> None <-> In k (dkeys d).
Proof.
  unfold dkeys. induction d as [|[q w] r IH]; simpl; [tauto|].
  destruct (name_eqb_spec k q) as [E|E].
  - subst. split; [now left|discriminate].
  - rewrite IH. intuition congruence.
Qed.

Lemma dget_Some_In {A} (d : dict A) k v : dget d k = Some v -> In k (dkeys d).
Proof. intros H. apply dget_In. congruence. Qed.

Lemma In_dget {A} (d : dict A) k : In k (dkeys d) -> exists v, dget d k = Some v.
Proof. intros H. apply dget_In in H. destruct (dget d k); [eauto|congruence]. Qed.

Lemma dget_None {A} (d : dict A) k : dget d k = None <-> ~ In k (dkeys d).
Proof. rewrite <- dget_In. destruct (dget d k); intuition congruence. Qed.

Lemma dkeys_dset_in {A} (d : dict A) k v : In k (dkeys d) -> dkeys (dset d k v) = dkeys d.
Proof.
  unfold dkeys. induction d as [|[q w] r IH]; simpl; [tauto|]. intros H.
  destruct (name_eqb_spec k q) as [E|E]; simpl; [reflexivity|].
  f_equal. apply IH. destruct H; congruence.
Qed.

Lemma dkeys_dset_notin {A} (d : dict A) k v : ~ In k (dkeys d) -> dkeys (dset d k v) = dkeys d ++ [k].
Proof.
  unfold dkeys. induction d as [|[q w] r IH]; simpl; [reflexivity|]. intros H.
  destruct (name_eqb_spec k q) as [E|E]; simpl; [subst; tauto|].
  f_equal. apply IH. tauto.
Qed.

Lemma In_dkeys_dset {A} (d : dict A) k v x : In x (dkeys (dset d k v)) <-> x = k \/ In x (dkeys d).
Proof.
  rewrite <- !dget_In, dget_dset. destruct (name_eqb_spec x k); intuition congruence.
Qed.

Lemma NoDup_dkeys_dset {A} (d : dict A) k v : NoDup (dkeys d) -> NoDup (dkeys (dset d k v)).
Proof.
  intros H. destruct (in_dec name_eq_dec k (dkeys d)) as [I|I].
  - now rewrite dkeys_dset_in.
  - rewrite dkeys_dset_notin by assumption.
    apply (Permutation_NoDup (l := k :: dkeys d)).
    + apply Permutation_cons_append.
    + constructor; assumption.
Qed.

Lemma dkeys_ddel {A} (d : dict A) k : dkeys (ddel d k) = remove1 k (dkeys d).
Proof.
  unfold dkeys. induction d as [|[q w] r IH]; simpl; [reflexivity|].
  destruct (name_eqb_spec k q); simpl; congruence.
Qed.

Lemma dget_ddel {A} (d : dict A) k k' :
  NoDup (dkeys d) -> dget (ddel d k) k' = if name_eqb k' k then None else dget d k'.
Proof.
  unfold dkeys. induction d as [|[q w] r IH]; simpl; intros H.
  - now destruct (name_eqb k' k).
  - inversion H as [|? ? Hn Hr]; subst. destruct (name_eqb_spec k q) as [E|E]; simpl.
    + subst q. destruct (name_eqb_spec k' k) as [E2|E2]; [|reflexivity].
      subst. apply dget_None. exact Hn.
    + rewrite IH by assumption. destruct (name_eqb_spec k' q) as [E2|E2]; [|reflexivity].
      subst. destruct (name_eqb_spec q k); congruence.
Qed.

Lemma dget_dupdate {A} (e d : dict A) k :
  NoDup (dkeys e) ->
  dget (dupdate d e) k = match dget e k with Some v => Some v | None => dget d k end.
Proof.
  unfold dupdate. revert d. induction e as [|[q w] r IH]; intros d H; simpl; [reflexivity|].
  inversion H as [|? ? Hn Hr]; subst. rewrite IH by assumption. simpl.
  rewrite dget_dset. destruct (name_eqb_spec k q) as [E|E].
  - subst. assert (dget r q = None) as -> by now apply dget_None. reflexivity.
  - reflexivity.
Qed.

Lemma In_dkeys_dupdate {A} (e d : dict A) x :
  In x (dkeys (dupdate d e)) <-> In x (dkeys d) \/ In x (dkeys e).
Proof.
  unfold dupdate. revert d. induction e as [|[q w] r IH]; intros d; simpl.
  - tauto.
  - rewrite IH, In_dkeys_dset. simpl. intuition congruence.
Qed.

Lemma NoDup_dkeys_dupdate {A} (e d : dict A) : NoDup (dkeys d) -> NoDup (dkeys (dupdate d e)).
Proof.
  unfold dupdate. revert d. induction e as [|[q w] r IH]; intros d H; simpl; [assumption|].
  apply IH. now apply NoDup_dkeys_dset.
Qed.

Lemma dget_map_pair {A} (f : name -> A) l k :
  dget (map (fun x => (x, f x)) l) k = if mem k l then Some (f k) else None.
Proof.
  induction l as [|y r IH]; simpl; [reflexivity|].
  destruct (name_eqb_spec k y) as [E|E]; simpl; [now subst|assumption].
Qed.

Lemma dkeys_map_pair {A} (f : name -> A) l : dkeys (map (fun x => (x, f x)) l) = l.
Proof. unfold dkeys. rewrite map_map. simpl. apply map_id. Qed.

Lemma dget_dict_of {A} (f : name -> A) l k :
  dget (dict_of (map (fun x => (x, f x)) l)) k = if mem k l then Some (f k) else None.
Proof.
  unfold dict_of, dupdate.
  assert (G : forall d, dget (fold_left (fun acc kv => dset acc (fst kv) (snd kv))
             (map (fun x => (x, f x)) l) d) k = if mem k l then Some (f k) else dget d k).
  { induction l as [|y r IH]; intros d; simpl; [reflexivity|].
    rewrite IH, dget_dset. simpl. destruct (name_eqb_spec k y) as [E|E]; simpl.
    - subst. now destruct (mem y r).
    - reflexivity. }
  rewrite G. reflexivity.
Qed.

Lemma NoDup_dkeys_dict_of {A} (l : list (name * A)) : NoDup (dkeys (dict_of l)).
Proof. apply NoDup_dkeys_dupdate. constructor. Qed.

Lemma In_dkeys_dict_of {A} (l : list (name * A)) x : In x (dkeys (dict_of l)) <-> In x (map fst l).
Proof. unfold dict_of. rewrite In_dkeys_dupdate. simpl. unfold dkeys. tauto. Qed.

(** ** remove1 and index_of lemmas *)
Lemma In_remove1 x y l : NoDup l -> In x (remove1 y l) <-> In x l /\ x <> y.
Proof.
  induction l as [|z r IH]; simpl; intros H; [tauto|]. inversion H; subst.
  destruct (name_eqb_spec y z) as [E|E]; simpl.
  - subst. split; [intros I; split; [tauto|congruence] | intros [[I|I] N]; congruence || tauto].
  - rewrite IH by assumption. intuition congruence.
Qed.

Lemma remove1_incl x y l : In x (remove1 y l) -> In x l.
Proof.
  induction l as [|z r IH]; simpl; [tauto|].
  destruct (name_eqb y z); simpl; tauto.
Qed.

Lemma NoDup_remove1 y l : NoDup l -> NoDup (remove1 y l).
Proof.
  induction l as [|z r IH]; simpl; intros H; [constructor|]. inversion H; subst.
  destruct (name_eqb y z); [assumption|]. constructor; [|auto].
  intros I. apply remove1_incl in I. contradiction.
Qed.

Lemma remove1_notin y l : ~ In y l -> remove1 y l = l.
Proof.
  induction l as [|z r IH]; simpl; intros H; [reflexivity|].
  destruct (name_eqb_spec y z); [subst; tauto|]. f_equal. tauto.
Qed.

Lemma remove1_app_cons y p q : ~ In y p -> remove1 y (p ++ y :: q) = p ++ q.
Proof.
  induction p as [|z r IH]; simpl; intros H.
  - now rewrite name_eqb_refl.
  - destruct (name_eqb_spec y z); [subst; tauto|]. f_equal. tauto.
Qed.

Lemma remove1_perm y l : In y l -> Permutation l (y :: remove1 y l).
Proof.
  induction l as [|z r IH]; simpl; [tauto|]. intros H.
  destruct (name_eqb_spec y z) as [E|E]; [now subst|].
  destruct H as [H|H]; [congruence|].
  apply perm_trans with (z :: y :: remove1 y r); [constructor; auto|constructor].
Qed.

Lemma Permutation_remove1 y l l' : Permutation l l' -> Permutation (remove1 y l) (remove1 y l').
Proof.
  induction 1 as [|x l l' P IH|x z l|l1 l2 l3 P1 IH1 P2 IH2]; simpl.
  - constructor.
  - destruct (name_eqb y x); [assumption|now constructor].
  - destruct (name_eqb_spec y x) as [E1|E1], (name_eqb_spec y z) as [E2|E2]; subst; try reflexivity; try congruence.
    constructor.
  - eapply perm_trans; eassumption.
Qed.

Lemma length_remove1 y l : In y l -> S (List.length (remove1 y l)) = List.length l.
Proof.
  intros H. apply remove1_perm in H. apply Permutation_length in H. simpl in H. auto.
Qed.

Lemma index_of_Some x l i : index_of x l = Some i -> nth_error l i = Some x.
Proof.
  revert i. induction l as [|y r IH]; simpl; intros i H; [discriminate|].
  destruct (name_eqb_spec x y) as [E|E].
  - inversion H; subst. reflexivity.
  - destruct (index_of x r) eqn:I; [|discriminate]. inversion H; subst. simpl. now apply IH.
Qed.

Lemma index_of_lt x l i : index_of x l = Some i -> i < List.length l.
Proof. intros H. apply index_of_Some in H. apply nth_error_Some. congruence. Qed.

Lemma index_of_None x l : index_of x l = None <-> ~ In x l.
Proof.
  induction l as [|y r IH]; simpl; [tauto|].
  destruct (name_eqb_spec x y) as [E|E].
  - subst. split; [discriminate|tauto].
  - destruct (index_of x r); simpl; split; intros H.
    + discriminate.
    + exfalso. apply H. right. destruct (in_dec name_eq_dec x r) as [?|N]; [assumption|].
      apply IH in N. discriminate.
    + intros [->|I]; [congruence|]. apply IH in I; auto.
    + reflexivity.
Qed.

Lemma index_of_In x l : In x l -> exists i, index_of x l = Some i.
Proof.
  intros H. destruct (index_of x l) eqn:E; [eauto|]. apply index_of_None in E. contradiction.
Qed.

Lemma index_of_nth l i x : NoDup l -> nth_error l i = Some x -> index_of x l = Some i.
Proof.
  revert i. induction l as [|y r IH]; intros i ND H; [destruct i; discriminate|].
  inversion ND; subst. destruct i as [|i]; simpl in *.
  - inversion H; subst. now rewrite name_eqb_refl.
  - destruct (name_eqb_spec x y) as [E|E].
    + subst. exfalso. apply nth_error_In in H. contradiction.
    + rewrite (IH i) by assumption. reflexivity.
Qed.

Lemma pyget_nat {A} (l : list A) (i : nat) : pyget l (Z.of_nat i) = nget l i.
Proof.
  unfold pyget, nget. destruct (Z.ltb_spec (Z.of_nat i) 0); [lia|].
  destruct (Z.ltb_spec (Z.of_nat i) 0); [lia|]. now rewrite Nat2Z.id.
Qed.

(** ** Iteration order of sets and Python-2 dicts

    An oracle chooses the order in which a set or dict is iterated.  [o path l] is
    the iteration order, at the dynamic program point [path], of a collection whose
    elements in insertion order are [l].  The only assumption used by any theorem is
    that it is a permutation of the elements.  [sub o n] is the oracle of the [n]-th
    sub-computation, so two calls never have to agree. *)
Definition oracle := list nat -> list name -> list name.
Definition good (o : oracle) : Prop := forall p l, Permutation (o p l) l.
Definition sub (o : oracle) (n : nat) : oracle := fun p => o (n :: p).
Definition ask (o : oracle) (l : list name) : list name := o [] l.

Lemma good_sub o n : good o -> good (sub o n).
Proof. intros H p l. apply H. Qed.
Lemma good_ask o l : good o -> Permutation (ask o l) l.
Proof. intros H. apply H. Qed.
Definition id_oracle : oracle := fun _ l => l.
Definition rev_oracle : oracle := fun _ l => rev l.
Lemma good_id : good id_oracle.
Proof. intros p l. reflexivity. Qed.
Lemma good_rev : good rev_oracle.
Proof. intros p l. symmetry. apply Permutation_rev. Qed.

(** [sorted(l, key=f)]: stable insertion sort *)
Fixpoint insert_by (f : name -> nat) (x : name) (l : list name) : list name :=
  match l with
  | [] => [x]
  | y :: r => if f x <=? f y then x :: l else y :: insert_by f x r
  end.
Definition sorted_by (f : name -> nat) (l : list name) : list name :=
  fold_right (insert_by f) [] l.

Lemma insert_by_perm f x l : Permutation (insert_by f x l) (x :: l).
Proof.
  induction l as [|y r IH]; simpl; [reflexivity|].
  destruct (f x <=? f y); [reflexivity|].
  apply perm_trans with (y :: x :: r); [now constructor|constructor].
Qed.

Lemma sorted_by_perm f l : Permutation (sorted_by f l) l.
Proof.
  induction l as [|y r IH]; simpl; [reflexivity|].
  rewrite insert_by_perm. now constructor.
Qed.
