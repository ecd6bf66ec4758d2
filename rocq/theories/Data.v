(** Data.v -- numpy data tables as used by pyBN: a two-dimensional array of levels. *)
From Verif Require Import Py Num.
From Coq Require Import Sorting.Sorted Ascii.
Open Scope nat_scope.

(** [data]: a two-dimensional numpy array; [data.shape[1]] and the rows.  Simplification:
    the entries are names (integer codes or strings); arrays of floats are not modelled here. *)
Record table := mkT { t_ncols : nat; t_rows : list (list name) }.
Definition table_ok (t : table) : Prop := forall r, In r (t_rows t) -> length r = t_ncols t.

(** [data[:,i]]; IndexError when there is no such column *)
Definition column (t : table) (i : nat) : res (list name) :=
  if i <? t_ncols t then mapM (fun r => nget r i) (t_rows t) else Raise IndexError.
(** [row[rv]] for a row of the array: only an integer is a valid index *)
Definition row_get (r : list name) (rv : name) : res name :=
  match rv with NInt i => nget r i | NStr _ => Raise IndexError end.

(** the order numpy sorts by: numbers by value, strings lexicographically *)
Definition name_leb (a b : name) : bool :=
  match a, b with
  | NInt m, NInt n => m <=? n
  | NInt _, NStr _ => true
  | NStr _, NInt _ => false
  | NStr s, NStr t => match String.compare s t with Gt => false | _ => true end
  end.
Lemma name_leb_total a b : name_leb a b = false -> name_leb b a = true.
Proof.
  destruct a as [m|s], b as [n|t]; simpl; intros H; try congruence.
  - apply Nat.leb_gt in H. apply Nat.leb_le. lia.
  - rewrite String.compare_antisym. destruct (String.compare s t); simpl; congruence.
Qed.
Lemma name_leb_antisym a b : name_leb a b = true -> name_leb b a = true -> a = b.
Proof.
  destruct a as [m|s], b as [n|t]; simpl; intros H K; try congruence.
  - apply Nat.leb_le in H, K. f_equal. lia.
  - f_equal. rewrite String.compare_antisym in K.
    destruct (String.compare s t) eqn:C; simpl in K; try congruence. now apply String.compare_eq_iff.
Qed.

(** [np.unique(col)]: the distinct entries, sorted *)
Fixpoint uinsert (x : name) (l : list name) : list name :=
  match l with
  | [] => [x]
  | y :: r => if name_eqb x y then l else if name_leb x y then x :: l else y :: uinsert x r
  end.
Definition np_unique (l : list name) : list name := fold_right uinsert [] l.

Lemma In_uinsert x y l : In y (uinsert x l) <-> y = x \/ In y l.
Proof.
  induction l as [|z r IH]; simpl.
  - intuition congruence.
  - destruct (name_eqb_spec x z) as [-> |N]; simpl; [intuition congruence|].
    destruct (name_leb x z); simpl; [intuition congruence|]. rewrite IH. intuition congruence.
Qed.
Lemma In_np_unique x l : In x (np_unique l) <-> In x l.
Proof. induction l as [|y r IH]; simpl; [tauto|]. rewrite In_uinsert, IH. intuition congruence. Qed.
Definition name_lt (a b : name) : Prop := name_leb a b = true /\ a <> b.
Lemma name_lt_trans a b c : name_lt a b -> name_lt b c -> name_lt a c.
Proof.
  assert (T : name_leb a b = true -> name_leb b c = true -> name_leb a c = true).
  { destruct a as [m|s], b as [n|t], c as [k|u]; simpl; try congruence.
    - rewrite !Nat.leb_le. lia.
    - assert (G : forall s t u, String.compare s t <> Gt -> String.compare t u <> Gt -> String.compare s u <> Gt).
      { clear. induction s as [|a s IH]; intros [|b t] [|c u]; simpl; try congruence.
        unfold Ascii.compare. intros H K.
        destruct (N.compare_spec (N_of_ascii a) (N_of_ascii b)) as [E1|E1|E1]; try congruence;
          destruct (N.compare_spec (N_of_ascii b) (N_of_ascii c)) as [E2|E2|E2]; try congruence;
          destruct (N.compare_spec (N_of_ascii a) (N_of_ascii c)) as [E3|E3|E3]; try congruence; try lia.
        now apply (IH t). }
      specialize (G s t u). destruct (String.compare s t), (String.compare t u), (String.compare s u); try congruence; intros;
        exfalso; apply G; congruence. }
  intros [H1 N1] [H2 N2]. split; [now apply T|]. intros <-. apply N1. now apply name_leb_antisym.
Qed.
Lemma np_unique_sorted l : StronglySorted name_lt (np_unique l).
Proof.
  induction l as [|x r IH]; simpl; [constructor|]. induction IH as [|y l S IH2 F]; simpl; [repeat constructor|].
  destruct (name_eqb_spec x y) as [-> |N]; [now constructor|]. destruct (name_leb x y) eqn:L.
  - constructor; [now constructor|]. constructor; [split; assumption|].
    rewrite Forall_forall in *. intros z Hz. apply name_lt_trans with y; [split; assumption|auto].
  - constructor; [assumption|]. rewrite Forall_forall in *. intros z Hz. apply In_uinsert in Hz as [-> |Hz]; [|auto].
    split; [now apply name_leb_total|congruence].
Qed.
Lemma NoDup_np_unique l : NoDup (np_unique l).
Proof.
  generalize (np_unique_sorted l). induction 1 as [|y r S IH F]; constructor; [|assumption].
  intros I. rewrite Forall_forall in F. destruct (F y I). congruence.
Qed.
