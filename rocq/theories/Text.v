(** Text.v -- the Python 2.7 byte-string operations used by the readers (not pyBN code):
    [str.split()], [str.replace(c, ' ')], [k in s], slices. *)
From Verif Require Import Py.
From Coq Require Import Ascii.
Open Scope nat_scope.

(** whitespace of [str.split()] on byte strings: tab, newline, VT, FF, CR, space *)
Definition is_ws (c : ascii) : bool := let n := nat_of_ascii c in ((9 <=? n) && (n <=? 13)) || (n =? 32).
Definition space : ascii := ascii_of_nat 32.
Definition nl : string := String (ascii_of_nat 10) EmptyString.

(** maximal runs of characters that are not separators *)
Fixpoint words_acc (p : ascii -> bool) (s cur : string) : list string :=
  match s with
  | EmptyString => match cur with EmptyString => [] | _ => [cur] end
  | String c r =>
      if p c then match cur with EmptyString => words_acc p r EmptyString | _ => cur :: words_acc p r EmptyString end
      else words_acc p r (cur ++ String c EmptyString)
  end.
Definition words (p : ascii -> bool) (s : string) : list string := words_acc p s EmptyString.
(** [s.split()] *)
Definition split (s : string) : list string := words is_ws s.
(** [s.replace(c, ' ')] *)
Fixpoint replace (c : ascii) (s : string) : string :=
  match s with EmptyString => EmptyString | String x r => String (if Ascii.eqb x c then space else x) (replace c r) end.
(** [k in s] *)
Fixpoint contains (k s : string) : bool :=
  String.prefix k s || match s with EmptyString => false | String _ r => contains k r end.
(** [l[a:-b]] for b > 0 *)
Definition slice_to {A} (a b : nat) (l : list A) : list A := skipn a (firstn (length l - b) l).
(** [l[-k:]]; [-0] is 0, so k = 0 gives the whole list *)
Definition last_n {A} (k : nat) (l : list A) : list A := if k =? 0 then l else skipn (length l - k) l.
(** [sep.join(l)] *)
Fixpoint join (sep : string) (l : list string) : string :=
  match l with [] => EmptyString | [x] => x | x :: r => (x ++ sep ++ join sep r)%string end.

(** ** Facts *)
Local Open Scope string_scope.
Lemma sapp_assoc (a b c : string) : (a ++ b) ++ c = a ++ b ++ c.
Proof. induction a as [|x a IH]; simpl; [reflexivity|now rewrite IH]. Qed.
Lemma sapp_nil (a : string) : a ++ "" = a.
Proof. induction a as [|x a IH]; simpl; [reflexivity|now rewrite IH]. Qed.

Fixpoint schars (f : ascii -> bool) (s : string) : bool :=
  match s with EmptyString => true | String c r => f c && schars f r end.
(** a word: non-empty, without separators *)
Definition word (p : ascii -> bool) (t : string) : Prop := t <> "" /\ schars (fun c => negb (p c)) t = true.

Lemma words_acc_cur p t : forall s cur, schars (fun c => negb (p c)) t = true -> words_acc p (t ++ s) cur = words_acc p s (cur ++ t).
Proof.
  induction t as [|c t IH]; intros s cur H; simpl in *; [now rewrite sapp_nil|].
  apply andb_prop in H as [H1 H2]. destruct (p c); [discriminate|]. rewrite IH by assumption. now rewrite sapp_assoc.
Qed.
Lemma words_nil p : words p "" = []. Proof. reflexivity. Qed.
Lemma words_sep p c s : p c = true -> words p (String c s) = words p s.
Proof. intros H. unfold words. simpl. now rewrite H. Qed.
Lemma words_word p t c s : word p t -> p c = true -> words p (t ++ String c s) = t :: words p s.
Proof.
  intros [N H] Hc. unfold words. rewrite words_acc_cur by assumption. simpl. rewrite Hc. destruct t; [congruence|reflexivity].
Qed.
Lemma words_last p t : word p t -> words p t = [t].
Proof.
  intros [N H]. unfold words. rewrite <- (sapp_nil t) at 1. rewrite words_acc_cur by assumption. simpl. destruct t; [congruence|reflexivity].
Qed.
(** a joined list of words followed by a separator; the joiner is a separator and a space *)
Lemma words_join p c d e s ts : (forall t, In t ts -> word p t) -> p c = true -> p d = true -> p e = true ->
  words p (join (String c (String d "")) ts ++ String e s) = (ts ++ words p s)%list.
Proof.
  intros H Hc Hd He. induction ts as [|t r IH]; [now apply words_sep|].
  assert (W : word p t) by (apply H; now left). assert (IH' := IH (fun x Hx => H x (or_intror Hx))).
  destruct r as [|u r]; [now apply words_word|].
  change (join (String c (String d "")) (t :: u :: r)) with (t ++ String c (String d (join (String c (String d "")) (u :: r)))).
  rewrite sapp_assoc. change (String c (String d (join (String c (String d "")) (u :: r))) ++ String e s) with (String c (String d (join (String c (String d "")) (u :: r) ++ String e s))).
  rewrite words_word by assumption. rewrite words_sep by assumption. now rewrite IH'.
Qed.
Lemma words_replace p a s : p space = true -> words p (replace a s) = words (fun c => p c || Ascii.eqb c a) s.
Proof.
  intros Hs. unfold words. generalize "" as cur. induction s as [|c r IH]; intros cur; simpl; [reflexivity|].
  destruct (Ascii.eqb c a); rewrite ?orb_true_r, ?orb_false_r; [rewrite Hs|]; now rewrite !IH.
Qed.
Lemma words_ext p q s : (forall c, p c = q c) -> words p s = words q s.
Proof. intros H. unfold words. generalize "" as cur. induction s as [|c r IH]; intros cur; simpl; [reflexivity|]. rewrite H, !IH. reflexivity. Qed.

Lemma contains_empty k : k <> "" -> contains k "" = false.
Proof. destruct k; [congruence|reflexivity]. Qed.
Lemma prefix_app k c a b : schars (fun x => negb (Ascii.eqb x c)) k = true -> k <> "" -> String.prefix k (a ++ String c b) = String.prefix k a.
Proof.
  revert a. induction k as [|x k IH]; intros a H N; [congruence|]. simpl in H. apply andb_prop in H as [H1 H2].
  destruct a as [|y a]; simpl.
  - destruct (ascii_dec x c) as [->|]; [|reflexivity]. rewrite Ascii.eqb_refl in H1. discriminate.
  - destruct (ascii_dec x y); [|reflexivity]. destruct k as [|z k]; [|now apply IH]. destruct (a ++ String c b), a; reflexivity.
Qed.
(** a character that is not in [k] splits the search *)
Lemma contains_app k c a b : schars (fun x => negb (Ascii.eqb x c)) k = true -> k <> "" ->
  contains k (a ++ String c b) = contains k a || contains k b.
Proof.
  intros H N. induction a as [|y a IH].
  - rewrite (contains_empty k N). simpl. pose proof (prefix_app k c "" b H N) as P. simpl in P. rewrite P. destruct k; [congruence|reflexivity].
  - change (String y a ++ String c b) with (String y (a ++ String c b)).
    change (contains k (String y (a ++ String c b))) with (String.prefix k (String y a ++ String c b) || contains k (a ++ String c b)).
    rewrite (prefix_app k c (String y a) b H N), IH. change (contains k (String y a)) with (String.prefix k (String y a) || contains k a). apply orb_assoc.
Qed.
Lemma contains_join k c d ts : schars (fun x => negb (Ascii.eqb x c)) k = true -> schars (fun x => negb (Ascii.eqb x d)) k = true -> k <> "" ->
  contains k (join (String c (String d "")) ts) = existsb (contains k) ts.
Proof.
  intros H1 H2 N. induction ts as [|t r IH]; [now apply contains_empty|]. destruct r as [|u r]; [simpl; now rewrite orb_false_r|].
  change (join (String c (String d "")) (t :: u :: r)) with (t ++ String c ("" ++ String d (join (String c (String d "")) (u :: r)))).
  rewrite !contains_app by assumption. rewrite (contains_empty k N), IH. reflexivity.
Qed.
(** a one-character string *)
Lemma contains_char c s : contains (String c "") s = negb (schars (fun x => negb (Ascii.eqb x c)) s).
Proof.
  induction s as [|x s IH]; [reflexivity|]. cbn [contains schars]. rewrite IH. cbn [String.prefix]. rewrite negb_andb, negb_involutive.
  destruct (ascii_dec c x) as [->|]; [rewrite Ascii.eqb_refl; now destruct s|]. destruct (Ascii.eqb_spec x c); [congruence|reflexivity].
Qed.
