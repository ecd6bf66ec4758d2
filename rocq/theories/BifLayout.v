(** BifLayout.v -- the bif reader looks at a line only through its words. *)
From Verif Require Import Py Num Text BayesNet SpecFactor IO SpecIO BifFacts.
From Coq Require Import Ascii.
Open Scope nat_scope.
Open Scope string_scope.

Lemma blank_ws c : blank c <-> is_ws c = true.
Proof. unfold blank, blank_codes. destruct c as [[] [] [] [] [] [] [] []]; vm_compute; intuition (discriminate || auto). Qed.
Lemma not_blank_ws c : ~ blank c <-> is_ws c = false.
Proof. rewrite blank_ws. destruct (is_ws c); intuition congruence. Qed.

Lemma words_acc_app p c r : p c = true -> forall w cur, words_acc p (w ++ String c r) cur = (words_acc p w cur ++ words p r)%list.
Proof.
  intros Hc. induction w as [|x w IH]; intros cur; simpl.
  - rewrite Hc. destruct cur; reflexivity.
  - destruct (p x); [destruct cur; rewrite IH; reflexivity|apply IH].
Qed.
Lemma words_app_sep p w c r : p c = true -> words p (w ++ String c r) = (words p w ++ words p r)%list.
Proof. intros H. apply (words_acc_app p c r H w EmptyString). Qed.
Lemma words_blanks p b s : (forall c, is_ws c = true -> p c = true) -> all_blank b -> words p (b ++ s) = words p s.
Proof.
  intros H. induction b as [|c b IH]; intros A; [reflexivity|]. destruct A as [B A]. change (String c b ++ s) with (String c (b ++ s)).
  rewrite words_sep; [now apply IH|]. now apply H, blank_ws.
Qed.
(** splitting at blanks and more is splitting each word *)
Lemma layout_words p ws s : (forall c, is_ws c = true -> p c = true) -> layout ws s -> words p s = flat_map (words p) ws.
Proof.
  intros H L. induction L as [b B|b w B N W|b w c r ws B N W C L IH].
  - rewrite <- (sapp_nil b). rewrite words_blanks by assumption. reflexivity.
  - rewrite words_blanks by assumption. simpl. now rewrite app_nil_r.
  - rewrite words_blanks by assumption. rewrite words_app_sep by now apply H, blank_ws. simpl. now rewrite IH.
Qed.
Lemma no_blank_word w : w <> EmptyString -> no_blank w -> word is_ws w.
Proof.
  intros N W. split; [exact N|]. clear N. induction w as [|c w IH]; [reflexivity|]. destruct W as [B W]. simpl. apply not_blank_ws in B. rewrite B. now apply IH.
Qed.

(** ** [k in line] *)
Lemma prefix_blank k : no_blank k -> forall w c r, is_ws c = true -> String.prefix k (w ++ String c r) = String.prefix k w.
Proof.
  induction k as [|a k IH]; intros K w c r C; [destruct w; reflexivity|]. destruct K as [A K]. apply not_blank_ws in A.
  destruct w as [|x w]; simpl.
  - destruct (ascii_dec a c); [congruence|reflexivity].
  - destruct (ascii_dec a x); [now apply IH|reflexivity].
Qed.
Lemma contains_blank k : k <> EmptyString -> no_blank k -> forall w c r, is_ws c = true -> contains k (w ++ String c r) = contains k w || contains k r.
Proof.
  intros N K w c r C. assert (P := fun w => prefix_blank k K w c r C). induction w as [|x w IH].
  - specialize (P EmptyString). change (EmptyString ++ String c r) with (String c r) in *. destruct k as [|a k]; [congruence|]. change (String.prefix (String a k) (String c r) || contains (String a k) r = contains (String a k) r). rewrite P. reflexivity.
  - specialize (P (String x w)). change (String.prefix k (String x w ++ String c r) || contains k (w ++ String c r) = (String.prefix k (String x w) || contains k w) || contains k r). rewrite P, IH. now rewrite orb_assoc.
Qed.
Lemma contains_blanks k b s : k <> EmptyString -> no_blank k -> all_blank b -> contains k (b ++ s) = contains k s.
Proof.
  intros N K. induction b as [|c b IH]; intros A; [reflexivity|]. destruct A as [B A]. change (String c b ++ s) with ("" ++ String c (b ++ s)).
  rewrite contains_blank by (assumption || now apply blank_ws). rewrite IH by assumption. destruct k; [congruence|reflexivity].
Qed.
Lemma layout_contains k ws s : k <> EmptyString -> no_blank k -> layout ws s -> contains k s = existsb (contains k) ws.
Proof.
  intros N K L. induction L as [b B|b w B _ W|b w c r ws B _ W C L IH].
  - rewrite <- (sapp_nil b). rewrite contains_blanks by assumption. destruct k; [congruence|reflexivity].
  - rewrite contains_blanks by assumption. simpl. now rewrite orb_false_r.
  - rewrite contains_blanks by assumption. rewrite contains_blank by (assumption || now apply blank_ws). simpl. now rewrite IH.
Qed.

Lemma same_contains k s t : k <> EmptyString -> no_blank k -> same_words s t -> contains k s = contains k t.
Proof. intros N K (ws & A & B). now rewrite (layout_contains k ws s), (layout_contains k ws t). Qed.
Lemma same_words_p p s t : (forall c, is_ws c = true -> p c = true) -> same_words s t -> words p s = words p t.
Proof. intros H (ws & A & B). now rewrite (layout_words p ws s), (layout_words p ws t). Qed.
Lemma same_split s t : same_words s t -> split s = split t.
Proof. apply same_words_p. auto. Qed.
Lemma same_comma s t : same_words s t -> split (replace comma s) = split (replace comma t).
Proof. intros H. rewrite !split_comma. apply same_words_p; [|exact H]. intros c E. unfold ws_comma. now rewrite E. Qed.
Lemma same_row s t : same_words s t -> split (replace rparen (replace lparen (replace semicolon (replace comma s)))) = split (replace rparen (replace lparen (replace semicolon (replace comma t)))).
Proof. intros H. rewrite !split_row. apply same_words_p; [|exact H]. intros c E. unfold ws_row. now rewrite E. Qed.
Lemma same_prior s t : same_words s t -> split (replace comma (replace semicolon s)) = split (replace comma (replace semicolon t)).
Proof. intros H. rewrite !split_prior. apply same_words_p; [|exact H]. intros c E. unfold ws_prior. now rewrite E. Qed.
Lemma no_blankb k : schars (fun c => negb (is_ws c)) k = true -> no_blank k.
Proof. induction k as [|c k IH]; [intros _; exact I|]. simpl. intros H. apply andb_prop in H as [A B]. split; [|now apply IH]. apply not_blank_ws. now destruct (is_ws c). Qed.
Lemma same_empty : same_words "" "".
Proof. exists []. split; apply lay_blank; exact I. Qed.

(** ** The reader *)
Definition same_lines := Forall2 same_words.
Definition same_res (x y : res (bifst * list string)) : Prop :=
  match x, y with Ok (a, l), Ok (b, m) => a = b /\ same_lines l m | Raise e, Raise e' => e = e' | _, _ => False end.
Lemma same_readline ls ms : same_lines ls ms -> same_words (fst (readline ls)) (fst (readline ms)) /\ same_lines (snd (readline ls)) (snd (readline ms)).
Proof. intros [|x y l m H F]; simpl; [split; [apply same_empty|constructor]|now split]. Qed.
Lemma same_len ls ms : same_lines ls ms -> length ls = length ms. Proof. induction 1; simpl; congruence. Qed.

Lemma rows_same fl child : forall fuel ls ms st, same_lines ls ms -> same_res (bif_rows fuel fl child ls st) (bif_rows fuel fl child ms st).
Proof.
  induction fuel as [|f IH]; intros ls ms st H; [reflexivity|]. cbn [bif_rows]. destruct (same_readline ls ms H) as [S R].
  destruct (readline ls) as [l lr], (readline ms) as [m mr]. cbn [fst snd] in S, R. rewrite (same_contains rbrace l m) by (discriminate || (apply no_blankb; reflexivity) || exact S).
  destruct (contains rbrace m); [now split|]. rewrite (same_row l m S).
  destruct (b_last st) as [nv|]; [|reflexivity]. cbn [bind]. destruct (getitem (b_vals st) nv) as [vs|e]; [|reflexivity]. cbn [bind].
  match goal with |- context [floats fl ?x] => destruct (floats fl x) as [ps|e]; [|reflexivity] end. cbn [bind].
  destruct (getitem (b_cpt st) child) as [c|e]; [|reflexivity]. cbn [bind]. now apply IH.
Qed.
Lemma variable_same l m ls ms st : same_words l m -> same_lines ls ms -> same_res (bif_variable l ls st) (bif_variable m ms st).
Proof.
  intros S H. unfold bif_variable. rewrite (same_split l m S). destruct (nget (split m) 1) as [v|e]; [|reflexivity]. cbn [bind].
  destruct (same_readline ls ms H) as [S2 R]. destruct (readline ls) as [l2 lr], (readline ms) as [m2 mr]. cbn [fst snd] in S2, R.
  rewrite (same_comma l2 m2 S2). now split.
Qed.
Lemma probability_same fuel fl l m ls ms st : same_words l m -> same_lines ls ms -> same_res (bif_probability fuel fl l ls st) (bif_probability fuel fl m ms st).
Proof.
  intros S H. unfold bif_probability. rewrite (same_comma l m S), (same_len ls ms H). destruct (nget (split (replace comma m)) 2) as [c|e]; [|reflexivity]. cbn [bind].
  destruct (length (slice_to 4 2 (split (replace comma m))) =? 0)%nat.
  - destruct (same_readline ls ms H) as [S2 R]. destruct (readline ls) as [l2 lr], (readline ms) as [m2 mr]. cbn [fst snd] in S2, R. rewrite (same_prior l2 m2 S2).
    destruct (getitem (b_cpt st) (NStr c)) as [old|e]; [|reflexivity]. cbn [bind].
    match goal with |- context [floats fl ?x] => destruct (floats fl x) as [ps|e]; [|reflexivity] end. now split.
  - destruct (getitem (b_par st) (NStr c)) as [old|e]; [|reflexivity]. cbn [bind]. now apply rows_same.
Qed.
Lemma loop_same fuel fl : forall n ls ms st, same_lines ls ms -> bif_loop n fuel fl ls st = bif_loop n fuel fl ms st.
Proof.
  induction n as [|n IH]; intros ls ms st H; [reflexivity|]. cbn [bif_loop]. destruct H as [|l m ls ms S H]; [reflexivity|].
  rewrite (same_contains "variable" l m), (same_contains "probability" l m) by (discriminate || (apply no_blankb; reflexivity) || exact S).
  match goal with |- bind ?x _ = bind ?y _ => assert (Q : same_res x y) end.
  { destruct (contains "variable" m); [now apply variable_same|]. destruct (contains "probability" m); [now apply probability_same|now split]. }
  unfold same_res in Q.
  match goal with |- bind ?x _ = bind ?y _ => destruct x as [[a la]|e]; destruct y as [[b lb]|e'] end; try contradiction; cbn [bind fst snd]; [|now subst].
  destruct Q as [-> Q]. now apply IH.
Qed.
Lemma read_same fuel o fl ls ms : same_lines ls ms -> read_bif fuel o fl ls = read_bif fuel o fl ms.
Proof. intros H. unfold read_bif. rewrite (same_len ls ms H). now rewrite (loop_same fuel fl _ ls ms). Qed.

(** lines before the first declaration *)
Lemma read_preamble fuel o fl pre ls : Forall (fun l => contains "variable" l = false /\ contains "probability" l = false) pre ->
  read_bif fuel o fl (pre ++ ls)%list = read_bif fuel o fl ls.
Proof.
  intros H. unfold read_bif. assert (E : bif_loop (S (length (pre ++ ls)%list)) fuel fl (pre ++ ls)%list (mkB [] [] [] None) = bif_loop (S (length ls)) fuel fl ls (mkB [] [] [] None)).
  { induction H as [|l pre [A B] H IH]; [reflexivity|]. rewrite <- app_comm_cons. cbn [length]. remember (S (length (pre ++ ls)%list)) as n. cbn [bif_loop]. rewrite A, B. cbn [bind fst snd]. exact IH. }
  now rewrite E.
Qed.
