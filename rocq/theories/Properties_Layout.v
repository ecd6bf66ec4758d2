(** Properties_Layout.v -- C151: the layout of a .bif file. *)
From Verif Require Import Py Num Text BayesNet SpecFactor SpecGraph Graph GraphNet IO SpecIO BifFacts BifNet BifLayout Examples Properties_IO.
From Coq Require Import Ascii.
Open Scope nat_scope.
Open Scope string_scope.

(** two files whose lines have the same words, separated by any blanks (indentation, tabs, trailing blanks, CR LF), are read alike:
    the same network or the same exception *)
Theorem C151_layout : forall fuel o fl ls ms, Forall2 same_words ls ms -> read_bif fuel o fl ls = read_bif fuel o fl ms.
Proof. exact read_same. Qed.
Print Assumptions C151_layout.
(** lines before the first declaration (comments, properties) do not matter, unless they contain one of the two keywords *)
Theorem C151_preamble : forall fuel o fl pre ls, Forall (fun l => contains "variable" l = false /\ contains "probability" l = false) pre ->
  read_bif fuel o fl (pre ++ ls)%list = read_bif fuel o fl ls.
Proof. exact read_preamble. Qed.
Print Assumptions C151_preamble.
(** hence C50_network for every layout of the document *)
Theorem C151_document : forall fuel o fl count d pre ls, good o -> bif_ok count d -> bif_net fl d ->
  (forall v, ~ clos_trans string (doc_edge d) v v) ->
  (forall p, In p (d_probs d) -> bp_parents p <> [] -> length (vals_of d (bp_child p)) = last_card d) ->
  Forall (fun l => contains "variable" l = false /\ contains "probability" l = false) pre ->
  Forall2 same_words (print_bif count d) ls ->
  exists bn, read_bif fuel o fl (pre ++ ls)%list = Ok bn /\ wfnet bn /\ agree bn /\
    Permutation (bn_V bn) (map NStr (map bv_name (d_vars d))) /\
    (forall p, In p (d_probs d) -> nparents bn (NStr (bp_child p)) = map NStr (bp_parents p) /\ nvalues bn (NStr (bp_child p)) = map NStr (vals_of d (bp_child p))) /\
    (forall p r j x a, In p (d_probs d) -> In r (bp_rows p) -> nth_error (snd r) j = Some x -> a (NStr (bp_child p)) = j ->
       valid (ncard bn) (map NStr (bp_parents p)) a -> fst r = map (fun q => nth (a (NStr q)) (vals_of d q) "") (bp_parents p) ->
       cond_prob bn (NStr (bp_child p)) a = Some (num fl x)).
Proof.
  intros fuel o fl count d pre ls Go K B Ac Cd Pre L. rewrite read_preamble by exact Pre. rewrite <- (read_same fuel o fl _ _ L).
  now apply C50_network.
Qed.
Print Assumptions C151_document.

(** examples: the document of C50 with tabs and CR LF line ends, after two lines of comment *)
Definition tab : ascii := ascii_of_nat 9.
Definition cr : ascii := ascii_of_nat 13.
Fixpoint tabbed (s : string) : string :=
  match s with
  | EmptyString => EmptyString
  | String c r => if Ascii.eqb c space then String tab (String space (tabbed r)) else if Ascii.eqb c (ascii_of_nat 10) then String cr (String c (tabbed r)) else String c (tabbed r)
  end.
(** a procedure that finds the words *)
Definition blankb (c : ascii) : bool := existsb (Nat.eqb (nat_of_ascii c)) blank_codes.
Lemma blankb_ok c : blankb c = true <-> blank c.
Proof. unfold blankb, blank. rewrite existsb_exists. split; [intros (x & H & E); apply Nat.eqb_eq in E; now subst|intros H; exists (nat_of_ascii c); split; [exact H|apply Nat.eqb_refl]]. Qed.
Lemma blank_cons c ws s : blank c -> layout ws s -> layout ws (String c s).
Proof.
  intros B L. destruct L as [b A|b w A N W|b w d r ws A N W D L].
  - apply lay_blank. now split.
  - change (String c (b ++ w)) with (String c b ++ w). apply lay_last; [now split|assumption|assumption].
  - change (String c (b ++ w ++ String d r)) with (String c b ++ w ++ String d r). apply lay_word; [now split|assumption|assumption|assumption|assumption].
Qed.
Lemma no_blank_app a b : no_blank a -> no_blank b -> no_blank (a ++ b).
Proof. induction a as [|c a IH]; [auto|]. intros [A B] C. split; [exact A|now apply IH]. Qed.
Lemma layout_split s : forall cur, no_blank cur -> layout (words_acc is_ws s cur) (cur ++ s).
Proof.
  induction s as [|c s IH]; intros cur N; cbn [words_acc].
  - rewrite sapp_nil. destruct cur as [|x cur]; [apply lay_blank; exact I|]. apply (lay_last "" (String x cur)); [exact I|discriminate|exact N].
  - destruct (is_ws c) eqn:E.
    + apply blank_ws in E. specialize (IH EmptyString I). change (EmptyString ++ s) with s in IH. destruct cur as [|x cur]; [now apply blank_cons|].
      apply (lay_word "" (String x cur)); [exact I|discriminate|exact N|exact E|exact IH].
    + apply not_blank_ws in E. specialize (IH (cur ++ String c EmptyString)). rewrite sapp_assoc in IH. apply IH. apply no_blank_app; [exact N|split; [exact E|exact I]].
Qed.
Lemma same_words_split s t : split s = split t -> same_words s t.
Proof. intros E. exists (split s). split; [apply (layout_split s EmptyString I)|rewrite E; apply (layout_split t EmptyString I)]. Qed.
Definition textT : list string := map tabbed (print_bif two docC).
Example C151_nonvacuous1 : Forall2 same_words (print_bif two docC) textT /\ textT <> print_bif two docC.
Proof.
  split.
  - assert (H : map split (print_bif two docC) = map split textT) by (vm_compute; reflexivity).
    revert H. generalize textT, (print_bif two docC). intros l m. revert l. induction m as [|x m IH]; intros [|y l] H; try discriminate H; constructor.
    + apply same_words_split. injection H. auto.
    + apply IH. injection H. auto.
  - intros H. vm_compute in H. congruence.
Qed.
Definition preT : list string := ["// cancer, three nodes" ++ nl; nl].
Example C151_nonvacuous2 : Forall (fun l => contains "variable" l = false /\ contains "probability" l = false) preT.
Proof. repeat constructor. Qed.
Example C151_nonvacuous3 : exists bn, read_bif 0 id_oracle fl0 (preT ++ textT)%list = Ok bn /\ wfnet bn /\ cond_prob bn (NStr "Cancer") (fun v => if name_eqb v (NStr "Cancer") then 1 else 0) = Some (qq 7 10).
Proof.
  assert (A := C50_nonvacuous3).
  destruct (C151_document 0 id_oracle fl0 two docC preT textT good_id C50_nonvacuous1 C50_nonvacuous2 (proj1 A) (proj2 A) C151_nonvacuous2 (proj1 C151_nonvacuous1)) as (bn & E & W & _ & _ & NV & CP).
  exists bn. split; [exact E|]. split; [exact W|].
  set (p := nth 2 (d_probs docC) (mkBP "" [] [])). assert (Hp : In p (d_probs docC)) by (right; right; left; reflexivity).
  replace (qq 7 10) with (num fl0 "0.7") by reflexivity.
  apply (CP p (["low"; "True"], ["0.3"; "0.7"]) 1 "0.7"); [exact Hp|left; reflexivity|reflexivity|reflexivity| |reflexivity].
  intros v Hv. simpl in Hv. unfold ncard. 
  assert (NP := NV (nth 0 (d_probs docC) p) (or_introl eq_refl)). assert (NS := NV (nth 1 (d_probs docC) p) (or_intror (or_introl eq_refl))).
  destruct NP as [_ NP], NS as [_ NS]; unfold nvalues in NP, NS; cbn [nth d_probs docC bp_child] in NP, NS.
  destruct Hv as [<-|[<-|[]]]; [destruct (dget (bn_F bn) (NStr "Pollution")) as [d|]|destruct (dget (bn_F bn) (NStr "Smoker")) as [d|]]; try discriminate NP; try discriminate NS; [rewrite NP|rewrite NS]; vm_compute; lia.
Qed.
(** but a word may not be glued to a parenthesis: without the blank after "(" the child is looked up under the name "|" *)
Theorem C151_glued_refuted : exists l l' ls, print_bif two docC = (ls ++ l :: skipn (S (length ls)) (print_bif two docC))%list /\
  l = "probability ( Cancer | Pollution, Smoker ) {" ++ nl /\ l' = "probability (Cancer | Pollution, Smoker ) {" ++ nl /\
  (forall fuel o, read_bif fuel o fl0 (ls ++ l' :: skipn (S (length ls)) (print_bif two docC))%list = Raise KeyError).
Proof.
  exists ("probability ( Cancer | Pollution, Smoker ) {" ++ nl), ("probability (Cancer | Pollution, Smoker ) {" ++ nl), (firstn 17 (print_bif two docC)).
  split; [vm_compute; reflexivity|]. split; [reflexivity|]. split; [reflexivity|]. intros fuel o.
  unfold read_bif. match goal with |- bind ?x _ = _ => assert (E : x = Raise KeyError) end; [|now rewrite E].
  vm_compute. reflexivity.
Qed.
Print Assumptions C151_glued_refuted.
