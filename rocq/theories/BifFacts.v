(** BifFacts.v -- reading the text printed by SpecIO. *)
From Verif Require Import Py Num Text BayesNet SpecFactor SpecGraph Graph GraphNet NaiveFacts HeapEdit IO SpecIO Properties_Graph.
From Verif Require SampleFacts.
From Coq Require Import Ascii.
Open Scope nat_scope.
Open Scope string_scope.

Ltac wrd := split; [discriminate|reflexivity].

Lemma schars_weaken f g s : (forall c, f c = true -> g c = true) -> schars f s = true -> schars g s = true.
Proof. intros H. induction s as [|c s IH]; simpl; [auto|]. intros E. apply andb_prop in E as [E1 E2]. rewrite (H _ E1). auto. Qed.
Lemma word_weaken p q t : (forall c, p c = true -> q c = true) -> word q t -> word p t.
Proof.
  intros H [N W]. split; [exact N|]. revert W. apply schars_weaken. intros c E. specialize (H c). destruct (p c); [|reflexivity]. rewrite H in E; auto.
Qed.
Lemma separator_eq c : separator c = is_ws c || existsb (Ascii.eqb c) (map ascii_of_nat [44; 59; 40; 41; 125]).
Proof. destruct c as [[] [] [] [] [] [] [] []]; reflexivity. Qed.
Lemma token_ws t : token t -> word is_ws t.
Proof. apply word_weaken. intros c H. rewrite separator_eq. now rewrite H. Qed.
Definition ws_comma (c : ascii) : bool := is_ws c || Ascii.eqb c comma.
Lemma token_wc t : token t -> word ws_comma t.
Proof. apply word_weaken. intros c H. rewrite separator_eq. unfold ws_comma in *. simpl. change comma with (ascii_of_nat 44) in H. simpl in H. destruct (is_ws c); [reflexivity|]. simpl in *. now rewrite H. Qed.
Definition ws_row (c : ascii) : bool := (((is_ws c || Ascii.eqb c rparen) || Ascii.eqb c lparen) || Ascii.eqb c semicolon) || Ascii.eqb c comma.
Lemma ws_row_sep c : ws_row c = true -> separator c = true.
Proof.
  rewrite separator_eq. unfold ws_row, rparen, lparen, semicolon, comma. simpl existsb. generalize (is_ws c), (Ascii.eqb c (ascii_of_nat 44)), (Ascii.eqb c (ascii_of_nat 59)), (Ascii.eqb c (ascii_of_nat 40)), (Ascii.eqb c (ascii_of_nat 41)), (Ascii.eqb c (ascii_of_nat 125)).
  now intros [] [] [] [] [] [].
Qed.
Lemma token_row t : token t -> word ws_row t. Proof. apply word_weaken, ws_row_sep. Qed.
Lemma split_comma s : split (replace comma s) = words ws_comma s.
Proof. unfold split. rewrite words_replace by reflexivity. reflexivity. Qed.
Lemma split_row s : split (replace rparen (replace lparen (replace semicolon (replace comma s)))) = words ws_row s.
Proof. unfold split. rewrite !words_replace by reflexivity. reflexivity. Qed.
Definition ws_prior (c : ascii) : bool := (is_ws c || Ascii.eqb c comma) || Ascii.eqb c semicolon.
Lemma split_prior s : split (replace comma (replace semicolon s)) = words ws_prior s.
Proof. unfold split. rewrite !words_replace by reflexivity. reflexivity. Qed.
Lemma token_prior t : token t -> word ws_prior t.
Proof. apply word_weaken. intros c H. apply ws_row_sep. revert H. unfold ws_prior, ws_row.
  generalize (is_ws c), (Ascii.eqb c rparen), (Ascii.eqb c lparen), (Ascii.eqb c comma), (Ascii.eqb c semicolon). now intros [] [] [] [] []. Qed.

Lemma slice_mid {A} (p m z : list A) : slice_to (length p) (length z) (p ++ m ++ z) = m.
Proof.
  unfold slice_to. rewrite !app_length. replace (length p + (length m + length z) - length z) with (length (p ++ m)%list) by (rewrite app_length; lia).
  rewrite app_assoc, firstn_app, Nat.sub_diag, firstn_all. simpl. rewrite app_nil_r, skipn_app, Nat.sub_diag, skipn_all. reflexivity.
Qed.
Lemma contains_self k s : contains k (k ++ s) = true.
Proof.
  assert (P : String.prefix k (k ++ s) = true). { induction k as [|c k IH]; [simpl; destruct s; reflexivity|]. simpl. destruct (ascii_dec c c); [exact IH|congruence]. }
  destruct (k ++ s); cbn [contains]; rewrite P; reflexivity.
Qed.

(** ** Declarations *)
Lemma read_var_line1 v : token v -> split ("variable " ++ v ++ " {" ++ nl) = ["variable"; v; "{"].
Proof.
  intros T. unfold split. change ("variable " ++ v ++ " {" ++ nl) with ("variable" ++ String " " (v ++ String " " ("{" ++ nl))).
  rewrite words_word by (wrd || reflexivity). rewrite words_word by (try apply token_ws; auto). reflexivity.
Qed.
Lemma read_var_line2 c vs : token c -> (forall x, In x vs -> token x) ->
  split (replace comma ("  type discrete [ " ++ c ++ " ] { " ++ join ", " vs ++ " };" ++ nl)) = ("type" :: "discrete" :: "[" :: c :: "]" :: "{" :: vs ++ ["};"])%list.
Proof.
  intros Tc Tv. rewrite split_comma.
  change ("  type discrete [ " ++ c ++ " ] { " ++ join ", " vs ++ " };" ++ nl)
    with (String " " (String " " ("type" ++ String " " ("discrete" ++ String " " ("[" ++ String " " (c ++ String " " ("]" ++ String " " ("{" ++ String " " (join (String "," (String " " "")) vs ++ String " " ("};" ++ nl)))))))))).
  rewrite !words_sep by reflexivity. rewrite words_word by (wrd || reflexivity). rewrite words_word by (wrd || reflexivity). rewrite words_word by (wrd || reflexivity).
  rewrite words_word by (try apply token_wc; auto). rewrite words_word by (wrd || reflexivity). rewrite words_word by (wrd || reflexivity).
  rewrite words_join; try reflexivity. intros t Ht. now apply token_wc, Tv.
Qed.
Definition declare (st : bifst) (v : bvar) : bifst :=
  mkB (dset (b_par st) (NStr (bv_name v)) []) (dset (b_cpt st) (NStr (bv_name v)) []) (dset (b_vals st) (NStr (bv_name v)) (map NStr (bv_vals v))) (Some (NStr (bv_name v))).
Lemma brace_line n fuel fl rest st : length rest < n -> bif_loop (S n) fuel fl (("}" ++ nl) :: rest) st = bif_loop n fuel fl rest st.
Proof. reflexivity. Qed.
Lemma read_var v c st n fuel fl rest : token (bv_name v) -> token c -> (forall x, In x (bv_vals v) -> token x) ->
  length (print_var v c ++ rest) < n -> exists n', length rest < n' /\ bif_loop n fuel fl (print_var v c ++ rest) st = bif_loop n' fuel fl rest (declare st v).
Proof.
  intros Tn Tc Tv L. unfold print_var in *. simpl length in L. destruct n as [|[|n]]; try lia. exists n. split; [lia|].
  cbn [List.app bif_loop]. change ("variable " ++ bv_name v ++ " {" ++ nl) with ("variable" ++ (" " ++ bv_name v ++ " {" ++ nl)). rewrite contains_self.
  unfold bif_variable. change ("variable" ++ (" " ++ bv_name v ++ " {" ++ nl)) with ("variable " ++ bv_name v ++ " {" ++ nl). rewrite read_var_line1 by assumption.
  cbn [nget nth_error bind readline]. rewrite read_var_line2 by assumption. unfold nget. cbn [nth_error bind fst snd].
  change (slice_to 6 1 ("type" :: "discrete" :: "[" :: c :: "]" :: "{" :: bv_vals v ++ ["};"]))%list
    with (slice_to (length ["type"; "discrete"; "["; c; "]"; "{"]) (length ["};"]) (["type"; "discrete"; "["; c; "]"; "{"] ++ bv_vals v ++ ["};"]))%list.
  rewrite slice_mid. reflexivity.
Qed.
Lemma read_vars vs count : forall st n fuel fl rest, (forall v, In v vs -> token (bv_name v) /\ token (count v) /\ forall x, In x (bv_vals v) -> token x) ->
  length (flat_map (fun v => print_var v (count v)) vs ++ rest) < n ->
  exists n', length rest < n' /\ bif_loop n fuel fl (flat_map (fun v => print_var v (count v)) vs ++ rest) st = bif_loop n' fuel fl rest (fold_left declare vs st).
Proof.
  induction vs as [|v vs IH]; intros st n fuel fl rest H L; [exists n; split; [exact L|reflexivity]|].
  cbn [flat_map] in *. rewrite <- app_assoc in *. destruct (H v (or_introl eq_refl)) as (T1 & T2 & T3).
  destruct (read_var v (count v) st n fuel fl _ T1 T2 T3 L) as (n1 & L1 & E1). destruct (IH (declare st v) n1 fuel fl rest) as (n2 & L2 & E2); [intros; apply H; now right|exact L1|].
  exists n2. split; [exact L2|]. rewrite E1, E2. reflexivity.
Qed.
Lemma declared vs : NoDup (map bv_name vs) ->
  fold_left declare vs (mkB [] [] [] None) =
  mkB (map (fun v => (NStr (bv_name v), [])) vs) (map (fun v => (NStr (bv_name v), [])) vs) (map (fun v => (NStr (bv_name v), map NStr (bv_vals v))) vs)
    (match rev vs with v :: _ => Some (NStr (bv_name v)) | [] => None end).
Proof.
  rewrite <- (rev_involutive vs). generalize (rev vs) as l. clear vs. induction l as [|v l IH]; intros N; [reflexivity|].
  simpl rev in *. rewrite fold_left_app. rewrite map_app in N. apply NoDup_remove in N as [N1 N2]. rewrite app_nil_r in *. rewrite IH by assumption.
  assert (F : forall {A} (g : bvar -> A), ~ In (NStr (bv_name v)) (dkeys (map (fun v => (NStr (bv_name v), g v)) (rev l)))).
  { intros A g H. unfold dkeys in H. rewrite map_map in H. apply in_map_iff in H as (w & E & Hw). simpl in E. injection E as E. apply N2. rewrite <- E. now apply in_map. }
  simpl. unfold declare. simpl. rewrite !dset_fresh by apply F. rewrite rev_app_distr, rev_involutive. simpl. rewrite !map_app. reflexivity.
Qed.

(** ** Tables *)
Definition takes (k : nat) (p : bprob) (r : list string * list string) : list string :=
  match bp_parents p with [] => snd r | _ => last_n k (fst r ++ snd r) end.
Definition table_read (fl : string -> option Qc) (k : nat) (p : bprob) : res (list (list Qc)) := mapM (fun r => floats fl (takes k p r)) (bp_rows p).

Lemma row_words r : (forall x, In x (fst r ++ snd r)%list -> token x) -> words ws_row (print_row r) = (fst r ++ snd r)%list.
Proof.
  intros T. unfold print_row.
  change ("  (" ++ join ", " (fst r) ++ ") " ++ join ", " (snd r) ++ ";" ++ nl)
    with (String " " (String " " (String "(" (join (String "," (String " " "")) (fst r) ++ String ")" (String " " (join (String "," (String " " "")) (snd r) ++ String ";" nl)))))).
  rewrite !words_sep by reflexivity. rewrite words_join; try reflexivity; [|intros t Ht; apply token_row, T, in_app_iff; auto].
  rewrite words_sep by reflexivity. rewrite words_join; try reflexivity; [|intros t Ht; apply token_row, T, in_app_iff; auto].
  change (words ws_row nl) with (@nil string). now rewrite app_nil_r.
Qed.
Lemma schars_app f a b : schars f (a ++ b) = schars f a && schars f b.
Proof. induction a as [|c a IH]; simpl; [reflexivity|]. now rewrite IH, andb_assoc. Qed.
Lemma schars_join f sep ts : schars f sep = true -> (forall t, In t ts -> schars f t = true) -> schars f (join sep ts) = true.
Proof.
  intros S H. induction ts as [|t r IH]; [reflexivity|]. destruct r as [|u r]; [apply H; now left|].
  change (join sep (t :: u :: r)) with (t ++ sep ++ join sep (u :: r)). rewrite !schars_app, S, (H t (or_introl eq_refl)), IH; [reflexivity|]. intros; apply H; now right.
Qed.
Lemma token_brace t : token t -> schars (fun x => negb (Ascii.eqb x (ascii_of_nat 125))) t = true.
Proof. intros [_ H]. revert H. apply schars_weaken. intros c. unfold separator. simpl. destruct (Ascii.eqb c (ascii_of_nat 125)); [|reflexivity]. rewrite !orb_true_r. auto. Qed.
Lemma row_no_brace r : (forall x, In x (fst r ++ snd r)%list -> token x) -> contains rbrace (print_row r) = false.
Proof.
  intros T. unfold rbrace. rewrite contains_char. unfold print_row. rewrite !schars_app.
  rewrite !schars_join; try reflexivity; intros t Ht; apply token_brace, T, in_app_iff; auto.
Qed.
Definition with_cpt (st : bifst) (child : name) (c : list (list Qc)) : bifst := mkB (b_par st) (dset (b_cpt st) child c) (b_vals st) (b_last st).
Lemma read_rows fl child rest nv vs : forall rows fuel st c, length rows < fuel -> (forall r x, In r rows -> In x (fst r ++ snd r)%list -> token x) ->
  b_last st = Some nv -> dget (b_vals st) nv = Some vs -> dget (b_cpt st) child = Some c ->
  bif_rows fuel fl child (map print_row rows ++ ("}" ++ nl) :: rest) st =
    bind (mapM (fun r => floats fl (last_n (length vs) (fst r ++ snd r))) rows) (fun qss => Ok (with_cpt st child (c ++ qss)%list, rest)).
Proof.
  induction rows as [|r rows IH]; intros fuel st c L T EL EV EC; (destruct fuel as [|fuel]; [simpl in L; lia|]).
  - cbn. unfold with_cpt. rewrite app_nil_r, dset_same by assumption. destruct st; reflexivity.
  - assert (Tr : forall x, In x (fst r ++ snd r)%list -> token x) by (intros x; apply T; now left).
    cbn [map List.app bif_rows readline]. rewrite row_no_brace by assumption. rewrite split_row, row_words by assumption. rewrite EL. cbn [bind].
    rewrite (getitem_Some _ _ _ EV). cbn [bind mapM]. destruct (floats fl (last_n (length vs) (fst r ++ snd r))) as [q|e]; [|reflexivity]. cbn [bind].
    rewrite (getitem_Some _ _ _ EC). cbn [bind]. rewrite <- EL.
    match goal with |- bif_rows _ _ _ _ ?s = _ => change s with (with_cpt st child (c ++ [q])%list) end.
    rewrite (IH fuel (with_cpt st child (c ++ [q])%list) (c ++ [q])%list).
    + destruct (mapM _ rows) as [qss|e]; [|reflexivity]. cbn [bind]. unfold with_cpt. simpl. rewrite dset_dset. rewrite <- app_assoc. reflexivity.
    + simpl in L; lia.
    + intros r' x H1. apply T. now right.
    + exact EL.
    + exact EV.
    + simpl. rewrite dget_dset, name_eqb_refl. reflexivity.
Qed.

Lemma no_kw_prob k c ps : k = "variable" -> contains k c = false -> existsb (contains k) ps = false ->
  contains k ("probability ( " ++ c ++ " | " ++ join ", " ps ++ " ) {" ++ nl) = false.
Proof.
  intros -> Hc Hp. change ("probability ( " ++ c ++ " | " ++ join ", " ps ++ " ) {" ++ nl)
    with ("probability" ++ String " " ("(" ++ String " " (c ++ String " " ("|" ++ String " " (join (String "," (String " " "")) ps ++ String " " (")" ++ String " " ("{" ++ nl))))))).
  rewrite !contains_app by (reflexivity || discriminate). rewrite contains_join by (reflexivity || discriminate). rewrite Hc, Hp. reflexivity.
Qed.
Lemma no_kw_prior k c : k = "variable" -> contains k c = false -> contains k ("probability ( " ++ c ++ " ) {" ++ nl) = false.
Proof.
  intros -> Hc. change ("probability ( " ++ c ++ " ) {" ++ nl) with ("probability" ++ String " " ("(" ++ String " " (c ++ String " " (")" ++ String " " ("{" ++ nl))))).
  rewrite !contains_app by (reflexivity || discriminate). rewrite Hc. reflexivity.
Qed.
Lemma prob_words c ps : token c -> (forall x, In x ps -> token x) ->
  split (replace comma ("probability ( " ++ c ++ " | " ++ join ", " ps ++ " ) {" ++ nl)) = ("probability" :: "(" :: c :: "|" :: ps ++ [")"; "{"])%list.
Proof.
  intros Tc Tp. rewrite split_comma. change ("probability ( " ++ c ++ " | " ++ join ", " ps ++ " ) {" ++ nl)
    with ("probability" ++ String " " ("(" ++ String " " (c ++ String " " ("|" ++ String " " (join (String "," (String " " "")) ps ++ String " " (")" ++ String " " ("{" ++ nl))))))).
  rewrite words_word by (wrd || reflexivity). rewrite words_word by (wrd || reflexivity). rewrite words_word by (try apply token_wc; auto). rewrite words_word by (wrd || reflexivity).
  rewrite words_join; try reflexivity. intros t Ht. now apply token_wc, Tp.
Qed.
Lemma prior_words c : token c -> split (replace comma ("probability ( " ++ c ++ " ) {" ++ nl)) = ["probability"; "("; c; ")"; "{"].
Proof.
  intros Tc. rewrite split_comma. change ("probability ( " ++ c ++ " ) {" ++ nl) with ("probability" ++ String " " ("(" ++ String " " (c ++ String " " (")" ++ String " " ("{" ++ nl))))).
  rewrite words_word by (wrd || reflexivity). rewrite words_word by (wrd || reflexivity). rewrite words_word by (try apply token_wc; auto). reflexivity.
Qed.
Lemma table_words ns : (forall x, In x ns -> token x) -> words ws_prior ("  table " ++ join ", " ns ++ ";" ++ nl) = "table" :: ns.
Proof.
  intros T. change ("  table " ++ join ", " ns ++ ";" ++ nl) with (String " " (String " " ("table" ++ String " " (join (String "," (String " " "")) ns ++ String ";" nl)))).
  rewrite !words_sep by reflexivity. rewrite words_word by (wrd || reflexivity). rewrite words_join; try reflexivity; [|intros t Ht; now apply token_prior, T].
  change (words ws_prior nl) with (@nil string). now rewrite app_nil_r.
Qed.

Definition add_table (st : bifst) (p : bprob) (qss : list (list Qc)) : bifst :=
  mkB (dset (b_par st) (NStr (bp_child p)) (map NStr (bp_parents p))) (dset (b_cpt st) (NStr (bp_child p)) qss) (b_vals st) (b_last st).
Lemma read_prob p st n fuel fl rest nv vs : 
  token (bp_child p) -> contains "variable" (bp_child p) = false ->
  (forall x, In x (bp_parents p) -> token x /\ contains "variable" x = false) ->
  (forall r x, In r (bp_rows p) -> In x (fst r ++ snd r)%list -> token x) ->
  (bp_parents p = [] -> exists nums, bp_rows p = [([], nums)]) ->
  b_last st = Some nv -> dget (b_vals st) nv = Some vs ->
  dget (b_par st) (NStr (bp_child p)) = Some [] -> dget (b_cpt st) (NStr (bp_child p)) = Some [] ->
  length (print_prob p ++ rest) < n ->
  exists n', length rest < n' /\ bif_loop n fuel fl (print_prob p ++ rest) st = bind (table_read fl (length vs) p) (fun qss => bif_loop n' fuel fl rest (add_table st p qss)).
Proof.
  intros Tc Kc Tp Tr Pr EL EV EP EC L. unfold print_prob in *. destruct n as [|n]; [lia|]. destruct (bp_parents p) as [|p0 ps] eqn:Eps.
  - destruct (Pr eq_refl) as (nums & En). unfold table_read, takes. rewrite En, Eps in *. cbn [map List.app length snd] in *. destruct n as [|n]; [lia|].
    exists n. split; [lia|]. cbn [bif_loop]. rewrite no_kw_prior by auto.
    change ("probability ( " ++ bp_child p ++ " ) {" ++ nl) with ("probability" ++ (" ( " ++ bp_child p ++ " ) {" ++ nl)). rewrite contains_self.
    unfold bif_probability. change ("probability" ++ (" ( " ++ bp_child p ++ " ) {" ++ nl)) with ("probability ( " ++ bp_child p ++ " ) {" ++ nl).
    rewrite prior_words by assumption. unfold nget. cbn [nth_error bind]. change (slice_to 4 2 ["probability"; "("; bp_child p; ")"; "{"]) with (@nil string). cbn [length Nat.eqb readline].
    rewrite split_prior, table_words by (intros x Hx; apply (Tr ([], nums) x); [now left|exact Hx]). rewrite (getitem_Some _ _ _ EC). cbn [bind tl mapM snd].
    destruct (floats fl nums) as [q|e]; [|reflexivity]. cbn [bind fst snd List.app bif_loop]. change (contains "variable" ("}" ++ nl)) with false. change (contains "probability" ("}" ++ nl)) with false.
    cbn [bind fst snd]. unfold add_table. rewrite Eps. cbn [map]. rewrite (dset_same (b_par st)) by assumption. reflexivity.
  - cbn [map List.app length] in L. exists n. split; [rewrite !app_length in L; simpl in L; lia|]. unfold table_read, takes. rewrite Eps.
    set (q := p0 :: ps) in *. cbn [List.app bif_loop]. rewrite no_kw_prob; [|reflexivity|assumption|].
    2:{ destruct (existsb (contains "variable") q) eqn:Eb; [|reflexivity]. apply existsb_exists in Eb as (x & Hx & E). destruct (Tp x Hx) as [_ K]. congruence. }
    change ("probability ( " ++ bp_child p ++ " | " ++ join ", " q ++ " ) {" ++ nl) with ("probability" ++ (" ( " ++ bp_child p ++ " | " ++ join ", " q ++ " ) {" ++ nl)). rewrite contains_self.
    unfold bif_probability. change ("probability" ++ (" ( " ++ bp_child p ++ " | " ++ join ", " q ++ " ) {" ++ nl)) with ("probability ( " ++ bp_child p ++ " | " ++ join ", " q ++ " ) {" ++ nl).
    rewrite prob_words by (try assumption; intros x Hx; now apply Tp). unfold nget. cbn [nth_error bind].
    change (slice_to 4 2 ("probability" :: "(" :: bp_child p :: "|" :: q ++ [")"; "{"]))%list with (slice_to (length ["probability"; "("; bp_child p; "|"]) (length [")"; "{"]) (["probability"; "("; bp_child p; "|"] ++ q ++ [")"; "{"]))%list.
    rewrite slice_mid. change (length q =? 0)%nat with false. cbv beta iota. rewrite (getitem_Some _ _ _ EP). cbn [bind List.app]. rewrite <- app_assoc. cbn [List.app].
    rewrite (read_rows fl (NStr (bp_child p)) rest nv vs (bp_rows p) _ _ []); [|rewrite app_length, map_length; simpl; lia|assumption|exact EL|exact EV|exact EC].
    destruct (mapM (fun r => floats fl (last_n (length vs) (fst r ++ snd r)%list)) (bp_rows p)) as [qss|e]; [|reflexivity]. cbn [bind fst snd List.app]. unfold add_table, with_cpt. rewrite Eps. reflexivity.
Qed.

Definition prob_ok (p : bprob) : Prop :=
  token (bp_child p) /\ contains "variable" (bp_child p) = false /\ (forall x, In x (bp_parents p) -> token x /\ contains "variable" x = false) /\
  (forall r x, In r (bp_rows p) -> In x (fst r ++ snd r)%list -> token x) /\ (bp_parents p = [] -> exists nums, bp_rows p = [([], nums)]).
Definition add_tables (st : bifst) (l : list (bprob * list (list Qc))) : bifst := fold_left (fun st pq => add_table st (fst pq) (snd pq)) l st.

Lemma read_probs_app fl nv vs fuel rest : forall ps st n, (forall p, In p ps -> prob_ok p) -> NoDup (map bp_child ps) ->
  b_last st = Some nv -> dget (b_vals st) nv = Some vs ->
  (forall p, In p ps -> dget (b_par st) (NStr (bp_child p)) = Some [] /\ dget (b_cpt st) (NStr (bp_child p)) = Some []) ->
  length (flat_map print_prob ps ++ rest) < n ->
  exists n', length rest < n' /\ bif_loop n fuel fl (flat_map print_prob ps ++ rest) st =
    bind (mapM (table_read fl (length vs)) ps) (fun qs => bif_loop n' fuel fl rest (add_tables st (combine ps qs))).
Proof.
  induction ps as [|p ps IH]; intros st n Ok' ND EL EV D L.
  - exists n. split; [exact L|reflexivity].
  - cbn [flat_map] in *. rewrite <- app_assoc in *. destruct (Ok' p (or_introl eq_refl)) as (H1 & H2 & H3 & H4 & H5). destruct (D p (or_introl eq_refl)) as [D1 D2].
    destruct (read_prob p st n fuel fl _ nv vs H1 H2 H3 H4 H5 EL EV D1 D2 L) as (n1 & L1 & E1).
    inversion ND as [|? ? N1 N2]; subst.
    destruct (IH (add_table st p []) n1) as (n' & L' & _); [intros; apply Ok'; now right|assumption|exact EL|exact EV| |exact L1|].
    { intros q Hq. destruct (D q (or_intror Hq)) as [E2 E3]. unfold add_table. simpl. rewrite !dget_dset. simpl.
      destruct (String.eqb_spec (bp_child q) (bp_child p)) as [E|E]; [exfalso; apply N1; rewrite <- E; now apply in_map|]. auto. }
    assert (G : forall qss, exists n'', length rest < n'' /\ bif_loop n1 fuel fl (flat_map print_prob ps ++ rest) (add_table st p qss) =
        bind (mapM (table_read fl (length vs)) ps) (fun qs => bif_loop n'' fuel fl rest (add_tables (add_table st p qss) (combine ps qs)))).
    { intros qss. apply IH; [intros; apply Ok'; now right|assumption|exact EL|exact EV| |exact L1].
      intros q Hq. destruct (D q (or_intror Hq)) as [E2 E3]. unfold add_table. simpl. rewrite !dget_dset. simpl.
      destruct (String.eqb_spec (bp_child q) (bp_child p)) as [E|E]; [exfalso; apply N1; rewrite <- E; now apply in_map|]. auto. }
    cbn [mapM]. destruct (table_read fl (length vs) p) as [qss|e].
    + destruct (G qss) as (n2 & L2 & E2). exists n2. split; [exact L2|]. rewrite E1. cbn [bind]. rewrite E2. destruct (mapM _ ps); reflexivity.
    + exists n'. split; [exact L'|]. rewrite E1. reflexivity.
Qed.

(** ** The state after the file *)
Lemma add_tables_spec : forall L st, NoDup (map (fun pq => bp_child (fst pq)) L) ->
  (forall pq, In pq L -> In (NStr (bp_child (fst pq))) (dkeys (b_par st)) /\ In (NStr (bp_child (fst pq))) (dkeys (b_cpt st))) ->
  b_vals (add_tables st L) = b_vals st /\ b_last (add_tables st L) = b_last st /\ dkeys (b_par (add_tables st L)) = dkeys (b_par st) /\ dkeys (b_cpt (add_tables st L)) = dkeys (b_cpt st) /\
  (forall pq, In pq L -> dget (b_par (add_tables st L)) (NStr (bp_child (fst pq))) = Some (map NStr (bp_parents (fst pq))) /\
                         dget (b_cpt (add_tables st L)) (NStr (bp_child (fst pq))) = Some (snd pq)) /\
  (forall v, (forall pq, In pq L -> NStr (bp_child (fst pq)) <> v) -> dget (b_par (add_tables st L)) v = dget (b_par st) v /\ dget (b_cpt (add_tables st L)) v = dget (b_cpt st) v).
Proof.
  induction L as [|pq L IH]; intros st ND K.
  - split; [reflexivity|]. split; [reflexivity|]. split; [reflexivity|]. split; [reflexivity|]. split; [intros pq []|]. auto.
  - inversion ND as [|? ? N1 N2]; subst. destruct (K pq (or_introl eq_refl)) as [K1 K2].
    destruct (IH (add_table st (fst pq) (snd pq)) N2) as (A & B & C & D & E & F).
    { intros q Hq. unfold add_table. simpl. rewrite !dkeys_dset_in by assumption. apply K. now right. }
    unfold add_tables in *. cbn [fold_left]. rewrite A, B, C, D. unfold add_table at 1 2 3 4. simpl. rewrite !dkeys_dset_in by assumption.
    split; [reflexivity|]. split; [reflexivity|]. split; [reflexivity|]. split; [reflexivity|]. split.
    + intros q [<-|Hq]; [|now apply E]. destruct (F (NStr (bp_child (fst pq)))) as [F1 F2].
      { intros r Hr E0. injection E0 as E0. apply N1. rewrite <- E0. now apply (in_map (fun pq => bp_child (fst pq))). }
      rewrite F1, F2. unfold add_table. simpl. rewrite !dget_dset, !name_eqb_refl. auto.
    + intros v Hv. destruct (F v) as [F1 F2]; [intros; apply Hv; now right|]. rewrite F1, F2. unfold add_table. simpl. rewrite !dget_dset.
      destruct (name_eqb_spec v (NStr (bp_child (fst pq)))) as [->|]; [|auto]. exfalso. now apply (Hv pq (or_introl eq_refl)).
Qed.

Definition initial (d : bifdoc) : bifst := fold_left declare (d_vars d) (mkB [] [] [] None).
Definition final (d : bifdoc) (tabs : list (list (list Qc))) : bifst := add_tables (initial d) (combine (d_probs d) tabs).

Lemma doc_prob_ok count d p : bif_ok count d -> In p (d_probs d) -> prob_ok p.
Proof.
  intros K Hp. assert (N : forall x, In x (map bv_name (d_vars d)) -> token x /\ contains "variable" x = false).
  { intros x Hx. apply in_map_iff in Hx as (v & <- & Hv). destruct (bo_name _ _ K v Hv) as (A & B & _). auto. }
  assert (Hc : In (bp_child p) (map bv_name (d_vars d))) by (eapply Permutation_in; [apply (bo_probs _ _ K)|now apply in_map]).
  destruct (N _ Hc) as [T1 T2]. split; [exact T1|]. split; [exact T2|]. split; [intros x Hx; apply N; now apply (bo_par _ _ K p Hp)|].
  split; [intros r x Hr; now apply (bo_rows _ _ K p r Hp Hr)|]. now apply (bo_prior _ _ K).
Qed.
Lemma last_declared d : NoDup (map bv_name (d_vars d)) -> d_vars d <> [] ->
  exists nv vs, b_last (initial d) = Some nv /\ dget (b_vals (initial d)) nv = Some vs /\ length vs = last_card d.
Proof.
  intros N NE. unfold initial. rewrite declared by assumption. unfold last_card. cbn [b_last b_vals].
  destruct (rev (d_vars d)) as [|v r] eqn:E; [exfalso; apply NE; rewrite <- (rev_involutive (d_vars d)), E; reflexivity|].
  exists (NStr (bv_name v)), (map NStr (bv_vals v)). split; [reflexivity|]. split; [|apply map_length].
  assert (I : In v (d_vars d)) by (apply in_rev; rewrite E; now left). clear E NE r.
  induction (d_vars d) as [|w l IH]; [destruct I|]. simpl in *. inversion N; subst. destruct I as [->|I]; [now rewrite String.eqb_refl|].
  destruct (String.eqb_spec (bv_name v) (bv_name w)) as [E|E]; [|auto]. exfalso. apply H1. rewrite <- E. now apply in_map.
Qed.
Lemma initial_par d v : NoDup (map bv_name (d_vars d)) -> In v (map bv_name (d_vars d)) ->
  dget (b_par (initial d)) (NStr v) = Some [] /\ dget (b_cpt (initial d)) (NStr v) = Some [].
Proof.
  intros N Hv. unfold initial. rewrite declared by assumption. cbn [b_par b_cpt].
  assert (G : forall {A}, dget (map (fun v => (NStr (bv_name v), @nil A)) (d_vars d)) (NStr v) = Some []).
  { intros A. clear N. induction (d_vars d) as [|w l IH]; [destruct Hv|]. cbn [map dget name_eqb]. destruct (String.eqb_spec v (bv_name w)); [reflexivity|]. destruct Hv as [E|Hv]; [congruence|auto]. }
  split; apply G.
Qed.

Lemma NoDup_left {A} (a b : list A) : NoDup (a ++ b)%list -> NoDup a.
Proof. induction a as [|x a IH]; intros H; [constructor|]. simpl in H. inversion H; subst. constructor; [|auto]. intros I. apply H2, in_app_iff. auto. Qed.
(** the file up to some table, and any rest *)
Lemma read_doc_app count d ps qs fl fuel rest n : bif_ok count d -> d_probs d = (ps ++ qs)%list ->
  length ([ ("network unknown {" ++ nl)%string; ("}" ++ nl)%string ] ++ flat_map (fun v => print_var v (count v)) (d_vars d) ++ flat_map print_prob ps ++ rest)%list < n ->
  exists n', length rest < n' /\ bif_loop n fuel fl ([ ("network unknown {" ++ nl)%string; ("}" ++ nl)%string ] ++ flat_map (fun v => print_var v (count v)) (d_vars d) ++ flat_map print_prob ps ++ rest)%list (mkB [] [] [] None) =
    bind (mapM (table_read fl (last_card d)) ps) (fun tabs => bif_loop n' fuel fl rest (add_tables (initial d) (combine ps tabs))).
Proof.
  intros K Eq L. cbn [List.app] in *.
  set (vars := flat_map (fun v => print_var v (count v)) (d_vars d)) in *.
  destruct n as [|[|n]]; [simpl in L; lia|simpl in L; lia|].
  assert (E0 : bif_loop (S (S n)) fuel fl (("network unknown {" ++ nl) :: ("}" ++ nl) :: vars ++ flat_map print_prob ps ++ rest) (mkB [] [] [] None)
    = bif_loop n fuel fl (vars ++ flat_map print_prob ps ++ rest) (mkB [] [] [] None)) by reflexivity. rewrite E0. clear E0.
  destruct (read_vars (d_vars d) count (mkB [] [] [] None) n fuel fl (flat_map print_prob ps ++ rest)) as (n1 & L1 & E1).
  { intros v Hv. destruct (bo_name _ _ K v Hv) as (A & _). destruct (bo_vals _ _ K v Hv). auto. }
  { simpl in L. fold vars. lia. }
  fold vars in E1. rewrite E1. fold (initial d). destruct (d_vars d) as [|v0 vr] eqn:EV.
  - pose proof (bo_probs _ _ K) as P. rewrite EV in P. apply Permutation_sym, Permutation_nil in P. apply map_eq_nil in P. rewrite P in Eq. symmetry in Eq. apply app_eq_nil in Eq as [-> _]. exists n1. split; [exact L1|]. reflexivity.
  - assert (ND : NoDup (map bv_name (d_vars d))) by apply (bo_names _ _ K).
    destruct (last_declared d ND) as (nv & vs & EL & EVs & Lk); [rewrite EV; discriminate|]. rewrite <- Lk.
    apply (read_probs_app fl nv vs fuel rest ps (initial d) n1); [| |exact EL|exact EVs| |exact L1].
    + intros p Hp. apply (doc_prob_ok count d); [exact K|]. rewrite Eq. apply in_app_iff. auto.
    + assert (NDc : NoDup (map bp_child (d_probs d))) by (eapply Permutation_NoDup; [symmetry; apply (bo_probs _ _ K)|exact ND]).
      rewrite Eq, map_app in NDc. exact (NoDup_left _ _ NDc).
    + intros p Hp. apply initial_par; [exact ND|]. eapply Permutation_in; [apply (bo_probs _ _ K)|]. rewrite Eq. apply in_map, in_app_iff. auto.
Qed.
Lemma read_bif_eq count d fl fuel o : bif_ok count d ->
  read_bif fuel o fl (print_bif count d) = bind (mapM (table_read fl (last_card d)) (d_probs d)) (fun tabs => bif_network o (final d tabs)).
Proof.
  intros K. unfold read_bif. destruct (read_doc_app count d (d_probs d) [] fl fuel [] (S (length (print_bif count d))) K) as (n' & L & E); [now rewrite app_nil_r|unfold print_bif; rewrite app_nil_r; lia|].
  rewrite app_nil_r in E. unfold print_bif in *. rewrite E. fold (final d). destruct (mapM (table_read fl (last_card d)) (d_probs d)) as [tabs|e]; [|reflexivity]. cbn [bind].
  destruct n' as [|n']; [simpl in L; lia|]. reflexivity.
Qed.

Lemma mapM_err {A B} (f : A -> res B) e0 l : (forall x e, In x l -> f x = Raise e -> e = e0) -> (exists x e, In x l /\ f x = Raise e) -> mapM f l = Raise e0.
Proof.
  induction l as [|x l IH]; intros H (y & e & I & E); [destruct I|]. simpl. destruct (f x) as [b|e'] eqn:Ex.
  - cbn [bind]. rewrite IH; [reflexivity|intros x' e'' Hx' He'; apply (H x' e''); [now right|exact He']|]. destruct I as [->|I]; [congruence|eauto].
  - cbn [bind]. f_equal. apply (H x e'); [now left|assumption].
Qed.
Lemma mapM_only {A B} (f : A -> res B) e0 l e : (forall x e, In x l -> f x = Raise e -> e = e0) -> mapM f l = Raise e -> e = e0.
Proof.
  induction l as [|x l IH]; intros H E; simpl in E; [discriminate|]. destruct (f x) as [b|e'] eqn:Ex; cbn [bind] in E.
  - destruct (mapM f l); [discriminate|]. injection E as <-. apply IH; [intros x' e'' Hx' He'; apply (H x' e''); [now right|exact He']|reflexivity].
  - injection E as <-. apply (H x e'); [now left|assumption].
Qed.
Lemma floats_ok fl l : (forall x, In x l -> fl x <> None) -> floats fl l = Ok (map (num fl) l).
Proof. intros H. apply mapM_ok. intros x Hx. unfold num. destruct (fl x) eqn:E; [reflexivity|]. exfalso. now apply (H x Hx). Qed.
Lemma floats_err fl l e : floats fl l = Raise e -> e = ValueError.
Proof. apply mapM_only. intros x e' _. destruct (fl x); congruence. Qed.
Lemma floats_bad fl l : (exists x, In x l /\ fl x = None) -> floats fl l = Raise ValueError.
Proof. intros (x & Hx & E). apply mapM_err; [intros y e _; destruct (fl y); congruence|]. exists x, ValueError. rewrite E. auto. Qed.
Lemma takes_taken d p r : takes (last_card d) p r = taken d p r. Proof. reflexivity. Qed.

Definition tables (fl : string -> option Qc) (d : bifdoc) : list (list (list Qc)) := map (fun p => map (fun r => map (num fl) (taken d p r)) (bp_rows p)) (d_probs d).
Lemma tables_ok fl d : (forall p r x, In p (d_probs d) -> In r (bp_rows p) -> In x (taken d p r) -> fl x <> None) ->
  mapM (table_read fl (last_card d)) (d_probs d) = Ok (tables fl d).
Proof. intros H. apply mapM_ok. intros p Hp. apply mapM_ok. intros r Hr. apply floats_ok. intros x Hx. now apply (H p r). Qed.
Lemma tables_err fl d e : mapM (table_read fl (last_card d)) (d_probs d) = Raise e -> e = ValueError.
Proof. apply mapM_only. intros p e' _. apply mapM_only. intros r e2 _. apply floats_err. Qed.
Lemma tables_bad fl d : (exists p r x, In p (d_probs d) /\ In r (bp_rows p) /\ In x (taken d p r) /\ fl x = None) ->
  mapM (table_read fl (last_card d)) (d_probs d) = Raise ValueError.
Proof.
  intros (p & r & x & Hp & Hr & Hx & E). apply mapM_err; [intros q e' _; apply mapM_only; intros r' e2 _; apply floats_err|].
  exists p, ValueError. split; [exact Hp|]. apply mapM_err; [intros r' e2 _; apply floats_err|]. exists r, ValueError. split; [exact Hr|]. apply floats_bad. exists x. auto.
Qed.

(** ** The network built from the final state *)
Lemma dget_vals d v : In v (map bv_name (d_vars d)) -> dget (map (fun v => (NStr (bv_name v), map NStr (bv_vals v))) (d_vars d)) (NStr v) = Some (map NStr (vals_of d v)).
Proof.
  unfold vals_of. induction (d_vars d) as [|w l IH]; intros H; [destruct H|]. cbn [map dget name_eqb find]. rewrite String.eqb_sym.
  destruct (String.eqb_spec (bv_name w) v); [reflexivity|]. destruct H as [H|H]; [congruence|auto].
Qed.
Lemma names_of_names l : dkeys (map (fun v => (NStr (bv_name v), map NStr (bv_vals v))) l) = map NStr (map bv_name l).
Proof. unfold dkeys. rewrite !map_map. reflexivity. Qed.
Lemma In_NStr x l : In (NStr x) (map NStr l) <-> In x l.
Proof. split; [intros H; apply in_map_iff in H as (y & E & Hy); now injection E as <-|apply in_map]. Qed.
Lemma NoDup_NStr l : NoDup l -> NoDup (map NStr l).
Proof. induction 1 as [|x l N _ IH]; simpl; constructor; [now rewrite In_NStr|assumption]. Qed.

Lemma final_spec count d tabs : bif_ok count d -> length tabs = length (d_probs d) ->
  b_vals (final d tabs) = map (fun v => (NStr (bv_name v), map NStr (bv_vals v))) (d_vars d) /\
  (forall p t, In (p, t) (combine (d_probs d) tabs) -> dget (b_par (final d tabs)) (NStr (bp_child p)) = Some (map NStr (bp_parents p)) /\ dget (b_cpt (final d tabs)) (NStr (bp_child p)) = Some t).
Proof.
  intros K L. pose proof (bo_names _ _ K) as ND.
  assert (EC : map (fun pq : bprob * list (list Qc) => bp_child (fst pq)) (combine (d_probs d) tabs) = map bp_child (d_probs d)).
  { clear K ND. revert tabs L. induction (d_probs d) as [|p l IH]; intros [|t tabs] L; try discriminate; [reflexivity|]. simpl. f_equal. apply IH. now injection L. }
  destruct (add_tables_spec (combine (d_probs d) tabs) (initial d)) as (A & _ & _ & _ & E & _).
  - rewrite EC. eapply Permutation_NoDup; [symmetry; apply (bo_probs _ _ K)|exact ND].
  - intros pq Hpq. assert (I : In (bp_child (fst pq)) (map bv_name (d_vars d))).
    { eapply Permutation_in; [apply (bo_probs _ _ K)|]. rewrite <- EC. now apply (in_map (fun pq : bprob * list (list Qc) => bp_child (fst pq))). }
    destruct (initial_par d _ ND I) as [D1 D2]. split; eapply dget_Some_In; eassumption.
  - unfold final. split; [rewrite A; unfold initial; now rewrite declared|]. intros p t H. apply (E (p, t) H).
Qed.

Lemma bif_network_ok count d tabs o : bif_ok count d -> good o -> length tabs = length (d_probs d) ->
  exists bn, bif_network o (final d tabs) = Ok bn /\
    Permutation (dkeys (bn_F bn)) (map NStr (map bv_name (d_vars d))) /\ dkeys (bn_E bn) = dkeys (bn_F bn) /\
    (forall p t, In (p, t) (combine (d_probs d) tabs) -> dget (bn_F bn) (NStr (bp_child p)) = Some (mkF (map NStr (bp_parents p)) (map NStr (vals_of d (bp_child p))) (concat t))) /\
    (forall u c, dget (bn_E bn) u = Some c -> NoDup c) /\
    (forall u v, edge (bn_E bn) u v <-> exists a b, u = NStr a /\ v = NStr b /\ doc_edge d a b) /\
    topsort (bn_E bn) None = Ok (bn_V bn).
Proof.
  intros K Go L. destruct (final_spec count d tabs K L) as [EV EP]. pose proof (bo_names _ _ K) as ND.
  unfold bif_network. rewrite EV, names_of_names. set (keys := ask o (map NStr (map bv_name (d_vars d)))).
  assert (PK : Permutation keys (map NStr (map bv_name (d_vars d)))) by now apply good_ask.
  assert (NK : NoDup keys) by (eapply Permutation_NoDup; [symmetry; exact PK|now apply NoDup_NStr]).
  (* every key is the child of a table *)
  assert (KP : forall v, In v keys -> exists p t, In (p, t) (combine (d_probs d) tabs) /\ v = NStr (bp_child p)).
  { intros v Hv. eapply Permutation_in in Hv; [|exact PK]. apply in_map_iff in Hv as (x & <- & Hx). eapply Permutation_in in Hx; [|symmetry; apply (bo_probs _ _ K)].
    apply in_map_iff in Hx as (p & <- & Hp). clear -L Hp. revert tabs L. induction (d_probs d) as [|q l IH]; intros [|t tabs] L; try discriminate; [destruct Hp|].
    destruct Hp as [->|Hp]; [exists p, t; split; [now left|reflexivity]|]. destruct (IH Hp tabs) as (p' & t' & I & E); [now injection L|]. exists p', t'. split; [now right|exact E]. }
  set (par := fun v => match dget (b_par (final d tabs)) v with Some l => l | None => [] end).
  set (cp := fun v => match dget (b_cpt (final d tabs)) v with Some l => l | None => [] end).
  set (vl := fun v => match dget (map (fun v => (NStr (bv_name v), map NStr (bv_vals v))) (d_vars d)) v with Some l => l | None => [] end).
  assert (GP : forall v, In v keys -> getitem (b_par (final d tabs)) v = Ok (par v) /\ getitem (b_cpt (final d tabs)) v = Ok (cp v) /\ getitem (map (fun v => (NStr (bv_name v), map NStr (bv_vals v))) (d_vars d)) v = Ok (vl v)).
  { intros v Hv. destruct (KP v Hv) as (p & t & I & ->). destruct (EP p t I) as [E1 E2]. unfold par, cp, vl, getitem. rewrite E1, E2.
    assert (In (bp_child p) (map bv_name (d_vars d))) as Hn by (eapply Permutation_in in Hv; [|exact PK]; now apply In_NStr). rewrite (dget_vals d _ Hn). auto. }
  rewrite (mapM_ok _ (fun rv => (rv, filter (fun c => mem rv (par c)) keys))).
  2:{ intros rv Hrv. rewrite (mapM_ok _ (fun c => (c, mem rv (par c)))); [|intros c Hc; now rewrite (proj1 (GP c Hc))]. cbn [bind]. do 2 f_equal. clear.
      induction keys as [|k l IH]; [reflexivity|]. cbn [map filter snd fst]. destruct (mem rv (par k)); cbn [map fst]; now rewrite IH. }
  cbn [bind]. rewrite (mapM_ok _ (fun rv => (rv, mkF (par rv) (vl rv) (concat (cp rv))))).
  2:{ intros rv Hrv. destruct (GP rv Hrv) as (-> & -> & ->). reflexivity. }
  cbn [bind]. set (E := map (fun rv => (rv, filter (fun c => mem rv (par c)) keys)) keys).
  assert (KE : dkeys E = keys) by apply dkeys_map_pair.
  assert (DE : forall v, In v keys -> dget E v = Some (filter (fun c => mem v (par c)) keys)).
  { intros v Hv. unfold E. rewrite <- (SampleFacts.dict_of_NoDup (map _ keys)); [apply (dget_dict_of_scope (fun rv => filter (fun c => mem rv (par c)) keys)); exact Hv|]. fold (dkeys (map (fun rv => (rv, filter (fun c => mem rv (par c)) keys)) keys)). now rewrite dkeys_map_pair. }
  assert (EE : forall u v, edge E u v <-> In u keys /\ In v keys /\ In u (par v)).
  { intros u v. split.
    - intros (c & Dc & Hv). assert (Hu : In u keys) by (apply dget_Some_In in Dc; now rewrite KE in Dc). rewrite (DE u Hu) in Dc. injection Dc as <-.
      apply filter_In in Hv as [Hv M]. apply mem_In in M. auto.
    - intros (Hu & Hv & I). exists (filter (fun c => mem u (par c)) keys). split; [now apply DE|]. apply filter_In. split; [exact Hv|now apply mem_In]. }
  assert (C : closed_edges E). { split; [now rewrite KE|]. intros u v H. apply EE in H. rewrite KE. tauto. }
  destruct (C20_topsort_reachable E C) as (V & TV & _). rewrite TV. cbn [bind]. eexists. split; [reflexivity|]. cbn [bn_V bn_E bn_F].
  split; [rewrite (dkeys_map_pair (fun rv => mkF (par rv) (vl rv) (concat (cp rv)))); exact PK|]. split; [now rewrite KE, (dkeys_map_pair (fun rv => mkF (par rv) (vl rv) (concat (cp rv))))|].
  assert (PV : forall p t, In (p, t) (combine (d_probs d) tabs) -> par (NStr (bp_child p)) = map NStr (bp_parents p) /\ cp (NStr (bp_child p)) = t).
  { intros p t I. unfold par, cp. destruct (EP p t I) as [-> ->]. auto. }
  assert (CK : forall p, In p (d_probs d) -> In (NStr (bp_child p)) keys).
  { intros p Hp. eapply Permutation_in; [symmetry; exact PK|]. apply in_map. eapply Permutation_in; [apply (bo_probs _ _ K)|now apply in_map]. }
  split.
  { intros p t I. assert (Hk : In (NStr (bp_child p)) keys) by (apply CK; eapply in_combine_l; eassumption).
    rewrite <- (SampleFacts.dict_of_NoDup (map _ keys)); [|fold (dkeys (map (fun rv => (rv, mkF (par rv) (vl rv) (concat (cp rv)))) keys)); now rewrite (dkeys_map_pair (fun rv => mkF (par rv) (vl rv) (concat (cp rv))))].
    rewrite (dget_dict_of_scope (fun rv => mkF (par rv) (vl rv) (concat (cp rv)))) by exact Hk. destruct (PV p t I) as [-> ->]. do 2 f_equal.
    unfold vl. rewrite dget_vals; [reflexivity|]. eapply Permutation_in; [apply (bo_probs _ _ K)|]. apply in_map. eapply in_combine_l; eassumption. }
  split.
  { intros u c Dc. assert (Hu : In u keys) by (apply dget_Some_In in Dc; now rewrite KE in Dc). rewrite (DE u Hu) in Dc. injection Dc as <-. now apply NoDup_filter. }
  split; [|exact TV]. intros u v. rewrite EE. split.
  - intros (Hu & Hv & I). destruct (KP v Hv) as (p & t & Hp & ->). destruct (PV p t Hp) as [Ep _]. rewrite Ep in I. apply in_map_iff in I as (a & <- & Ha).
    exists a, (bp_child p). split; [reflexivity|]. split; [reflexivity|]. exists p. split; [eapply in_combine_l; eassumption|auto].
  - intros (a & b & -> & -> & p & Hp & <- & Ha). split.
    + eapply Permutation_in; [symmetry; exact PK|]. apply in_map. now apply (bo_par _ _ K p Hp).
    + assert (Hk := CK p Hp). split; [exact Hk|]. destruct (KP _ Hk) as (p' & t & I & Ec). injection Ec as Ec. destruct (PV p' t I) as [Ep _]. rewrite <- Ec in Ep. rewrite Ep. apply in_map.
      assert (p' = p) as ->; [|exact Ha]. assert (NDc : NoDup (map bp_child (d_probs d))) by (eapply Permutation_NoDup; [symmetry; apply (bo_probs _ _ K)|exact ND]).
      apply in_combine_l in I. clear -NDc I Hp Ec. induction (d_probs d) as [|q l IH]; [destruct Hp|]. simpl in NDc. inversion NDc; subst.
      destruct Hp as [->|Hp], I as [->|I]; auto; exfalso; apply H1; [rewrite Ec|rewrite <- Ec]; now apply in_map.
Qed.

(** ** A file that ends inside a table *)
Lemma rows_eof fl child nv vs fuel : forall st c, b_last st = Some nv -> dget (b_vals st) nv = Some vs -> dget (b_cpt st) child = Some c ->
  bif_rows fuel fl child [] st = Raise OutOfFuel.
Proof.
  induction fuel as [|fuel IH]; intros st c EL EV EC; [reflexivity|]. cbn [bif_rows readline]. change (contains rbrace "") with false. cbv iota.
  rewrite split_row, words_nil, EL. cbn [bind]. rewrite (getitem_Some _ _ _ EV). cbn [bind]. replace (last_n (length vs) (@nil string)) with (@nil string) by (unfold last_n; destruct (length vs =? 0)%nat; [reflexivity|now rewrite skipn_nil]).
  cbn [floats mapM bind]. unfold floats. cbn [mapM bind]. rewrite (getitem_Some _ _ _ EC). cbn [bind]. eapply IH; [reflexivity|exact EV|]. simpl. rewrite dget_dset, name_eqb_refl. reflexivity.
Qed.
Lemma rows_diverge fl child nv vs : forall rows fuel st c, (forall r x, In r rows -> In x (fst r ++ snd r)%list -> token x) ->
  (forall r x, In r rows -> In x (last_n (length vs) (fst r ++ snd r)%list) -> fl x <> None) ->
  b_last st = Some nv -> dget (b_vals st) nv = Some vs -> dget (b_cpt st) child = Some c -> bif_rows fuel fl child (map print_row rows) st = Raise OutOfFuel.
Proof.
  induction rows as [|r rows IH]; intros fuel st c T F EL EV EC; [now apply (rows_eof fl child nv vs fuel st c)|]. destruct fuel as [|fuel]; [reflexivity|].
  assert (Tr : forall x, In x (fst r ++ snd r)%list -> token x) by (intros x; apply T; now left).
  cbn [map bif_rows readline]. rewrite row_no_brace by assumption. rewrite split_row, row_words by assumption. rewrite EL. cbn [bind].
  rewrite (getitem_Some _ _ _ EV). cbn [bind]. rewrite floats_ok by (intros x; apply F; now left). cbn [bind]. rewrite (getitem_Some _ _ _ EC). cbn [bind].
  eapply IH; [intros r' x H; apply T; now right|intros r' x H; apply F; now right|reflexivity|exact EV|]. simpl. rewrite dget_dset, name_eqb_refl. reflexivity.
Qed.
Lemma truncated count d ps p fl fuel o : bif_ok count d -> d_probs d = (ps ++ [p])%list -> bp_parents p <> [] ->
  (forall p r x, In p (d_probs d) -> In r (bp_rows p) -> In x (taken d p r) -> fl x <> None) ->
  read_bif fuel o fl (removelast (print_bif count d)) = Raise OutOfFuel.
Proof.
  intros K Eq NP F. unfold print_bif. rewrite Eq, flat_map_app. cbn [flat_map]. rewrite app_nil_r.
  assert (Ep : print_prob p = ((("probability ( " ++ bp_child p ++ " | " ++ join ", " (bp_parents p) ++ " ) {" ++ nl)%string :: map print_row (bp_rows p)) ++ [("}" ++ nl)%string])%list).
  { unfold print_prob. destruct (bp_parents p) as [|q qs]; [congruence|]. reflexivity. }
  rewrite Ep. set (hd := ("probability ( " ++ bp_child p ++ " | " ++ join ", " (bp_parents p) ++ " ) {" ++ nl)%string).
  rewrite !app_assoc, removelast_last. rewrite <- !app_assoc. set (rest := hd :: map print_row (bp_rows p)).
  unfold read_bif. destruct (read_doc_app count d ps [p] fl fuel rest _ K Eq (Nat.lt_succ_diag_r _)) as (n & L & E). rewrite E. clear E.
  rewrite (mapM_ok _ (fun p => map (fun r => map (num fl) (taken d p r)) (bp_rows p))).
  2:{ intros q Hq. apply mapM_ok. intros r Hr. apply floats_ok. intros x Hx. apply (F q r x); [rewrite Eq; apply in_app_iff; auto|exact Hr|exact Hx]. }
  cbn [bind]. set (tabs := map _ ps). destruct n as [|n]; [lia|]. unfold rest. cbn [bif_loop].
  assert (Hp : In p (d_probs d)) by (rewrite Eq; apply in_app_iff; right; now left).
  destruct (doc_prob_ok count d p K Hp) as (Tc & Kc & Tp & Tr & _). unfold hd at 1 2 3. rewrite no_kw_prob; [|reflexivity|assumption|].
  2:{ destruct (existsb (contains "variable") (bp_parents p)) eqn:Eb; [|reflexivity]. apply existsb_exists in Eb as (x & Hx & Ex). destruct (Tp x Hx) as [_ Kx]. congruence. }
  change ("probability ( " ++ bp_child p ++ " | " ++ join ", " (bp_parents p) ++ " ) {" ++ nl) with ("probability" ++ (" ( " ++ bp_child p ++ " | " ++ join ", " (bp_parents p) ++ " ) {" ++ nl)) at 1. rewrite contains_self.
  unfold bif_probability. fold hd. unfold hd. rewrite prob_words by (try assumption; intros x Hx; now apply Tp). unfold nget. cbn [nth_error bind].
  change (slice_to 4 2 ("probability" :: "(" :: bp_child p :: "|" :: bp_parents p ++ [")"; "{"]))%list with (slice_to (length ["probability"; "("; bp_child p; "|"]) (length [")"; "{"]) (["probability"; "("; bp_child p; "|"] ++ bp_parents p ++ [")"; "{"]))%list.
  rewrite slice_mid. destruct (Nat.eqb_spec (length (bp_parents p)) 0) as [E0|_]; [destruct (bp_parents p); [congruence|discriminate]|].
  pose proof (bo_names _ _ K) as ND. assert (NDc : NoDup (map bp_child (d_probs d))) by (eapply Permutation_NoDup; [symmetry; apply (bo_probs _ _ K)|exact ND]).
  assert (EC : map (fun pq : bprob * list (list Qc) => bp_child (fst pq)) (combine ps tabs) = map bp_child ps).
  { unfold tabs. clear. induction ps as [|q l IH]; [reflexivity|]. simpl. now rewrite IH. }
  rewrite Eq, map_app in NDc.
  destruct (add_tables_spec (combine ps tabs) (initial d)) as (A1 & A2 & _ & _ & _ & A5).
  { rewrite EC. exact (NoDup_left _ _ NDc). }
  { intros pq Hpq. assert (I : In (bp_child (fst pq)) (map bv_name (d_vars d))).
    { eapply Permutation_in; [apply (bo_probs _ _ K)|]. rewrite Eq, map_app. apply in_app_iff. left. rewrite <- EC. now apply (in_map (fun pq : bprob * list (list Qc) => bp_child (fst pq))). }
    destruct (initial_par d _ ND I) as [D1 D2]. split; eapply dget_Some_In; eassumption. }
  destruct (A5 (NStr (bp_child p))) as [B1 B2].
  { intros pq Hpq Ex. injection Ex as Ex. cbn [map] in NDc. apply NoDup_remove in NDc as [_ NDc]. apply NDc. rewrite app_nil_r, <- EC, <- Ex. now apply (in_map (fun pq : bprob * list (list Qc) => bp_child (fst pq))). }
  destruct (initial_par d (bp_child p) ND) as [I1 I2]; [eapply Permutation_in; [apply (bo_probs _ _ K)|now apply in_map]|].
  assert (NEv : d_vars d <> []) by (intros E0; assert (Hn : In (bp_child p) (map bv_name (d_vars d))) by (eapply Permutation_in; [apply (bo_probs _ _ K)|now apply in_map]); rewrite E0 in Hn; destruct Hn).
  destruct (last_declared d ND NEv) as (nv & vs & EL & EV & Lk).
  rewrite (getitem_Some _ _ _ (eq_trans B1 I1)). cbn [bind].
  erewrite (rows_diverge fl _ nv vs); [reflexivity|exact Tr| | | |].
  - intros r x Hr Hx. apply (F p r x Hp Hr). unfold taken. destruct (bp_parents p) as [|q qs]; [congruence|]. now rewrite <- Lk.
  - cbn [b_last]. now rewrite A2.
  - cbn [b_vals]. now rewrite A1.
  - cbn [b_cpt]. rewrite B2. exact I2.
Qed.
