(** SpecIO.v -- the .bif text of a network, independent of the reader (the format of the files in
    /repo/data, which is that of the bnlearn repository). *)
From Verif Require Import Py Num Text BayesNet SpecFactor.
From Coq Require Import Ascii.
Open Scope nat_scope.
Open Scope string_scope.

(** a declaration and a table: for a node with parents each row is labelled with parent values *)
Record bvar := mkBV { bv_name : string; bv_vals : list string }.
Record bprob := mkBP { bp_child : string; bp_parents : list string; bp_rows : list (list string * list string) }.
Record bifdoc := mkDoc { d_vars : list bvar; d_probs : list bprob }.

(** [variable Smoker {], [  type discrete [ 2 ] { True, False };], [}] *)
Definition print_var (v : bvar) (count : string) : list string :=
  [ "variable " ++ bv_name v ++ " {" ++ nl;
    "  type discrete [ " ++ count ++ " ] { " ++ join ", " (bv_vals v) ++ " };" ++ nl;
    "}" ++ nl ].
(** [  (low, True) 0.03, 0.97;] *)
Definition print_row (r : list string * list string) : string :=
  "  (" ++ join ", " (fst r) ++ ") " ++ join ", " (snd r) ++ ";" ++ nl.
(** [probability ( Smoker ) {], [  table 0.3, 0.7;], [}]; [probability ( Cancer | Pollution, Smoker ) {] rows [}] *)
Definition print_prob (p : bprob) : list string :=
  (match bp_parents p with
   | [] => [ ("probability ( " ++ bp_child p ++ " ) {" ++ nl)%string ]
           ++ map (fun r => "  table " ++ join ", " (snd r) ++ ";" ++ nl)%string (bp_rows p) ++ [ ("}" ++ nl)%string ]
   | ps => [ ("probability ( " ++ bp_child p ++ " | " ++ join ", " ps ++ " ) {" ++ nl)%string ]
           ++ map print_row (bp_rows p) ++ [ ("}" ++ nl)%string ]
   end)%list.
Definition print_bif (count : bvar -> string) (d : bifdoc) : list string :=
  ([ ("network unknown {" ++ nl)%string; ("}" ++ nl)%string ] ++ flat_map (fun v => print_var v (count v)) (d_vars d) ++ flat_map print_prob (d_probs d))%list.

(** tokens: non-empty and without white space and , ; ( ) } *)
Definition blank_codes : list nat := [9; 10; 11; 12; 13; 32].
Definition separator (c : ascii) : bool :=
  existsb (Ascii.eqb c) (map ascii_of_nat (blank_codes ++ [44; 59; 40; 41; 125])%list).
Definition token (t : string) : Prop := word separator t.
(** a document that can be printed: tokens, names that do not contain the two keywords,
    distinct declarations, one table for each declared variable and declared parents; a table
    without parents has exactly one row *)
Record bif_ok (count : bvar -> string) (d : bifdoc) : Prop := {
  bo_names : NoDup (map bv_name (d_vars d));
  bo_name : forall v, In v (d_vars d) -> token (bv_name v) /\ contains "variable" (bv_name v) = false /\ contains "probability" (bv_name v) = false;
  bo_vals : forall v, In v (d_vars d) -> token (count v) /\ forall x, In x (bv_vals v) -> token x;
  bo_probs : Permutation (map bp_child (d_probs d)) (map bv_name (d_vars d));
  bo_par : forall p, In p (d_probs d) -> incl (bp_parents p) (map bv_name (d_vars d));
  bo_rows : forall p r, In p (d_probs d) -> In r (bp_rows p) -> forall x, In x (fst r ++ snd r)%list -> token x;
  bo_prior : forall p, In p (d_probs d) -> bp_parents p = [] -> exists nums, bp_rows p = [([], nums)] }.

(** [layout ws s]: the text [s] consists of the words [ws], separated (and possibly preceded and followed) by blanks --
    tabs, line ends, vertical tabs, form feeds, carriage returns and spaces *)
Definition blank (c : ascii) : Prop := In (nat_of_ascii c) blank_codes.
Fixpoint all_blank (s : string) : Prop := match s with EmptyString => True | String c r => blank c /\ all_blank r end.
Fixpoint no_blank (s : string) : Prop := match s with EmptyString => True | String c r => ~ blank c /\ no_blank r end.
Inductive layout : list string -> string -> Prop :=
| lay_blank b : all_blank b -> layout [] b
| lay_last b w : all_blank b -> w <> EmptyString -> no_blank w -> layout [w] (b ++ w)
| lay_word b w c r ws : all_blank b -> w <> EmptyString -> no_blank w -> blank c -> layout ws r -> layout (w :: ws) (b ++ w ++ String c r).
(** the two texts have the same words *)
Definition same_words (s t : string) : Prop := exists ws, layout ws s /\ layout ws t.

(** number of values of the variable declared last *)
Definition last_card (d : bifdoc) : nat := match rev (d_vars d) with v :: _ => length (bv_vals v) | [] => 0 end.
(** the numbers the reader takes from a row: for a node with parents, the last [last_card] words of the line *)
Definition taken (d : bifdoc) (p : bprob) (r : list string * list string) : list string :=
  match bp_parents p with [] => snd r | _ => last_n (last_card d) (fst r ++ snd r)%list end.
(** [u] is declared to be a parent of [v] *)
Definition doc_edge (d : bifdoc) (u v : string) : Prop := exists p, In p (d_probs d) /\ bp_child p = v /\ In u (bp_parents p).
(** the values of a declared variable *)
Definition vals_of (d : bifdoc) (v : string) : list string :=
  match find (fun b => String.eqb (bv_name b) v) (d_vars d) with Some b => bv_vals b | None => [] end.

(** [n] in base [cs], first digit fastest: the label list of row number [n] *)
Fixpoint label_of (d : bifdoc) (ps : list string) (n : nat) : list string :=
  match ps with
  | [] => []
  | p :: r => nth (n mod length (vals_of d p)) (vals_of d p) "" :: label_of d r (n / length (vals_of d p))
  end.
(** a document that describes a network: [fl] reads the numbers, one number per value of the
    child in every row, the rows in the standard order (first parent fastest) *)
Record bif_net (fl : string -> option Qc) (d : bifdoc) : Prop := {
  bn_vals : forall v, In v (d_vars d) -> NoDup (bv_vals v) /\ bv_vals v <> [];
  bn_pars : forall p, In p (d_probs d) -> NoDup (bp_child p :: bp_parents p);
  bn_rows : forall p, In p (d_probs d) ->
     map fst (bp_rows p) = map (label_of d (bp_parents p)) (seq 0 (nprod (map (fun q => length (vals_of d q)) (bp_parents p))));
  bn_nums : forall p r, In p (d_probs d) -> In r (bp_rows p) ->
     length (snd r) = length (vals_of d (bp_child p)) /\ forall x, In x (snd r) -> fl x <> None }.
(** the parsed number of a token *)
Definition num (fl : string -> option Qc) (t : string) : Qc := getq (fl t).
