(** IO.v -- model of pyBN/io/read.py and pyBN/io/write.py.

    A text file is the list of its lines, each with its newline; [readline()] at the end of the
    file gives the empty string.  Python's json module is represented by the documented effect
    of dump followed by load on the values written here (a tree of objects, lists, strings and
    numbers): object keys become strings, an object read back is a dict in an arbitrary order
    (oracle), and when a key occurs twice the last value wins.  Byte strings are assumed to be
    valid UTF-8 and floats to survive repr/float. *)
From Verif Require Import Py Num Text BayesNet Graph.
From Coq Require Import Ascii DecimalString.
Open Scope nat_scope.

(** ** JSON *)
Inductive json :=
| JInt (n : nat) | JNum (q : Qc) | JStr (s : string) | JList (l : list json) | JObj (m : list (string * json)).
(** str(n), the key json.dump writes for an int key *)
Definition str_nat (n : nat) : string := NilZero.string_of_uint (Nat.to_uint n).
Definition jkey (k : name) : string := match k with NInt n => str_nat n | NStr s => s end.
Definition jname (v : name) : json := match v with NInt n => JInt n | NStr s => JStr s end.
Definition jdict {A} (f : A -> json) (d : dict A) : json := JObj (map (fun kv => (jkey (fst kv), f (snd kv))) d).
Definition jfdata (d : fdata) : json :=
  JObj [("parents"%string, JList (map jname (f_parents d))); ("values"%string, JList (map jname (f_values d))); ("cpt"%string, JList (map JNum (f_cptl d)))].
(** write.py:76-78  write_json *)
Definition write_json (bn : bayesnet) : json :=
  JObj [("V"%string, JList (map jname (bn_V bn))); ("E"%string, jdict (fun c => JList (map jname c)) (bn_E bn)); ("F"%string, jdict jfdata (bn_F bn))].

(** an object as a dict, iterated in an arbitrary order *)
Definition load_obj (o : oracle) (m : list (string * json)) : dict json :=
  let d := dict_of (map (fun kv => (NStr (fst kv), snd kv)) m) in
  flat_map (fun k => match dget d k with Some j => [(k, j)] | None => [] end) (ask o (dkeys d)).
(** The reader does not look at what it loads; the model only represents files of the shape
    that write_json produces (anything else is RuntimeErr). *)
Definition as_list (j : json) : res (list json) := match j with JList l => Ok l | _ => Raise RuntimeErr end.
Definition as_obj (j : json) : res (list (string * json)) := match j with JObj m => Ok m | _ => Raise RuntimeErr end.
Definition as_name (j : json) : res name := match j with JInt n => Ok (NInt n) | JStr s => Ok (NStr s) | _ => Raise RuntimeErr end.
Definition as_num (j : json) : res Qc := match j with JNum q => Ok q | JInt n => Ok (nQc n) | _ => Raise RuntimeErr end.
Definition as_names (j : json) : res (list name) := do l <- as_list j ;; mapM as_name l.
Definition as_edict (o : oracle) (j : json) : res edict :=
  do m <- as_obj j ;; mapM (fun kv => do c <- as_names (snd kv) ;; Ok (fst kv, c)) (load_obj o m).
Definition as_fdata (j : json) : res fdata :=
  do m <- as_obj j ;;
  let d := load_obj id_oracle m in
  do p <- getitem d (NStr "parents") ;; do p' <- as_names p ;;
  do v <- getitem d (NStr "values") ;; do v' <- as_names v ;;
  do c <- getitem d (NStr "cpt") ;; do c' <- as_list c ;; do q <- mapM as_num c' ;;
  Ok (mkF p' v' q).
Definition as_fdict (o : oracle) (j : json) : res (dict fdata) :=
  do m <- as_obj j ;; mapM (fun kv => do d <- as_fdata (snd kv) ;; Ok (fst kv, d)) (load_obj o m).
(** read.py:145-216  read_json; [None] is a text that json.loads rejects (ValueError, caught on
    line 212): the network is then still the empty one of line 200 *)
Definition read_json (o : oracle) (file : option json) : res bayesnet :=
  match file with
  | None => do V <- topsort [] None ;; Ok (mkBN V [] [])
  | Some j =>
      do m <- as_obj j ;;
      let d := load_obj id_oracle m in
      do _ <- getitem d (NStr "V") ;;
      do e <- getitem d (NStr "E") ;; do E <- as_edict (sub o 0) e ;;
      do f <- getitem d (NStr "F") ;; do F <- as_fdict (sub o 1) f ;;
      do V <- topsort E None ;;
      Ok (mkBN V E F)
  end.

(** ** BIF *)
Definition readline (ls : list string) : string * list string :=
  match ls with [] => (EmptyString, []) | l :: r => (l, r) end.
Definition comma : ascii := ascii_of_nat 44.
Definition semicolon : ascii := ascii_of_nat 59.
Definition lparen : ascii := ascii_of_nat 40.
Definition rparen : ascii := ascii_of_nat 41.
Definition rbrace : string := String (ascii_of_nat 125) EmptyString.
(** read.py:85-87 and new_vertex *)
Record bifst := mkB { b_par : dict (list name); b_cpt : dict (list (list Qc)); b_vals : dict (list name); b_last : option name }.
(** [map(float, l)]; [fl] is Python's float on strings, None for ValueError *)
Definition floats (fl : string -> option Qc) (l : list string) : res (list Qc) :=
  mapM (fun s => match fl s with Some q => Ok q | None => Raise ValueError end) l.
(** read.py:92-102 *)
Definition bif_variable (line : string) (ls : list string) (st : bifst) : res (bifst * list string) :=
  do v <- nget (split line) 1 ;;
  let (l2, rest) := readline ls in
  let vals := slice_to 6 1 (split (replace comma l2)) in
  Ok (mkB (dset (b_par st) (NStr v) []) (dset (b_cpt st) (NStr v) []) (dset (b_vals st) (NStr v) (map NStr vals)) (Some (NStr v)), rest).
(** read.py:115-122: at the end of the file the line is '' and the loop never ends *)
Fixpoint bif_rows (fuel : nat) (fl : string -> option Qc) (child : name) (ls : list string) (st : bifst) : res (bifst * list string) :=
  match fuel with
  | 0 => Raise OutOfFuel
  | S f =>
      let (l, rest) := readline ls in
      if contains rbrace l then Ok (st, rest) else
      let toks := split (replace rparen (replace lparen (replace semicolon (replace comma l)))) in
      do nv <- (match b_last st with Some v => Ok v | None => Raise UnboundLocalError end) ;;
      do vs <- getitem (b_vals st) nv ;;
      do ps <- floats fl (last_n (length vs) toks) ;;
      do c <- getitem (b_cpt st) child ;;
      bif_rows f fl child rest (mkB (b_par st) (dset (b_cpt st) child (c ++ [ps])) (b_vals st) (b_last st))
  end.
(** read.py:103-122 *)
Definition bif_probability (fuel : nat) (fl : string -> option Qc) (line : string) (ls : list string) (st : bifst) : res (bifst * list string) :=
  let toks := split (replace comma line) in
  do c <- nget toks 2 ;;
  let ps := slice_to 4 2 toks in
  if length ps =? 0 then
    let (l2, rest) := readline ls in
    let vals := tl (split (replace comma (replace semicolon l2))) in
    do old <- getitem (b_cpt st) (NStr c) ;;
    do qs <- floats fl vals ;;
    Ok (mkB (b_par st) (dset (b_cpt st) (NStr c) (old ++ [qs])) (b_vals st) (b_last st), rest)
  else
    do old <- getitem (b_par st) (NStr c) ;;
    bif_rows (fuel + S (length ls)) fl (NStr c) ls (mkB (dset (b_par st) (NStr c) (old ++ map NStr ps)) (b_cpt st) (b_vals st) (b_last st)).
(** read.py:89-124; every turn reads at least one line, so [S (length ls)] turns are enough *)
Fixpoint bif_loop (n fuel : nat) (fl : string -> option Qc) (ls : list string) (st : bifst) : res bifst :=
  match n with
  | 0 => Raise OutOfFuel
  | S k =>
      match ls with
      | [] => Ok st
      | line :: rest =>
          do x <- (if contains "variable" line then bif_variable line rest st
                   else if contains "probability" line then bif_probability fuel fl line rest st
                   else Ok (st, rest)) ;;
          bif_loop k fuel fl (snd x) (fst x)
      end
  end.
(** read.py:126-143 *)
Definition bif_network (o : oracle) (st : bifst) : res bayesnet :=
  let keys := ask o (dkeys (b_vals st)) in
  do E <- mapM (fun rv => do flags <- mapM (fun c => do p <- getitem (b_par st) c ;; Ok (c, mem rv p)) keys ;; Ok (rv, map fst (filter snd flags))) keys ;;
  do F <- mapM (fun rv => do p <- getitem (b_par st) rv ;; do v <- getitem (b_vals st) rv ;; do c <- getitem (b_cpt st) rv ;; Ok (rv, mkF p v (concat c))) keys ;;
  do V <- topsort E None ;;
  Ok (mkBN V E F).
(** read.py:57-143  read_bif.  [fuel] only matters for a file that ends inside a table. *)
Definition read_bif (fuel : nat) (o : oracle) (fl : string -> option Qc) (ls : list string) : res bayesnet :=
  do st <- bif_loop (S (length ls)) fuel fl ls (mkB [] [] [] None) ;; bif_network o st.

(** ** read_mat: read.py:218-238 with a one-character delimiter: the first field of each line
    ([line.split(delim)[0]]: everything before the first delimiter, the whole line with its
    newline if there is none) becomes a node without children *)
Fixpoint first_field (delim : ascii) (s : string) : string :=
  match s with
  | EmptyString => EmptyString
  | String c r => if Ascii.eqb c delim then EmptyString else String c (first_field delim r)
  end.
Definition read_mat (delim : ascii) (ls : list string) : res bayesnet :=
  set_structure (dict_of (map (fun l => (NStr (first_field delim l), [])) ls)) None.

(** ** read_bn, write_bn: read.py:48-55, write.py:46-49: which reader or writer a path selects *)
Inductive format := Bif | Bn | Mat | Unknown.
Definition read_format (path : string) : format :=
  if contains ".bif" path then Bif else if contains ".bn" path then Bn else if contains ".mat" path then Mat else Unknown.
Definition write_format (path : string) : format := if contains ".bn" path then Bn else Unknown.
