(** Looking.v -- how factors and factorizations are looked at: printing, len, indexing, iteration. *)
From Verif Require Import Py Num BayesNet Factor Factorization CliqueTree.
Open Scope nat_scope.

(** [s + n] for a string s and a name n of the network, and what join accepts: a number is a TypeError *)
Definition as_text (n : name) : res string := match n with NStr s => Ok s | NInt _ => Raise TypeError end.
(** [', '.join(l)] *)
Definition join_comma (l : list string) : string := String.concat ", " l.
(** factor.py:151-159  Factor.__repr__ and 161-168 Factor.__str__ (the same text): self.var + ' | ' + ', '.join(self.parents()) *)
Definition factor_str (f : factor) : res string :=
  do s <- as_text (f_var f) ;;
  do l <- mapM as_text (factor_parents f) ;;
  Ok (s ++ " | " ++ join_comma l)%string.
(** factorization.py:53-54  __len__ *)
Definition fz_len (z : factorization) : nat := List.length (fz_phi z).
(** factorization.py:46-47  __getitem__ (an int index, negative from the end; slices are not modelled) *)
Definition fz_getitem (z : factorization) (i : Z) : res factor := pyget (fz_phi z) i.
(** factorization.py:49-51  __iter__: the factors it yields *)
Definition fz_iter (z : factorization) : list factor := fz_phi z.
(** cliquetree.py:105-107  CliqueTree.__iter__, and 109-113 __getitem__ (the key is the number of the clique, not a node of the network) *)
Definition tree_iter (t : ctree) : list clique := t_C t.
Definition tree_getitem (t : ctree) (rv : name) : res clique :=
  match rv with NInt i => match nth_error (t_C t) i with Some c => Ok c | None => Raise KeyError end | NStr _ => Raise KeyError end.
