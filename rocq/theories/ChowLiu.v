(** ChowLiu.v -- model of pyBN/learning/structure/tree/chow_liu.py.
    [mi i j] stands for the call mi_test(data[:,(i,j)], chi2_test=False) of lines 51-52.  mi_test has no
    parameter of that name (independence_tests.py:105), so the program as it is has [mi i j = Raise TypeError]. *)
From Verif Require Import Py Num BayesNet Data Graph StructScore Constraint.
Open Scope nat_scope.

Definition wedge := (name * name * Qc)%type.
(** chow_liu.py:52: the pairs i < j *)
Definition cl_pairs (n : nat) : list (name * name) :=
  flat_map (fun i => map (fun j => (NInt i, NInt j)) (seq (S i) (n - S i))) (seq 0 n).
(** chow_liu.py:51-52 *)
Definition cl_edges (mi : name -> name -> res Qc) (n : nat) : res (list wedge) :=
  mapM (fun p => do w <- mi (fst p) (snd p) ;; Ok (p, w)) (cl_pairs n).
(** chow_liu.py:54: sort by weight, descending; equal weights keep their order (also with reverse=True) *)
Fixpoint cl_insert (x : wedge) (l : list wedge) : list wedge :=
  match l with [] => [x] | y :: r => if qltb (snd x) (snd y) then y :: cl_insert x r else x :: l end.
Definition cl_sort (l : list wedge) : list wedge := fold_right cl_insert [] l.
(** chow_liu.py:58-64: one edge (vertex_cache is a set, here a list) *)
Definition cl_step (st : list name * edict) (e : wedge) : res (list name * edict) :=
  let i := fst (fst e) in let j := snd (fst e) in let cache := fst st in
  if mem i cache && negb (mem j cache) then do T <- dappend (snd st) i j ;; Ok (j :: cache, T)
  else if negb (mem i cache) && mem j cache then do T <- dappend (snd st) j i ;; Ok (i :: cache, T)
  else Ok st.
(** chow_liu.py:49-64  chow_liu(data, edges_only=True)[0] *)
Definition cl_tree (mi : name -> name -> res Qc) (n : nat) : res edict :=
  do es <- cl_edges mi n ;;
  match cl_sort es with
  | [] => Raise IndexError
  | e :: r => do st <- foldM cl_step (e :: r) ([fst (fst e)], edgeless n) ;; Ok (snd st)
  end.
(** chow_liu.py:46-70  chow_liu *)
Definition chow_liu (mi : name -> name -> res Qc) (t : table) : res bayesnet :=
  do vd <- value_dict t ;; do T <- cl_tree mi (t_ncols t) ;; set_structure T (Some vd).
(** as shipped *)
Definition chow_liu_shipped (t : table) : res bayesnet := chow_liu (fun _ _ => Raise TypeError) t.
