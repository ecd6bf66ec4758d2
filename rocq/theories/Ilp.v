(** Ilp.v -- model of pyBN/inference/map_exact/ilp_map.py and BayesNet.cpt_str_idx.

    The pulp solver is not modelled: [ilp_map] is the integer program handed to it, and any
    optimal integer point of that program is a possible outcome. *)
From Verif Require Import Py Num BayesNet Graph IO SpecIlp.
Local Open Scope nat_scope.

(** [n % d] *)
Definition pymod (n d : nat) : res nat := if d =? 0 then Raise ZeroDivisionError else Ok (n mod d).

(** bayesnet.py:288-303  cpt_str_idx.  [str(x)] of a name is [jkey]; the loop threads (s, _idx). *)
Definition cpt_str_idx (bn : bayesnet) (rv : name) (idx : nat) : res string :=
  do vals <- bn_values bn rv ;;
  do c <- bn_card bn rv ;;
  do k <- pymod idx c ;;
  do rv_val <- nget vals k ;;
  do ps <- bn_parents bn rv ;;
  do st <- foldM (fun st parent =>
      do pv <- bn_values bn parent ;;
      foldM (fun st val =>
          do ii <- cpt_indices bn rv (dict_of [(rv, rv_val); (parent, val)]) ;;
          if existsb (Nat.eqb idx) ii then
            Ok ((fst st ++ jkey parent ++ "=" ++ jkey val ++ (if (snd st <? length ps)%nat then "," else ""))%string, S (snd st))
          else Ok st) pv st) ps ((jkey rv ++ "=" ++ jkey rv_val ++ "|")%string, 1) ;;
  Ok (fst st).

(** [var_dict[rv][i]]; [var_dict] maps each node to the number of its variables (the inner dict
    has the keys 0 .. n-1) *)
Definition get_var (vd : dict nat) (rv : name) (i : nat) : res var :=
  do n <- getitem vd rv ;; if i <? n then Ok (rv, i) else Raise KeyError.

(** ilp_map.py:35-48  one variable and one weight per CPT entry.  The weight
    round(-log(p), 3) is represented by p itself (see [objective]); for p = 0 the code
    computes an infinite weight. *)
Definition ilp_vars (bn : bayesnet) : res (list (string * var) * list (var * Qc) * dict nat) :=
  do r <- mapM (fun rv =>
    do cpt <- bn_cpt bn rv ;;
    mapM (fun ip => do s <- cpt_str_idx bn rv (fst ip) ;; Ok (s, (rv, fst ip), snd ip)) (combine (seq 0 (length cpt)) cpt)) (bn_nodes bn) ;;
  do ls <- mapM (fun rv => do cpt <- bn_cpt bn rv ;; Ok (rv, length cpt)) (bn_nodes bn) ;;
  Ok (map fst (concat r), map (fun t => (snd (fst t), snd t)) (concat r), dict_of ls).

(** ilp_map.py:53-57, one-of constraints *)
Definition rv_cons (bn : bayesnet) (vd : dict nat) : res (list con) :=
  mapM (fun rv => do cpt <- bn_cpt bn rv ;; do vs <- mapM (get_var vd rv) (seq 0 (length cpt)) ;; Ok (SumIs1 vs)) (bn_nodes bn).

(** ilp_map.py:59-71, outgoing edges *)
Definition out_cons (bn : bayesnet) (vd : dict nat) : res (list con) :=
  do r <- mapM (fun rv =>
    do cpt <- bn_cpt bn rv ;;
    do r <- mapM (fun val_idx =>
      do vals <- bn_values bn rv ;; do c <- bn_card bn rv ;; do k <- pymod val_idx c ;; do val <- nget vals k ;;
      do ch <- bn_children bn rv ;;
      mapM (fun child =>
        do ii <- cpt_indices bn child [(rv, val)] ;;
        do x <- get_var vd rv val_idx ;;
        do vs <- mapM (get_var vd child) ii ;;
        Ok (AtMost x vs)) ch) (seq 0 (length cpt)) ;;
    Ok (concat r)) (bn_nodes bn) ;;
  Ok (concat r).

(** ilp_map.py:73-89, ingoing edges *)
Definition in_cons (bn : bayesnet) (vd : dict nat) : res (list con) :=
  do r <- mapM (fun rv =>
    do ps <- bn_parents bn rv ;;
    if 0 <? length ps then
      do cpt <- bn_cpt bn rv ;;
      mapM (fun val_idx =>
        do pc <- mapM (fun parent =>
          do pcpt <- bn_cpt bn parent ;;
          do hit <- mapM (fun p_idx =>
            do vals <- bn_values bn parent ;; do c <- bn_card bn parent ;; do k <- pymod p_idx c ;; do p_val <- nget vals k ;;
            do ii <- cpt_indices bn rv [(parent, p_val)] ;;
            Ok (if existsb (Nat.eqb val_idx) ii then [p_idx] else [])) (seq 0 (length pcpt)) ;;
          Ok (parent, concat hit)) ps ;;
        do x <- get_var vd rv val_idx ;;
        do vs <- mapM (fun pl => mapM (get_var vd (fst pl)) (snd pl)) pc ;;
        Ok (AtMost x (concat vs))) (seq 0 (length cpt))
    else Ok []) (bn_nodes bn) ;;
  Ok (concat r).

(** ilp_map.py:12-95  ilp_map, up to [model.solve()]; [evidence] is never read.  The function
    prints the names of the selected variables and returns None. *)
Definition ilp_map (bn : bayesnet) (evidence : dict name) : res lp :=
  do vv <- ilp_vars bn ;;
  let vd := snd vv in
  do c1 <- rv_cons bn vd ;;
  do c2 <- out_cons bn vd ;;
  do c3 <- in_cons bn vd ;;
  Ok (mkLP (fst (fst vv)) (snd (fst vv)) (c1 ++ c2 ++ c3)).
