(** Factor.v -- model of pyBN/classes/factor.py.

    A Factor is a record; a method that mutates [self] returns the new record.
    Float strides produced by true division are modelled by [Nat.div]: the division
    is exact on every well-formed factor (theorem C12), otherwise the Python value
    would be a non-integral float.  [np.zeros(n)] followed by writing cells 0..n-1 in
    order is modelled by building the list front to back. *)
From Verif Require Import Py Num BayesNet.
Open Scope nat_scope.

(** factor.py:39-56, 138-148: attributes bn, var, scope, card, stride, cpt *)
Record factor := mkFactor {
  f_bn : bayesnet; f_var : name; f_scope : list name;
  f_card : dict nat; f_stride : dict nat; f_cpt : list Qc }.

(** factor.py:144-148: the stride loop of the constructor *)
Fixpoint init_strides (card : dict nat) (ps : list name) (s : nat) (st : dict nat) : res (dict nat) :=
  match ps with
  | [] => Ok st
  | v :: r =>
      let st' := dset st v s in
      do c <- getitem card v ;;
      init_strides card r (s * c) st'
  end.

(** factor.py:109-148  Factor.__init__ *)
Definition factor_init (bn : bayesnet) (var : name) : res factor :=
  do cpt <- bn_cpt bn var ;;
  do scope <- bn_scope bn var ;;
  do cards <- mapM (fun rv => do c <- bn_card bn rv ;; Ok (rv, c)) scope ;;
  let card := dict_of cards in
  do s <- getitem card var ;;
  do ps <- bn_parents bn var ;;
  do st <- init_strides card ps s [(var, 1)] ;;
  Ok (mkFactor bn var scope card st cpt).

(** factor.py:203-210  Factor.parents *)
Definition factor_parents (f : factor) : list name :=
  filter (fun rv => negb (name_eqb rv (f_var f))) (f_scope f).

(** factor.py:229-239  Factor.sepset, iterated in some order *)
Definition sepset (o : oracle) (f g : factor) : list name := ask o (set_inter (f_scope f) (f_scope g)).

(** factor.py:215-227  Factor.value_indices.  [val_dict] in iteration order (a sum
    does not depend on it). *)
Definition value_indices (f : factor) (val_dict : dict name) : res Z :=
  foldM (fun acc kv =>
           do i <- bn_value_idx (f_bn f) (fst kv) (snd kv) ;;
           do s <- getitem (f_stride f) (fst kv) ;;
           Ok (acc + i * Z.of_nat s)%Z) val_dict 0%Z.

(** factor.py:297-310: the inner [for rv in rv_order] loop with its [break].
    [card1] is phi1.card after the update of line 288. *)
Fixpoint bump (sc1 sc2 : list name) (card1 card2 st1 st2 : dict nat)
         (rvs : list name) (asg : dict nat) (j k : Z) : res (dict nat * Z * Z) :=
  match rvs with
  | [] => Ok (asg, j, k)
  | rv :: rest =>
      do a <- getitem asg rv ;;
      do c <- getitem card1 rv ;;
      if S a =? c then
        do j' <- (if mem rv sc1 then do s <- getitem st1 rv ;; Ok (j - (Z.of_nat c - 1) * Z.of_nat s)%Z
                  else Ok j) ;;
        do k' <- (if mem rv sc2 then do c2 <- getitem card2 rv ;; do s <- getitem st2 rv ;;
                       Ok (k - (Z.of_nat c2 - 1) * Z.of_nat s)%Z
                  else Ok k) ;;
        bump sc1 sc2 card1 card2 st1 st2 rest (dset asg rv 0) j' k'
      else
        do j' <- (if mem rv sc1 then do s <- getitem st1 rv ;; Ok (j + Z.of_nat s)%Z else Ok j) ;;
        do k' <- (if mem rv sc2 then do s <- getitem st2 rv ;; Ok (k + Z.of_nat s)%Z else Ok k) ;;
        Ok (dset asg rv (S a), j', k')
  end.

(** factor.py:295-310: the outer loop, [n] cells still to be produced. *)
Fixpoint mul_loop (sc1 sc2 : list name) (card1 card2 st1 st2 : dict nat) (cpt1 cpt2 : list Qc)
         (rvs : list name) (n : nat) (asg : dict nat) (j k : Z) : res (list Qc) :=
  match n with
  | 0 => Ok []
  | S n' =>
      do x <- pyget cpt1 j ;;
      do y <- pyget cpt2 k ;;
      do st <- bump sc1 sc2 card1 card2 st1 st2 rvs asg j k ;;
      let '(asg', j', k') := st in
      do rest <- mul_loop sc1 sc2 card1 card2 st1 st2 cpt1 cpt2 rvs n' asg' j' k' ;;
      Ok ((x * y)%Qc :: rest)
  end.

(** factor.py:314-318: new strides as running products *)
Fixpoint run_strides (card : dict nat) (rvs : list name) (s : nat) (st : dict nat) : res (dict nat) :=
  match rvs with
  | [] => Ok st
  | v :: r => do c <- getitem card v ;; run_strides card r (s * c) (dset st v s)
  end.

(** stride lookup used as the sort key of factor.py:282 (keys are present) *)
Definition stride_key (st : dict nat) (v : name) : nat :=
  match dget st v with Some s => s | None => 0 end.

(** factor.py:275-280: does [self] play phi1? *)
Definition self_is_phi1 (self other : factor) : bool :=
  List.length (f_scope other) <=? List.length (f_scope self).

(** factor.py:245-318  Factor.multiply_factor.
    Returns [(self', other')].  [other'] differs from [other] exactly when [other]
    plays phi1: its card dict is then updated in place (line 288).  In that case
    self.card and other.card are moreover the same dict object afterwards (line 313);
    that aliasing is modelled in CliqueTree.v and FactorHeap.v.
    Iteration orders asked for: dict stride (282), set difference (287), scope set (312). *)
Definition multiply_factor (o : oracle) (self other : factor) : res (factor * factor) :=
  let sp := self_is_phi1 self other in
  let phi1 := if sp then self else other in
  let phi2 := if sp then other else self in
  let rv_order0 := sorted_by (stride_key (f_stride phi1)) (ask (sub o 1) (dkeys (f_stride phi1))) in
  let scope_set := set_union (f_scope phi1) (f_scope phi2) in
  let rv_order := rv_order0 ++ ask (sub o 2) (set_diff (f_scope phi2) (f_scope phi1)) in
  let card1 := dupdate (f_card phi1) (f_card phi2) in
  let assignment := dict_of (map (fun rv => (rv, 0)) scope_set) in
  let n := nprod (map snd card1) in
  do psi <- mul_loop (f_scope phi1) (f_scope phi2) card1 (f_card phi2) (f_stride phi1) (f_stride phi2)
              (f_cpt phi1) (f_cpt phi2) rv_order n assignment 0%Z 0%Z ;;
  do st <- run_strides card1 rv_order 1 [] ;;
  let self' := mkFactor (f_bn self) (f_var self) (ask (sub o 3) scope_set) card1 st psi in
  let other' := if sp then other
                else mkFactor (f_bn other) (f_var other) (f_scope other) card1 (f_stride other) (f_cpt other) in
  Ok (self', other').

(** factor.py:170-176  Factor.__mul__: multiplies in place and returns self *)
Definition factor_mul (o : oracle) (self other : factor) : res factor :=
  do p <- multiply_factor o self other ;; Ok (fst p).

(** [l[a:b]] *)
Definition slice {A} (l : list A) (a b : nat) : list A := firstn (b - a) (skipn a l).

(** factor.py:361-363: the while loop summing one value's blocks *)
Fixpoint sumover_loop (fuel : nat) (cpt : list Qc) (card stride idx : nat) (acc : Qc) : res Qc :=
  match fuel with
  | 0 => Raise OutOfFuel
  | S fuel' =>
      if idx <? List.length cpt then
        sumover_loop fuel' cpt card stride (idx + card * stride)
                     (acc + qsum (slice cpt idx (idx + stride)))%Qc
      else Ok acc
  end.

(** factor.py:323-369  Factor.sumover_var *)
Definition sumover_var (self : factor) (rv : name) : res factor :=
  do c <- getitem (f_card self) rv ;;
  do s <- getitem (f_stride self) rv ;;
  do new <- mapM (fun i => sumover_loop (S (List.length (f_cpt self))) (f_cpt self) c s (i * s) 0%Qc) (seq 0 c) ;;
  Ok (mkFactor (f_bn self) rv [rv] [(rv, c)] [(rv, 1)] new).

(** factor.py:433-434: [for c in range(rv_card): new_cpt[i] += self.cpt[k+rv_stride*c]] *)
Definition sum_cells (cpt : list Qc) (k stride card : nat) : res Qc :=
  foldM (fun acc c => do x <- nget cpt (k + stride * c) ;; Ok (acc + x)%Qc) (seq 0 card) 0%Qc.

(** factor.py:490-494: max_val starts at 0 and new_cpt[i] (initially 0) is written
    whenever it is exceeded *)
Definition max_cells (cpt : list Qc) (k stride card : nat) : res Qc :=
  do p <- foldM (fun acc c =>
             do x <- nget cpt (k + stride * c) ;;
             if qltb (fst acc) x then Ok (x, x) else Ok acc) (seq 0 card) (0%Qc, 0%Qc) ;;
  Ok (snd p).

(** factor.py:432-437 and 489-497: the outer loop, [n] cells left, read position [k] *)
Fixpoint out_loop (cell : list Qc -> nat -> nat -> nat -> res Qc)
         (cpt : list Qc) (p stride card : nat) (n k : nat) : res (list Qc) :=
  match n with
  | 0 => Ok []
  | S n' =>
      do x <- cell cpt k stride card ;;
      let k1 := k + 1 in
      let k2 := if k1 mod p =? 0 then k1 + p * (card - 1) else k1 in
      do rest <- out_loop cell cpt p stride card n' k2 ;;
      Ok (x :: rest)
  end.

(** factor.py:431/488: [np.prod([card[r] for r in scope if stride[r] < stride[rv]])] *)
Definition lower_cards (f : factor) (s : nat) : res nat :=
  do l <- mapM (fun r =>
            do sr <- getitem (f_stride f) r ;;
            if sr <? s then do c <- getitem (f_card f) r ;; Ok [c] else Ok []) (f_scope f) ;;
  Ok (nprod (concat l)).

(** factor.py:441-442: [stride.update((k,v/rv_card) ... if v > rv_stride)] and [del stride[rv]] *)
Definition shrink_strides (st : dict nat) (rv : name) (s c : nat) : dict nat :=
  ddel (map (fun kv => (fst kv, if s <? snd kv then snd kv / c else snd kv)) st) rv.

(** factor.py:445-448 and 607-610: re-elect self.var when it was removed *)
Definition elect_var (o : oracle) (var rv : name) (st : dict nat) : name :=
  if name_eqb rv var then
    match filter (fun k => stride_key st k =? 1) (ask o (dkeys st)) with
    | k :: _ => k
    | [] => var
    end
  else var.

(** factor.py:399-448 and 453-503: common body of sumout_var / maxout_var; they differ
    in the cell computation and in whether self.var is re-elected.
    Lines 424-428: card[rv] (KeyError), division by it, stride[rv]. *)
Definition out_var (cell : list Qc -> nat -> nat -> nat -> res Qc) (elect : bool)
           (o : oracle) (self : factor) (rv : name) : res factor :=
  do c <- getitem (f_card self) rv ;;
  if c =? 0 then Raise ZeroDivisionError else
  let exp_len := List.length (f_cpt self) / c in
  do s <- getitem (f_stride self) rv ;;
  do p <- lower_cards self s ;;
  do new <- out_loop cell (f_cpt self) p s c exp_len 0 ;;
  do card' <- delitem (f_card self) rv ;;
  let st' := shrink_strides (f_stride self) rv s c in
  do scope' <- list_remove (f_scope self) rv ;;
  Ok (mkFactor (f_bn self) (if elect then elect_var o (f_var self) rv st' else f_var self)
               scope' card' st' new).

(** factor.py:399-448  Factor.sumout_var; also 186-192 Factor.__div__ *)
Definition sumout_var (o : oracle) (self : factor) (rv : name) : res factor :=
  out_var sum_cells true o self rv.

(** factor.py:453-509  Factor.maxout_var; also 194-200 Factor.__floordiv__.
    Lines 505-506 are commented out in the source: self.var is not re-elected. *)
Definition maxout_var (self : factor) (rv : name) : res factor :=
  out_var max_cells false id_oracle self rv.

(** factor.py:373-397  Factor.sumout_var_list *)
Fixpoint sumout_var_list (o : oracle) (self : factor) (rvs : list name) : res factor :=
  match rvs with
  | [] => Ok self
  | rv :: r => do f <- sumout_var (sub o 0) self rv ;; sumout_var_list (sub o 1) f r
  end.

(** factor.py:593-599: chunk copying; [n] cells still missing.  The inner for loop
    writes past the end of new_cpt (IndexError) if a chunk is too long; an empty
    chunk makes the while loop spin (OutOfFuel). *)
Fixpoint reduce_loop (fuel : nat) (cpt : list Qc) (card stride idx n : nat) : res (list Qc) :=
  if n =? 0 then Ok [] else
  match fuel with
  | 0 => Raise OutOfFuel
  | S fuel' =>
      let chunk := slice cpt idx (idx + stride) in
      if n <? List.length chunk then Raise IndexError else
      do rest <- reduce_loop fuel' cpt card stride (idx + card * stride) (n - List.length chunk) ;;
      Ok (chunk ++ rest)
  end.

(** factor.py:545-610  Factor.reduce_factor; also 178-184 Factor.__sub__ *)
Definition reduce_factor (o : oracle) (self : factor) (rv val : name) : res factor :=
  do c <- getitem (f_card self) rv ;;
  if c =? 0 then Raise ZeroDivisionError else
  let exp_len := List.length (f_cpt self) / c in
  do d <- getitem (bn_F (f_bn self)) rv ;;
  do val_idx <- list_index (f_values d) val ;;
  do s <- getitem (f_stride self) rv ;;
  do new <- reduce_loop (S exp_len) (f_cpt self) c s (val_idx * s) exp_len ;;
  do card' <- delitem (f_card self) rv ;;
  let st' := shrink_strides (f_stride self) rv s c in
  do scope' <- list_remove (f_scope self) rv ;;
  Ok (mkFactor (f_bn self) (elect_var o (f_var self) rv st') scope' card' st' new).

(** factor.py:511-543  Factor.reduce_factor_by_list: the pairs in the order they are
    iterated (list order, or dict order for a dict argument) *)
Fixpoint reduce_factor_by_list (o : oracle) (self : factor) (ev : list (name * name)) : res factor :=
  match ev with
  | [] => Ok self
  | (rv, val) :: r => do f <- reduce_factor (sub o 0) self rv val ;; reduce_factor_by_list (sub o 1) f r
  end.

(** factor.py:628-634  Factor.perturb *)
Definition eps7 : Qc := Q2Qc (1 # 10000000).
Definition perturb (f : factor) : factor :=
  mkFactor (f_bn f) (f_var f) (f_scope f) (f_card f) (f_stride f) (map (fun x => x + eps7)%Qc (f_cpt f)).

(** division of floats; a zero divisor gives nan/inf in numpy, which the rationals do
    not have: reported as [RuntimeErr] (excluded by the theorems) *)
Definition qdiv (x y : Qc) : res Qc :=
  if Qc_eq_dec y 0%Qc then Raise RuntimeErr else Ok (x / y)%Qc.

(** factor.py:656-659: one group after the other; IndexError if the last group is short *)
Fixpoint normalize_groups (fuel : nat) (card : nat) (cpt : list Qc) : res (list Qc) :=
  match cpt with
  | [] => Ok []
  | _ =>
    match fuel with
    | 0 => Raise OutOfFuel
    | S fuel' =>
        let grp := firstn card cpt in
        let s := qsum grp in
        if List.length grp <? card then Raise IndexError else
        do g' <- mapM (fun x => qdiv x s) grp ;;
        do rest <- normalize_groups fuel' card (skipn card cpt) ;;
        Ok (g' ++ rest)
    end
  end.

(** factor.py:661-662: each cell is divided by the *current* total *)
Fixpoint normalize_seq (done todo : list Qc) : res (list Qc) :=
  match todo with
  | [] => Ok done
  | x :: r => do y <- qdiv x (qsum (done ++ todo)) ;; normalize_seq (done ++ [y]) r
  end.

(** factor.py:636-662  Factor.normalize *)
Definition normalize (o : oracle) (self : factor) : res factor :=
  let f := perturb self in
  do new <-
    match filter (fun k => stride_key (f_stride f) k =? 1) (ask o (dkeys (f_stride f))) with
    | var :: _ =>
        do c <- getitem (f_card f) var ;;
        if c =? 0 then Raise ValueError (* range() step must not be zero *)
        else normalize_groups (S (List.length (f_cpt f))) c (f_cpt f)
    | [] => normalize_seq [] (f_cpt f)
    end ;;
  Ok (mkFactor (f_bn f) (f_var f) (f_scope f) (f_card f) (f_stride f) new).
