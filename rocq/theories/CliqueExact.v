(** CliqueExact.v -- the tree built by CliqueTree, and what exact_bp computes on it. *)
From Verif Require Import Py Num BayesNet Factor SpecFactor SpecGraph SpecMst Radix SumOver FactorMul FactorOut FactorMore Factorization SpecInference VE VETotal GraphNet Graph Mst CliqueTree SpecClique CliqueFacts CliqueInit CliqueBuild CliqueSend CliqueBP CliqueMain.
Open Scope nat_scope.

(** ** the weights *)
Lemma dget_seq {A} (g : nat -> A) n : forall s k, dget (map (fun i => (NInt i, g i)) (seq s n)) (NInt k) = if (s <=? k) && (k <? s + n) then Some (g k) else None.
Proof.
  induction n as [|n IH]; intros s k; simpl.
  - destruct (Nat.leb_spec s k), (Nat.ltb_spec k (s + 0)); try lia; reflexivity.
  - destruct (Nat.eqb_spec k s) as [->|N].
    + rewrite Nat.leb_refl. destruct (Nat.ltb_spec s (s + S n)); [reflexivity|lia].
    + rewrite IH. destruct (Nat.leb_spec (S s) k), (Nat.leb_spec s k), (Nat.ltb_spec k (S s + n)), (Nat.ltb_spec k (s + S n)); try lia; reflexivity.
Qed.
Lemma dget_seq_str {A} (g : nat -> A) n : forall s x, dget (map (fun i => (NInt i, g i)) (seq s n)) (NStr x) = None.
Proof. induction n as [|n IH]; intros s x; simpl; [reflexivity|apply IH]. Qed.

Definition sep_row (scopes : list (list name)) (i : nat) : dict Qc :=
  flat_map (fun j => if i =? j then [] else [(NInt j, (- nQc (length (set_inter (nth i scopes []) (nth j scopes []))))%Qc)]) (seq 0 (length scopes)).
Lemma sep_row_get scopes i v : dget (sep_row scopes i) v =
  match v with NInt j => if (j <? length scopes) && negb (i =? j) then Some (- nQc (length (set_inter (nth i scopes []) (nth j scopes []))))%Qc else None | NStr _ => None end.
Proof.
  unfold sep_row. set (g := fun j => _). 
  assert (G : forall n s v, dget (flat_map g (seq s n)) v = match v with NInt j => if (s <=? j) && (j <? s + n) && negb (i =? j) then Some (- nQc (length (set_inter (nth i scopes []) (nth j scopes []))))%Qc else None | NStr _ => None end).
  { induction n as [|n IH]; intros s [j|x]; simpl.
    - destruct (Nat.leb_spec s j), (Nat.ltb_spec j (s + 0)); try lia; reflexivity.
    - reflexivity.
    - unfold g at 1. destruct (Nat.eqb_spec i s) as [->|N]; simpl.
      + rewrite IH. destruct (Nat.eqb_spec s j) as [->|N2]; [now rewrite !andb_false_r|]. cbn [negb]. rewrite !andb_true_r.
        destruct (Nat.leb_spec (S s) j), (Nat.leb_spec s j), (Nat.ltb_spec j (S s + n)), (Nat.ltb_spec j (s + S n)); try lia; reflexivity.
      + destruct (Nat.eqb_spec j s) as [->|N2].
        * rewrite Nat.leb_refl. destruct (Nat.ltb_spec s (s + S n)); [|lia]. apply Nat.eqb_neq in N. now rewrite N.
        * rewrite IH. destruct (Nat.leb_spec (S s) j), (Nat.leb_spec s j), (Nat.ltb_spec j (S s + n)), (Nat.ltb_spec j (s + S n)); try lia; reflexivity.
    - unfold g at 1. destruct (i =? s); simpl; apply IH. }
  rewrite G. destruct v as [j|x]; reflexivity.
Qed.
Lemma sep_row_keys scopes i : NoDup (dkeys (sep_row scopes i)) /\ incl (dkeys (sep_row scopes i)) (map NInt (seq 0 (length scopes))).
Proof.
  unfold sep_row, dkeys. generalize (seq_NoDup (length scopes) 0). generalize (seq 0 (length scopes)) as l. intros l ND. induction l as [|j l IH]; [split; [constructor|intros x []]|].
  inversion ND as [|? ? Nj ND']; subst. destruct (IH ND') as [IH1 IH2]. simpl. destruct (i =? j); simpl.
  - split; [exact IH1|]. intros x Hx. right. now apply IH2.
  - split; [constructor; [|exact IH1]|].
    + intros C. apply IH2 in C. apply in_map_iff in C as (k & Ek & Hk). injection Ek as ->. contradiction.
    + intros x [<-|Hx]; [now left|right; now apply IH2].
Qed.
Lemma set_inter_length a b : length (set_inter a b) = length (set_inter b a).
Proof.
  apply Permutation_length. apply perm_of_iff.
  - unfold set_inter. apply NoDup_filter, NoDup_dedup.
  - unfold set_inter. apply NoDup_filter, NoDup_dedup.
  - intros x. rewrite !In_set_inter. tauto.
Qed.
Lemma sep_weight scopes i j : weight (sep_weights scopes) (NInt i) (NInt j) =
  if (i <? length scopes) && (j <? length scopes) && negb (i =? j) then Some (- nQc (length (set_inter (nth i scopes []) (nth j scopes []))))%Qc else None.
Proof.
  unfold weight, sep_weights. fold (sep_row scopes). 
  rewrite (dget_seq (sep_row scopes)). simpl. destruct (i <? length scopes); simpl; [|reflexivity]. rewrite sep_row_get. reflexivity.
Qed.
Lemma sep_weight_str scopes x v : weight (sep_weights scopes) (NStr x) v = None.
Proof. unfold weight, sep_weights. fold (sep_row scopes). now rewrite (dget_seq_str (sep_row scopes)). Qed.
Lemma sep_weight_str2 scopes x v : weight (sep_weights scopes) v (NStr x) = None.
Proof.
  unfold weight, sep_weights. fold (sep_row scopes). destruct v as [i|y]; [|now rewrite (dget_seq_str (sep_row scopes))].
  rewrite (dget_seq (sep_row scopes)). destruct (_ && _); [|reflexivity]. now rewrite sep_row_get.
Qed.
Lemma sep_length scopes : length (sep_weights scopes) = length scopes.
Proof. unfold sep_weights. now rewrite map_length, seq_length. Qed.
Lemma sep_keys scopes : dkeys (sep_weights scopes) = map NInt (seq 0 (length scopes)).
Proof. unfold sep_weights, dkeys. rewrite map_map. reflexivity. Qed.
Lemma sep_graph scopes : weighted_graph (sep_weights scopes).
Proof.
  split; [rewrite sep_keys, sep_length; reflexivity|]. intros u e D. rewrite sep_keys. unfold sep_weights in D. fold (sep_row scopes) in D. destruct u as [i|x].
  - rewrite (dget_seq (sep_row scopes)) in D. destruct (_ && _); [|discriminate]. injection D as <-. apply sep_row_keys.
  - now rewrite (dget_seq_str (sep_row scopes)) in D.
Qed.
Lemma sep_symmetric scopes : symmetric (sep_weights scopes).
Proof.
  intros [i|x] [j|y].
  - rewrite !sep_weight, set_inter_length. rewrite (Nat.eqb_sym j i). destruct (i <? _), (j <? _), (i =? j); reflexivity.
  - now rewrite sep_weight_str, sep_weight_str2.
  - now rewrite sep_weight_str, sep_weight_str2.
  - now rewrite !sep_weight_str.
Qed.
Lemma sep_reach scopes v : In v (map NInt (seq 0 (length scopes))) -> wreach (sep_weights scopes) (NInt 0) v.
Proof.
  intros H. apply in_map_iff in H as (k & <- & Hk). apply in_seq in Hk. destruct (Nat.eq_dec k 0) as [->|N]; [apply rt_refl|].
  apply rt_step. rewrite sep_weight. destruct (Nat.ltb_spec 0 (length scopes)); [|lia]. destruct (Nat.ltb_spec k (length scopes)); [|lia].
  destruct (Nat.eqb_spec 0 k); [lia|]. discriminate.
Qed.

(** the spanning tree of the cliques: vertex 0 is the only one without parent, every other has exactly one *)
Definition rooted_tree (T : edict) (n : nat) : Prop :=
  dkeys T = map NInt (seq 0 n) /\ (forall u, ~ edge T u (NInt 0)) /\ (forall u u' v, edge T u v -> edge T u' v -> u = u') /\
  forall k, 0 < k < n -> exists u, edge T u (NInt k).
Lemma sep_mst scopes : exists T, mst (sep_weights scopes) = Ok T /\ rooted_tree T (length scopes).
Proof.
  destruct scopes as [|s0 r0].
  - exists []. split; [reflexivity|]. split; [reflexivity|]. split; [intros u (c & D & _); discriminate|]. split; [intros u u' v (c & D & _); discriminate|]. simpl. lia.
  - set (scopes := s0 :: r0). destruct (mst_tree (sep_weights scopes) (sep_graph scopes)) as (T & E & K & _ & _ & Z & U & _ & Rc & _); [rewrite sep_length; simpl; lia|].
    exists T. split; [exact E|]. rewrite sep_length in K. split; [exact K|]. split; [exact Z|]. split; [exact U|]. intros k Hk.
    assert (Rk : reach T (NInt 0) (NInt k)) by (apply Rc; apply sep_reach; apply in_map; apply in_seq; lia).
    apply clos_rt_rtn1 in Rk. inversion Rk as [Q|y z Hyz Hr]; subst; [lia|]. exists y. exact Hyz.
Qed.

Lemma clique_tree_inv nx mc o bn t : clique_tree nx mc o bn = Ok t ->
  exists es, make_chordal nx (sub o 0) bn None = Ok es /\ mst (sep_weights (mc es)) = Ok (t_E t) /\ t_V t = dkeys (t_E t) /\
    build_cliques (sub o 1) bn (mc es) = Ok (t_heap t, t_C t).
Proof.
  unfold clique_tree. intros H. apply bind_Ok in H as (F & _ & H). apply bind_Ok in H as (es & Ec & H). apply bind_Ok in H as (E & Em & H). apply bind_Ok in H as (hc & Eb & H).
  injection H as <-. exists es. cbn [t_E t_V t_heap t_C]. split; [exact Ec|]. split; [exact Em|]. split; [reflexivity|]. rewrite Eb. now destruct hc.
Qed.

(** ** CliqueTree.parents *)
Lemma ct_parents_ok t v : incl (t_V t) (dkeys (t_E t)) -> ct_parents t v = Ok (repeat v (length (filter (fun u => match dget (t_E t) u with Some c => mem v c | None => false end) (t_V t)))).
Proof.
  intros I. unfold ct_parents.
  rewrite (mapM_ok _ (fun rv => if match dget (t_E t) rv with Some c => mem v c | None => false end then [v] else [])).
  - cbn [bind]. f_equal. clear I. induction (t_V t) as [|u l IH]; [reflexivity|]. simpl. rewrite IH. destruct (match dget (t_E t) u with Some c => mem v c | None => false end); reflexivity.
  - intros u Hu. apply I in Hu. apply dget_In in Hu. unfold getitem. destruct (dget (t_E t) u) as [c|]; [|congruence]. cbn [bind]. reflexivity.
Qed.
Lemma filter_unique {A} (p : A -> bool) l : NoDup l -> (exists x, In x l /\ p x = true) -> (forall x y, p x = true -> p y = true -> x = y) -> length (filter p l) = 1.
Proof.
  intros ND (x & Hx & Px) U. assert (Hf : forall y, In y (filter p l) <-> y = x).
  { intros y. rewrite filter_In. split; [intros [_ Py]; now apply U|intros ->; auto]. }
  assert (NDf : NoDup (filter p l)) by now apply NoDup_filter.
  destruct (filter p l) as [|y [|z r]]; [exfalso; now apply (proj2 (Hf x))|reflexivity|].
  exfalso. assert (y = x) by (apply Hf; now left). assert (z = x) by (apply Hf; right; now left). subst. inversion NDf as [|? ? N _]. apply N. now left.
Qed.
Lemma tree_parents t n k : t_V t = dkeys (t_E t) -> rooted_tree (t_E t) n -> k < n -> ct_parents t (NInt k) = Ok (if k =? 0 then [] else [NInt k]).
Proof.
  intros EV (K & Z & U & X) Hk. rewrite ct_parents_ok by (rewrite EV; apply incl_refl). f_equal.
  set (p := fun u => match dget (t_E t) u with Some c => mem (NInt k) c | None => false end).
  assert (Pe : forall u, p u = true <-> edge (t_E t) u (NInt k)).
  { intros u. unfold p, edge. destruct (dget (t_E t) u) as [c|]; [|split; [discriminate|intros (c & D & _); discriminate]].
    rewrite mem_In. split; [intros H; exists c; auto|intros (c' & D & H); injection D as <-; exact H]. }
  destruct (Nat.eqb_spec k 0) as [->|N].
  - assert (E0 : filter p (t_V t) = []); [|now rewrite E0].
    destruct (filter p (t_V t)) as [|u r] eqn:Ef; [reflexivity|]. exfalso. assert (Hu : In u (filter p (t_V t))) by (rewrite Ef; now left). apply filter_In in Hu as [_ Hu]. apply Pe in Hu. now apply (Z u).
  - assert (L1 : length (filter p (t_V t)) = 1); [|now rewrite L1]. apply filter_unique.
    + rewrite EV, K. apply FinFun.Injective_map_NoDup; [intros a b Q; now inversion Q|apply seq_NoDup].
    + destruct (X k) as (u & Hu); [lia|]. exists u. split; [|now apply Pe]. rewrite EV. destruct Hu as (c & D & _). apply dget_In. congruence.
    + intros x y Hx Hy. apply Pe in Hx, Hy. now apply (U x y (NInt k)).
Qed.

(** ** messages to oneself *)
Lemma ask_nil o : good o -> ask o [] = [].
Proof. intros Go. apply Permutation_nil. symmetry. now apply good_ask. Qed.
Lemma self_send o h cs i c b ob : good o -> nth_error cs i = Some c -> c_belief c = Some b -> c_msgs c = [] -> nth_error (h_obj h) b = Some ob ->
  send_message o h cs i i = Ok (mkH (h_obj h ++ [ob]) (h_scope h) (h_card h) (h_stride h), upd_nth i (add_msg c (length (h_obj h))) cs).
Proof.
  intros Go Ec Eb Em Eo. unfold send_message. rewrite (cell_Some _ _ _ Ec). cbn [bind]. unfold ensure_belief. rewrite Eb. cbn [bind fst snd]. rewrite Em. cbn [fmul_all bind].
  unfold fcopy. rewrite (cell_Some _ _ _ Eo). cbn [bind fst snd].
  assert (Ed : set_diff (c_scope c) (set_inter (c_scope c) (c_scope c)) = []).
  { destruct (set_diff (c_scope c) (set_inter (c_scope c) (c_scope c))) as [|x r] eqn:Q; [reflexivity|]. exfalso.
    assert (H : In x (set_diff (c_scope c) (set_inter (c_scope c) (c_scope c)))) by (rewrite Q; now left). apply In_set_diff in H as [H1 H2]. apply H2. now apply In_set_inter. }
  rewrite Ed, ask_nil by (now apply good_sub). cbn [fsumout_all bind].
  assert (Ecc : mkC (c_scope c) (c_F c) (c_psi c) (Some b) [] = c) by (rewrite <- Eb, <- Em; now destruct c). rewrite Ecc. rewrite (upd_nth_same cs i c Ec). rewrite (cell_Some _ _ _ Ec). cbn [bind].
  unfold add_msg. rewrite Em. reflexivity.
Qed.

Definition idle (h : fheap) (cs : list clique) (k : nat) : Prop :=
  exists c b, nth_error cs k = Some c /\ c_belief c = Some b /\ c_msgs c = [] /\ nth_error (h_obj h) b <> None.
Definition extends (h h' : fheap) : Prop :=
  h_scope h' = h_scope h /\ h_card h' = h_card h /\ h_stride h' = h_stride h /\ forall a x, nth_error (h_obj h) a = Some x -> nth_error (h_obj h') a = Some x.

Lemma self_pass t n o : t_V t = dkeys (t_E t) -> rooted_tree (t_E t) n -> good o -> forall l h cs,
  NoDup l -> (forall k, In k l -> k < n /\ idle h cs k) ->
  exists h' cs', foldM (fun st v =>
      do ps <- ct_parents t v ;;
      foldM (fun st p =>
        match v, p with
        | NInt i, NInt j => send_message (sub o i) (fst st) (snd st) i j
        | _, _ => Raise KeyError
        end) ps st) (map NInt l) (h, cs) = Ok (h', cs') /\ extends h h' /\
    forall k c, nth_error cs k = Some c ->
      (In k l -> k <> 0 -> exists m b, c_belief c = Some b /\ nth_error cs' k = Some (add_msg c m) /\ nth_error (h_obj h') m = nth_error (h_obj h) b) /\
      (~ In k l \/ k = 0 -> nth_error cs' k = Some c).
Proof.
  intros EV RT Go. induction l as [|i l IH]; intros h cs ND Id.
  - exists h, cs. split; [reflexivity|]. split; [split; [reflexivity|split; [reflexivity|split; [reflexivity|auto]]]|]. intros k c Ec. split; [intros []|auto].
  - inversion ND as [|? ? Ni ND']; subst. destruct (Id i (or_introl eq_refl)) as [Hi (c & b & Ec & Eb & Em & Eo)].
    cbn [map foldM]. rewrite (tree_parents t n i EV RT Hi). cbn [bind]. destruct (Nat.eqb_spec i 0) as [->|Nz].
    + cbn [foldM bind]. destruct (IH h cs ND') as (h' & cs' & E & X & R); [intros k Hk; apply Id; now right|]. exists h', cs'. split; [exact E|]. split; [exact X|].
      intros k c' Ec'. destruct (R k c' Ec') as [R1 R2]. split; [intros [<-|Hk] Nk; [congruence|now apply R1]|]. intros [Nk| ->]; apply R2; [left; intros C; apply Nk; now right|now right].
    + cbn [foldM fst snd]. destruct (nth_error (h_obj h) b) as [ob|] eqn:Eob; [|congruence].
      rewrite (self_send (sub o i) h cs i c b ob (good_sub _ i Go) Ec Eb Em Eob). cbn [bind].
      set (h1 := mkH (h_obj h ++ [ob]) (h_scope h) (h_card h) (h_stride h)). set (cs1 := upd_nth i (add_msg c (length (h_obj h))) cs).
      assert (X1 : forall a x, nth_error (h_obj h) a = Some x -> nth_error (h_obj h1) a = Some x) by (intros a x; apply nth_error_app_lt).
      assert (C1 : forall k, k <> i -> nth_error cs1 k = nth_error cs k) by (intros k Hk; apply nth_error_upd_other; congruence).
      assert (Ci : nth_error cs1 i = Some (add_msg c (length (h_obj h)))) by (apply nth_error_upd_same; apply nth_error_Some; congruence).
      destruct (IH h1 cs1 ND') as (h' & cs' & E & (X2 & X3 & X4 & X5) & R).
      { intros k Hk. destruct (Id k (or_intror Hk)) as [Hk' (c' & b' & A1 & A2 & A3 & A4)]. split; [exact Hk'|]. exists c', b'. rewrite C1 by (intros ->; contradiction).
        split; [exact A1|]. split; [exact A2|]. split; [exact A3|]. destruct (nth_error (h_obj h) b') as [x|] eqn:Q; [|congruence]. rewrite (X1 _ _ Q). discriminate. }
      exists h', cs'. split; [exact E|]. split; [split; [exact X2|split; [exact X3|split; [exact X4|]]]; intros a x Ha; apply X5; now apply X1|].
      intros k c' Ec'. destruct (Nat.eq_dec k i) as [->|Nk].
      * rewrite Ec in Ec'. injection Ec' as <-. split; [|intros [C|C]; [exfalso; apply C; now left|congruence]]. intros _ _.
        exists (length (h_obj h)), b. split; [exact Eb|]. destruct (R i _ Ci) as [_ R2]. rewrite (R2 (or_introl Ni)). split; [reflexivity|].
        rewrite Eob. apply X5. unfold h1. apply nth_error_snoc.
      * destruct (R k c') as [R1 R2]; [rewrite C1 by assumption; exact Ec'|]. split.
        -- intros [C|Hk] Nk0; [congruence|]. destruct (R1 Hk Nk0) as (m & b' & Q1 & Q2 & Q3). exists m, b'. split; [exact Q1|]. split; [exact Q2|].
           destruct (Id k (or_intror Hk)) as [_ (c2 & b2 & A1 & A2 & A3 & A4)]. rewrite Ec' in A1. injection A1 as <-. rewrite Q1 in A2. injection A2 as <-.
           destruct (nth_error (h_obj h) b') as [x|] eqn:Q; [|congruence]. rewrite (X1 _ _ Q) in Q3. exact Q3.
        -- intros [Nk1| ->]; apply R2; [left; intros C; apply Nk1; now right|now right].
Qed.

(** ** exact_bp on a built tree *)
Lemma root_choice t n target : t_V t = map NInt (seq 0 n) -> length (t_C t) = n ->
  mapM (fun v => do c <- clique_at t v ;; Ok (if mem target (c_scope c) then [v] else [])) (t_V t) =
  Ok (map (fun v => match v with NInt k => if mem target (scope_at (t_C t) k) then [NInt k] else [] | NStr _ => [] end) (t_V t)).
Proof.
  intros EV Ln. apply mapM_ok. intros v Hv. rewrite EV in Hv. apply in_map_iff in Hv as (k & <- & Hk). apply in_seq in Hk. unfold clique_at, cell, scope_at.
  destruct (nth_error (t_C t) k) as [c|] eqn:E; [reflexivity|]. apply nth_error_None in E. lia.
Qed.
Lemma first_hit (p : nat -> bool) : forall n s r, s <= r < s + n -> p r = true -> (forall k, s <= k < r -> p k = false) ->
  exists q, concat (map (fun v => match v with NInt k => if p k then [NInt k] else [] | NStr _ => [] end) (map NInt (seq s n))) = NInt r :: q.
Proof.
  induction n as [|n IH]; intros s r Hr Pr Pk; [lia|]. simpl. destruct (Nat.eq_dec s r) as [->|N].
  - rewrite Pr. simpl. eauto.
  - rewrite (Pk s) by lia. simpl. apply IH; [lia|exact Pr|]. intros k Hk. apply Pk. lia.
Qed.
Lemma no_hit (p : nat -> bool) : forall n s, (forall k, s <= k < s + n -> p k = false) ->
  concat (map (fun v => match v with NInt k => if p k then [NInt k] else [] | NStr _ => [] end) (map NInt (seq s n))) = [].
Proof.
  induction n as [|n IH]; intros s Pk; [reflexivity|]. simpl. rewrite (Pk s) by lia. simpl. apply IH. intros k Hk. apply Pk. lia.
Qed.

Lemma built_facts nx mc o bn t : wfnet bn -> good o -> clique_tree nx mc o bn = Ok t ->
  exists es xs, make_chordal nx (sub o 0) bn None = Ok es /\ map c_scope (t_C t) = mc es /\ assignment bn (mc es) (map snd xs) /\
    live (t_heap t) (map fst xs) /\ Forall2 (ready bn (t_heap t)) (t_C t) xs /\
    t_V t = map NInt (seq 0 (length (t_C t))) /\ t_V t = dkeys (t_E t) /\ rooted_tree (t_E t) (length (t_C t)) /\ mst (sep_weights (mc es)) = Ok (t_E t).
Proof.
  intros W Go H. destruct (clique_tree_inv _ _ _ _ _ H) as (es & Ec & Em & EV & Eb).
  destruct (build_ok bn (sub o 1) (mc es) W (good_sub _ 1 Go)) as (asg & _ & As & [[_ R]|(_ & h & cs & xs & R & Lv & Rd & Ms & Mc)]); [congruence|].
  rewrite R in Eb. injection Eb as Eh Ecs. subst h cs. exists es, xs. split; [exact Ec|]. split; [exact Mc|]. rewrite Ms. split; [exact As|]. split; [exact Lv|]. split; [exact Rd|].
  destruct (sep_mst (mc es)) as (T & ET & RT). assert (T = t_E t) by congruence; subst T.
  assert (Ln : length (t_C t) = length (mc es)) by (rewrite <- Mc; symmetry; apply map_length). rewrite Ln.
  split; [rewrite EV; apply RT|]. split; [exact EV|]. split; [exact RT|exact Em].
Qed.

Lemma exact_on nx mc o bn t post o2 target r c : wfnet bn -> good o -> good o2 -> clique_tree nx mc o bn = Ok t ->
  (forall root, Permutation (post (t_E t) root) (t_V t)) ->
  nth_error (t_C t) r = Some c -> In target (c_scope c) -> (forall k, k < r -> ~ In target (scope_at (t_C t) k)) ->
  exists nodes again, incl nodes (bn_V bn) /\ doubled (table_size bn) nodes again /\
    (forall v, In v nodes -> fits bn v (c_scope c)) /\
    let phi := fun a => if r =? 0 then potential bn nodes again a else (potential bn nodes again a * potential bn nodes again a)%Qc in
    ((exists v, In v nodes /\ In target (v :: nparents bn v)) ->
     exists f, exact_bp_on post o2 t target = Ok f /\ f_scope f = [target] /\
       forall others, NoDup others -> (forall w, In w others <-> w <> target /\ exists v, In v nodes /\ In w (v :: nparents bn v)) ->
         f_cpt f = map (fun x => sum_over (ncard bn) others phi (upd (fun _ => 0) target x)) (seq 0 (ncard bn target))).
Proof.
  intros W Go Go2 Ht Hpost Ec Hin Hfirst.
  destruct (built_facts nx mc o bn t W Go Ht) as (es & xs & _ & Mc & As & Lv & Rd & EV & EVk & RT & _).
  set (n := length (t_C t)) in *. assert (Hr : r < n) by (apply nth_error_Some; congruence).
  destruct (Forall2_nth _ _ _ Rd r c Ec) as (x & Ex & Rx).
  assert (Rx0 := Rx). destruct Rx0 as (p & f & again & A1 & A2 & A3 & A4 & A5 & A6 & A7 & A8 & A9 & A10).
  destruct As as (As1 & As2 & As3).
  assert (Inodes : incl (snd x) (bn_V bn)).
  { intros v Hv. apply As3. apply in_concat. exists (snd x). split; [apply in_map; eapply nth_error_In; eassumption|exact Hv]. }
  exists (snd x), again. split; [exact Inodes|]. split; [exact A9|]. split.
  { assert (Es : nth_error (mc es) r = Some (c_scope c)) by (rewrite <- Mc, nth_error_map, Ec; reflexivity).
    destruct (Forall2_nth _ _ _ As1 r _ Es) as (ns & En & _ & Hn). rewrite nth_error_map, Ex in En. injection En as <-. intros v Hv. now apply Hn. }
  intros phi Hcov.
  (* the run *)
  assert (Hpl : exists l, post (t_E t) (NInt r) = map NInt l /\ Permutation l (seq 0 n)).
  { pose proof (Hpost (NInt r)) as P. rewrite EV in P. apply Permutation_map_inv in P as (l & El & Pl). exists l. split; [exact El|now symmetry]. }
  destruct Hpl as (l & El & Pl).
  assert (Hid : forall k, In k l -> k < n /\ idle (t_heap t) (t_C t) k).
  { intros k Hk. apply (Permutation_in _ Pl) in Hk. apply in_seq in Hk. split; [lia|].
    destruct (nth_error (t_C t) k) as [c'|] eqn:Ec'; [|apply nth_error_None in Ec'; unfold n in Hk; lia].
    destruct (Forall2_nth _ _ _ Rd k c' Ec') as (x' & Ex' & (p' & f' & ag' & B1 & B2 & B3 & B4 & B5 & B6 & _)).
    exists c', (fst x'). split; [exact Ec'|]. split; [exact B2|]. split; [exact B3|]. apply fload_inv in B6 as (ob & Eob). congruence. }
  assert (NDl : NoDup l) by (eapply Permutation_NoDup; [symmetry; exact Pl|apply seq_NoDup]).
  destruct (self_pass t n o2 EVk RT Go2 l (t_heap t) (t_C t) NDl Hid) as (h' & cs' & Er & (X1 & X2 & X3 & X4) & R).
  assert (Hrl : In r l) by (apply (Permutation_in _ (Permutation_sym Pl)); apply in_seq; lia).
  assert (E0 : nget (t_V t) 0 = Ok (NInt 0)) by (unfold nget; rewrite EV; destruct n; [lia|reflexivity]).
  unfold exact_bp_on. rewrite E0, (root_choice t n target EV eq_refl). cbn [bind].
  destruct (first_hit (fun k => mem target (scope_at (t_C t) k)) n 0 r) as (q & Eq).
  { lia. }
  { apply mem_In. unfold scope_at. now rewrite Ec. }
  { intros k Hk. apply mem_false. apply Hfirst. lia. }
  rewrite <- EV in Eq. rewrite Eq. cbv zeta. rewrite El, Er. cbn [bind fst snd].
  (* the objects of the root *)
  destruct (lv_obj _ _ Lv (fst x)) as (ob & Eob & Wob); [apply in_map; eapply nth_error_In; eassumption|].
  assert (Eb' : nth_error (h_obj h') (fst x) = Some ob) by now apply X4.
  assert (Ep' : nth_error (h_obj h') p = Some ob) by (apply X4; congruence).
  assert (Wob' : wired h' ob) by (unfold wired; rewrite X1, X2, X3; exact Wob).
  assert (Lv' : live h' [fst x]).
  { constructor; [constructor; [intros []|constructor]| |].
    - intros a [<-|[]]. exists ob. auto.
    - intros a b y z [<-|[]] [<-|[]] N; congruence. }
  assert (Ld : forall a, nth_error (h_obj h') a = Some ob -> fload h' a = Ok f).
  { intros a Ea. rewrite <- A6. unfold fload, cell. rewrite Ea, Eob. cbn [bind]. now rewrite X1, X2, X3. }
  assert (Rf : repr (ncard bn) f (val f)) by now apply repr_val.
  destruct (R r c Ec) as [R1 R2].
  assert (Fin : exists c1 h2 c2 b f2, nth_error cs' r = Some c1 /\ collect_beliefs o2 h' c1 = Ok (h2, c2) /\ c_belief c2 = Some b /\ fload h2 b = Ok f2 /\
     repr (ncard bn) f2 (fun a => if r =? 0 then val f a else (val f a * val f a)%Qc) /\ forall w, In w (f_scope f2) <-> In w (f_scope f)).
  { destruct (Nat.eqb_spec r 0) as [->|Nr].
    - assert (Ec1 := R2 (or_intror eq_refl)). exists c. unfold collect_beliefs. rewrite A3, A2.
      destruct (fcopy_ok h' (fst x) [] f Lv' (Ld _ Eb')) as (h2 & E2 & _ & F2 & _). rewrite E2. cbn [bind fst snd].
      eexists h2, _, _, f. split; [exact Ec1|]. split; [reflexivity|]. split; [reflexivity|]. split; [exact F2|]. split; [exact Rf|tauto].
    - destruct (R1 Hrl Nr) as (m & b & Q1 & Q2 & Q3). rewrite A2 in Q1. injection Q1 as <-. rewrite Eob in Q3. exists (add_msg c m). unfold collect_beliefs, add_msg. cbn [c_msgs c_psi c_scope c_F]. rewrite A3. cbn [app]. rewrite A1.
      assert (Ecp : fcopy h' p = fcopy h' (fst x)) by (unfold fcopy, cell; now rewrite Ep', Eb'). rewrite Ecp.
      destruct (fcopy_ok h' (fst x) [] f Lv' (Ld _ Eb')) as (h2 & E2 & L2 & F2 & N2 & K2 & O2 & _). rewrite E2. cbn [bind fst snd fmul_all].
      assert (Fm : fload h2 m = Ok f) by (rewrite K2 by (apply nth_error_Some; congruence); now apply Ld).
      destruct (fmul_big_ok (ncard bn) (sub o2 0) h2 (length (h_obj h')) m [] f f _ _ (good_sub _ 0 Go2) L2 F2 Fm Rf Rf (Nat.le_refl _)) as (h3 & f3 & E3 & _ & F3 & R3 & S3 & _).
      rewrite E3. cbn [bind]. eexists h3, _, _, f3. split; [unfold add_msg in Q2; rewrite A3, A1 in Q2; exact Q2|]. split; [reflexivity|]. split; [reflexivity|]. split; [exact F3|]. split; [exact R3|]. intros w. rewrite S3. tauto. }
  destruct Fin as (c1 & h2 & c2 & b & f2 & F1 & F2 & F3 & F4 & F5 & F6). rewrite (cell_Some _ _ _ F1). cbn [bind]. rewrite F2. cbn [bind fst snd]. unfold marginalize_over. rewrite F3, F4. cbn [bind].
  assert (Ht2 : In target (f_scope f2)) by (apply F6; now apply A8).
  destruct (sumover_ok (ncard bn) f2 _ target F5 Ht2) as (g & Eg & Rg & Sg & _). exists g. split; [exact Eg|]. split; [exact Sg|].
  intros others NDo Ho. rewrite (single_cpt (ncard bn) g target (proj1 Rg)).
  2: { rewrite Sg. intros w. simpl. split; [intros [<-|[]]; reflexivity|intros ->; now left]. }
  apply map_ext_in. intros z Hz. apply in_seq in Hz. rewrite <- (repr_to_val _ _ _ Rg).
  2: { rewrite Sg. intros w [<-|[]]. rewrite upd_same. lia. }
  assert (NDf : NoDup (f_scope f2)) by exact (wf_nodup _ _ (proj1 F5)).
  rewrite (sum_over_perm (ncard bn) (remove1 target (f_scope f2)) others).
  - apply sum_over_congr. intros a Ha Va. unfold phi.
    set (a' := fun v => if mem v (f_scope f2) then a v else 0).
    assert (Hvals : val f a = potential bn (snd x) again a).
    { assert (In_t : forall w, In w (f_scope f2) -> a w < ncard bn w).
      { intros w Hw. destruct (name_eqb_spec w target) as [->|Nw].
        - rewrite Ha; [rewrite upd_same; lia|]. intros C. apply Ho in C. tauto.
        - apply Va; [exact NDo|]. apply Ho. split; [exact Nw|]. apply A8. now apply F6. }
      transitivity (val f a').
      - unfold val. f_equal. apply lookup_ext. intros w Hw. unfold a'. apply F6 in Hw. apply mem_In in Hw. now rewrite Hw.
      - rewrite A10.
        + assert (Dag : incl again (snd x)).
          { destruct A9 as [[_ ->]|(_ & i & _ & ->)]; [intros v []|]. intros v Hv. rewrite <- (firstn_skipn (S i) (snd x)). apply in_or_app. now left. }
          assert (Q : forall v, In v (snd x) -> getq (cond_prob bn v a') = getq (cond_prob bn v a)).
          { intros v Hv. f_equal. unfold cond_prob. f_equal. apply radix_ext. intros w Hw. unfold a'. assert (M : mem w (f_scope f2) = true) by (apply mem_In, F6, A8; exists v; auto). now rewrite M. }
          unfold potential. f_equal; apply qprod_map_ext; intros v Hv; apply Q; [now apply Dag|exact Hv].
        + intros v Hv. unfold a'. destruct (mem v (f_scope f2)) eqn:M; [apply In_t; now apply mem_In|now apply card_pos_wf]. }
    destruct (r =? 0); now rewrite !Hvals.
  - intros a a' H. assert (Q := val_ext f a a' H). destruct (r =? 0); now rewrite !Q.
  - now apply NoDup_remove1.
  - apply perm_of_iff; [now apply NoDup_remove1|exact NDo|]. intros w. rewrite In_remove1 by assumption. rewrite Ho, F6, A8. tauto.
Qed.
