(** ConstraintFacts.v -- proofs about Constraint.v: pc, its orientation step, resolve_markov_blanket. *)
From Verif Require Import Py Num BayesNet SpecFactor SpecGraph Graph GraphTheory GraphTopsort GraphNet GraphFacts Data ParamLearn ParamFacts NaiveFacts
  StructScore StructFacts SpecConstraint Constraint.
Open Scope nat_scope.

(** outcomes: a result with [P], or an exception with [R] *)
Definition safe {A} (R : exn -> Prop) (P : A -> Prop) (m : res A) : Prop := match m with Ok a => P a | Raise e => R e end.
Lemma safe_bind {A B} R (Q : A -> Prop) (P : B -> Prop) m k : safe R Q m -> (forall a, Q a -> safe R P (k a)) -> safe R P (bind m k).
Proof. destruct m; simpl; auto. Qed.
Lemma safe_mono {A} (R : exn -> Prop) (P Q : A -> Prop) m : (forall a, P a -> Q a) -> safe R P m -> safe R Q m.
Proof. destruct m; simpl; auto. Qed.
Lemma safe_foldM {A S} R (I : S -> Prop) (f : S -> A -> res S) l s :
  I s -> (forall x s, In x l -> I s -> safe R I (f s x)) -> safe R I (foldM f l s).
Proof.
  revert s. induction l as [|x r IH]; intros s H0 H; simpl; [assumption|].
  apply (safe_bind _ I); [apply H; [now left|assumption]|]. intros s' Hs'. apply IH; [assumption|]. intros y t Hy. apply H. now right.
Qed.
Definition raised (test : ptest) (e : exn) : Prop := exists cols, test cols = Raise e.
Lemma safe_test (test : ptest) cols : safe (raised test) (fun p => test cols = Ok p) (test cols).
Proof. destruct (test cols) eqn:E; simpl; [reflexivity|]. exists cols. exact E. Qed.
Lemma safe_Ok {A} R (P : A -> Prop) m a : safe R P m -> m = Ok a -> P a.
Proof. intros H ->. exact H. Qed.
Lemma safe_raised {A} (test : ptest) (P : A -> Prop) m : answers test -> safe (raised test) P m -> exists a, m = Ok a /\ P a.
Proof. intros H. destruct m as [a|e]; simpl; [eauto|]. intros (c & Hc). destruct (H c) as (p & Hp). congruence. Qed.
Lemma foldM_ext {A S} (f g : S -> A -> res S) l s : (forall s x, In x l -> f s x = g s x) -> foldM f l s = foldM g l s.
Proof.
  revert s. induction l as [|x r IH]; intros s H; simpl; [reflexivity|]. rewrite H by now left.
  destruct (g s x); simpl; [|reflexivity]. apply IH. intros t y Hy. apply H. now right.
Qed.

Lemma p_gt_true p a : p_gt p a = true <-> exists q, p = Some q /\ (a < q)%Qc.
Proof. destruct p as [q|]; simpl; [rewrite qltb_lt|]; split; intros H; [eauto| |discriminate|]; destruct H as (x & E & L); congruence. Qed.
Lemma p_lt_true p a : p_lt p a = true <-> exists q, p = Some q /\ (q < a)%Qc.
Proof. destruct p as [q|]; simpl; [rewrite qltb_lt|]; split; intros H; [eauto| |discriminate|]; destruct H as (x & E & L); congruence. Qed.
Lemma p_gt_indep test alpha x y z p : test (x :: y :: z) = Ok p -> p_gt p alpha = true <-> indep test alpha x y z.
Proof.
  intros T. rewrite p_gt_true. unfold indep. split; intros (q & E & L); exists q; (split; [|exact L]); congruence.
Qed.
Lemma p_lt_dep test alpha x y z p : test (x :: y :: z) = Ok p -> p_lt p alpha = true <-> dep test alpha x y z.
Proof.
  intros T. rewrite p_lt_true. unfold dep. split; intros (q & E & L); exists q; (split; [|exact L]); congruence.
Qed.

(** ** columns, sublists, combinations *)
Lemma NoDup_columns n : NoDup (columns n).
Proof. apply NoDup_col. Qed.
Lemma length_columns n : length (columns n) = n.
Proof. unfold columns. now rewrite map_length, seq_length. Qed.
Lemma In_columns n x : In x (columns n) <-> exists i, x = NInt i /\ i < n.
Proof.
  unfold columns. rewrite in_map_iff. split; intros (i & H); exists i; rewrite in_seq in *; intuition (subst; auto; lia).
Qed.
Lemma sublist_incl z l : sublist z l -> incl z l.
Proof.
  induction 1 as [l|x z l H IH|x z l H IH]; intros y Hy; simpl in *; [contradiction| |].
  - destruct Hy as [-> |Hy]; auto.
  - right. auto.
Qed.
Lemma sublist_NoDup z l : sublist z l -> NoDup l -> NoDup z.
Proof.
  induction 1 as [l|x z l H IH|x z l H IH]; intros N; [constructor| |]; inversion N; subst; [|auto].
  constructor; [|auto]. intros Hx. apply sublist_incl in H. auto.
Qed.
Lemma In_combs l : forall k z, In z (combs l k) <-> sublist z l /\ length z = k.
Proof.
  induction l as [|x r IH]; intros [|k] z; simpl.
  - split; [intros [<-|[]]; split; [constructor|reflexivity]|]. intros [_ H]. left. now destruct z.
  - split; [intros []|]. intros [H E]. inversion H; subst; discriminate.
  - split; [intros [<-|[]]; split; [constructor|reflexivity]|]. intros [_ H]. left. now destruct z.
  - rewrite in_app_iff, in_map_iff. split.
    + intros [(z' & <- & H)|H]; apply IH in H as [H E]; (split; [constructor; assumption|simpl; congruence]).
    + intros [H E]. inversion H as [l' e|x' z' l' H' e1 e2|x' z' l' H' e1 e2]; subst.
      * discriminate.
      * left. exists z'. split; [reflexivity|]. apply IH. split; [assumption|]. now injection E.
      * right. apply IH. now split.
Qed.
Lemma length_le_columns n l : NoDup l -> incl l (columns n) -> length l <= n.
Proof. intros N H. rewrite <- (length_columns n). now apply NoDup_incl_length. Qed.

(** ** removing and adding one direction of an edge *)
Definition lists_ok (E : edict) : Prop := forall x l, dget E x = Some l -> NoDup l.
Lemma edge_get E x l y : dget E x = Some l -> edge E x y <-> In y l.
Proof. intros D. unfold edge. rewrite D. split; [intros (c & H & K); congruence|eauto]. Qed.
Lemma dremove_sp E x l y : dget E x = Some l -> NoDup l -> In y l ->
  exists E', dremove E x y = Ok E' /\ dkeys E' = dkeys E /\ (forall a, dget E' a = if name_eqb a x then Some (remove1 y l) else dget E a) /\
    (forall a b, edge E' a b <-> edge E a b /\ ~ (a = x /\ b = y)).
Proof.
  intros D N H. exists (dset E x (remove1 y l)). split; [now apply dremove_ok|]. split; [apply dkeys_dset_in; now apply dget_Some_In in D|].
  split; [intros a; apply dget_dset|]. intros a b. unfold edge. rewrite dget_dset. destruct (name_eqb_spec a x) as [-> |Na].
  - rewrite D. split.
    + intros (c & [= <-] & Hb). apply Py.In_remove1 in Hb as [Hb Nb]; [|assumption]. split; [eauto|]. tauto.
    + intros ((c & [= <-] & Hb) & Nb). eexists. split; [reflexivity|]. apply Py.In_remove1; [assumption|]. split; [assumption|]. intros ->. tauto.
  - split; [intros H'; split; [assumption|tauto]|tauto].
Qed.
Lemma dremove_lists E E' x l y : lists_ok E -> dget E x = Some l -> (forall a, dget E' a = if name_eqb a x then Some (remove1 y l) else dget E a) -> lists_ok E'.
Proof.
  intros L D G a c. rewrite G. destruct (name_eqb a x); [|apply L]. intros [= <-]. apply Py.NoDup_remove1. eauto.
Qed.
Lemma getitem_keys (E : edict) x : In x (dkeys E) -> exists l, getitem E x = Ok l /\ dget E x = Some l.
Proof. intros H. destruct (In_dget _ _ H) as (l & D). exists l. unfold getitem. now rewrite D. Qed.
Lemma put_sp d u v : In u (dkeys d) -> lists_ok d -> exists d', put d u v = Ok d' /\ dkeys d' = dkeys d /\ lists_ok d' /\
  (forall a b, edge d' a b <-> edge d a b \/ (a = u /\ b = v)).
Proof.
  intros K L. destruct (getitem_keys _ _ K) as (l & G & D). unfold put. rewrite G. cbn [bind]. destruct (mem_spec v l) as [H|H].
  - exists d. split; [reflexivity|]. split; [reflexivity|]. split; [assumption|]. intros a b. split; [tauto|]. intros [H'|[-> ->]]; [assumption|]. eexists; eauto.
  - rewrite (dappend_ok _ _ _ _ D). eexists. split; [reflexivity|]. split; [now apply dkeys_dset_in|]. split.
    + intros a c. rewrite dget_dset. destruct (name_eqb a u); [|apply L]. intros [= <-].
      apply NoDup_app_intro; [eauto|repeat constructor; intros []|]. intros x Hx [-> |[]]. contradiction.
    + intros a b. unfold edge. rewrite dget_dset. destruct (name_eqb_spec a u) as [-> |Na]; [rewrite D|]; split.
      * intros (c & [= <-] & Hb). apply in_app_iff in Hb as [Hb|[-> |[]]]; [left; eauto|now right].
      * intros [(c & [= <-] & Hb)|[_ ->]]; eexists; (split; [reflexivity|]); apply in_app_iff; [now left|right; now left].
      * now left.
      * intros [H'|[-> _]]; [assumption|congruence].
Qed.

(** ** the skeleton search of pc *)
Section PC.
Variables (test : ptest) (alpha : Qc) (n : nat).
Definition block_ok (E : edict) (B : bdict) : Prop :=
  (forall x, In x (columns n) -> In x (dkeys B)) /\
  forall x b, dget B x = Some b -> b = [] \/ exists y z, b = [(y, z)] /\ In x (columns n) /\ In y (columns n) /\ x <> y /\ ~ edge E x y /\
     separates test alpha (columns n) x y z.
Definition pc_inv (st : pc_state) : Prop :=
  adjacency (columns n) (fst st) /\
  (forall x y, In x (columns n) -> In y (columns n) -> x <> y -> ~ edge (fst st) x y -> exists z, separates test alpha (columns n) x y z) /\
  block_ok (fst st) (snd st).
Definition cond_ok (x : name) (z : list name) : Prop := z <> [] /\ NoDup z /\ incl z (columns n) /\ ~ In x z.

Lemma separates_sym x y z : separates test alpha (columns n) x y z -> separates test alpha (columns n) y x z.
Proof. unfold separates. tauto. Qed.
Lemma adjacency_lists E : adjacency (columns n) E -> lists_ok E.
Proof. intros A x l D. now apply (ad_lists _ _ A) in D. Qed.

Lemma pc_try_inv x y st z : pc_inv st -> In x (columns n) -> In y (columns n) -> x <> y -> cond_ok x z ->
  safe (raised test) (fun st' => pc_inv st' /\ sub_edges (fst st') (fst st)) (pc_try test alpha x y st z).
Proof.
  intros I Hx Hy Nxy (C1 & C2 & C3 & C4). unfold pc_try. destruct (mem_spec y z) as [Hz|Hz]; [split; [assumption|now intros ? ?]|].
  apply (safe_bind _ _ _ _ _ (safe_test test (x :: y :: z))). intros p T. destruct (p_gt p alpha) eqn:G; [|split; [assumption|now intros ? ?]].
  apply (p_gt_indep _ _ _ _ _ _ T) in G.
  assert (Sep : separates test alpha (columns n) x y z). { unfold separates. auto 10. }
  destruct st as [E B]. cbn [fst snd] in *. destruct I as (A & M & BO & BK). cbn [fst snd] in *.
  assert (Kx : In x (dkeys E)) by now rewrite (ad_keys _ _ A). assert (Ky : In y (dkeys E)) by now rewrite (ad_keys _ _ A).
  destruct (getitem_keys _ _ Kx) as (ex & Gx & Dx). rewrite Gx. cbn [bind].
  assert (HB : forall E', (forall a b, edge E' a b -> edge E a b) -> ~ edge E' x y -> ~ edge E' y x -> block_ok E' (dset (dset B x [(y, z)]) y [(x, z)])).
  { intros E' Se Nx Ny. split.
    - intros a Ha. rewrite !In_dkeys_dset. auto.
    - intros a b. rewrite !dget_dset. destruct (name_eqb_spec a y) as [-> |Na].
      { intros [= <-]. right. exists x, z. apply separates_sym in Sep. auto 10. }
      destruct (name_eqb_spec a x) as [-> |Na2]; [intros [= <-]; right; exists y, z; auto 10|].
      intros D. destruct (BK _ _ D) as [-> |(u & w & -> & H1 & H2 & H3 & H4 & H5)]; [now left|]. right. exists u, w.
      split; [reflexivity|]. do 3 (split; [assumption|]). split; [|assumption]. intros H. apply H4, Se, H. }
  destruct (mem_spec y ex) as [Hin|Hin].
  - destruct (dremove_sp E x ex y Dx) as (E1 & R1 & K1 & G1 & Ed1); [now apply (ad_lists _ _ A) in Dx|assumption|]. rewrite R1. cbn [bind].
    destruct (getitem_keys _ _ Ky) as (ey & Gy & Dy).
    assert (Exy : edge E x y) by (eexists; eauto). assert (Eyx : edge E y x) by now apply (ad_sym _ _ A).
    assert (Hxy : In x ey). { now apply (edge_get E y ey x Dy) in Eyx. }
    assert (D1 : dget E1 y = Some ey). { rewrite G1. destruct (name_eqb_spec y x); [congruence|assumption]. }
    assert (Ny : NoDup ey) by now apply (ad_lists _ _ A) in Dy.
    destruct (dremove_sp E1 y ey x D1 Ny Hxy) as (E2 & R2 & K2 & G2 & Ed2). rewrite R2. cbn [bind safe].
    assert (Ed : forall a b, edge E2 a b <-> edge E a b /\ ~ (a = x /\ b = y) /\ ~ (a = y /\ b = x)). { intros a b. rewrite Ed2, Ed1. tauto. }
    split; [|intros a b H; now apply Ed in H]. unfold pc_inv. cbn [fst snd]. split; [|split].
    + constructor.
      * rewrite K2, K1. apply (ad_keys _ _ A).
      * assert (L1 : forall a l, dget E1 a = Some l -> NoDup l /\ incl l (columns n)).
        { intros a l. rewrite G1. destruct (name_eqb a x); [|apply (ad_lists _ _ A)]. intros [= <-]. destruct (ad_lists _ _ A _ _ Dx) as [N H].
          split; [now apply Py.NoDup_remove1|]. intros u Hu. apply H. eapply Py.remove1_incl; eauto. }
        intros a l. rewrite G2. destruct (name_eqb a y); [|apply L1]. intros [= <-]. destruct (L1 _ _ D1) as [N H].
        split; [now apply Py.NoDup_remove1|]. intros u Hu. apply H. eapply Py.remove1_incl; eauto.
      * intros a H. apply Ed in H as [H _]. now apply (ad_irrefl _ _ A) in H.
      * intros a b H. apply Ed in H as (H & N1 & N2). apply Ed. split; [now apply (ad_sym _ _ A)|]. split; intros [-> ->]; tauto.
    + intros a b Ha Hb Nab H. destruct (edge_dec E a b) as [E0|E0]; [|now apply M].
      assert (C : (a = x /\ b = y) \/ (a = y /\ b = x)).
      { destruct (name_eq_dec a x) as [E1'|E1'], (name_eq_dec b y) as [E2'|E2'], (name_eq_dec a y) as [E3'|E3'], (name_eq_dec b x) as [E4'|E4']; auto;
          exfalso; apply H, Ed; (split; [assumption|]); split; intros [? ?]; congruence. }
      exists z. destruct C as [[-> ->]|[-> ->]]; [assumption|now apply separates_sym].
    + apply HB; [intros a b H; now apply Ed in H| |]; intros H; apply Ed in H; tauto.
  - cbn [safe fst snd]. split; [|now intros ? ?]. unfold pc_inv; cbn [fst snd]. split; [assumption|]. split; [assumption|].
    assert (Nx : ~ edge E x y). { intros H. apply (edge_get E x ex y Dx) in H. contradiction. }
    apply HB; [now intros ? ?|assumption|]. intros H. apply Nx. now apply (ad_sym _ _ A).
Qed.

Lemma pc_neighbours_inv i x : 0 < i -> In x (columns n) -> forall fuel pos st, pc_inv st -> n < fuel + pos -> pos <= n ->
  safe (raised test) (fun st' => pc_inv st' /\ sub_edges (fst st') (fst st)) (pc_neighbours fuel test alpha i x pos st).
Proof.
  intros Hi Hx. induction fuel as [|f IH]; intros pos st I F P; [lia|]. cbn [pc_neighbours].
  pose proof I as (A & _ & _).
  destruct (getitem_keys (fst st) x) as (ex & Gx & Dx); [now rewrite (ad_keys _ _ A)|]. rewrite Gx. cbn [bind].
  destruct (ad_lists _ _ A _ _ Dx) as [N Inc]. pose proof (length_le_columns n ex N Inc) as Len.
  destruct (nth_error ex pos) as [y|] eqn:Ny; [|split; [assumption|now intros ? ?]].
  assert (Hp : pos < length ex) by (apply nth_error_Some; congruence). apply nth_error_In in Ny.
  assert (Nxy : x <> y). { intros <-. apply (ad_irrefl _ _ A x). eexists; eauto. }
  apply (safe_bind _ (fun st' => pc_inv st' /\ sub_edges (fst st') (fst st))).
  - apply safe_foldM; [split; [assumption|now intros ? ?]|]. intros z s Hz [Is Ss]. apply In_combs in Hz as [Hz Lz].
    eapply safe_mono; [|apply (pc_try_inv x y s z Is Hx (Inc _ Ny) Nxy)].
    + intros s' [I' S']. split; [assumption|]. intros a b H. apply Ss, S', H.
    + split; [intros ->; simpl in Lz; lia|]. split; [eapply sublist_NoDup; eauto|]. apply sublist_incl in Hz. split; [intros a Ha; auto|].
      intros H. apply (ad_irrefl _ _ A x). eexists; eauto.
  - intros st' [I' S']. eapply safe_mono; [|apply IH; [assumption|lia|lia]]. intros s [Is Ss]. split; [assumption|]. intros a b H. apply S', Ss, H.
Qed.
Lemma pc_level_inv i st : 0 < i -> pc_inv st -> safe (raised test) (fun st' => pc_inv st' /\ sub_edges (fst st') (fst st)) (pc_level test alpha n i st).
Proof.
  intros Hi I. unfold pc_level. apply safe_foldM; [split; [assumption|now intros ? ?]|]. intros x s Hx [Is Ss].
  eapply safe_mono; [|apply pc_neighbours_inv; [assumption|assumption|assumption|lia|lia]]. intros s' [I' S']. split; [assumption|]. intros a b H. apply Ss, S', H.
Qed.
Lemma adjacency_lens E : adjacency (columns n) E ->
  mapM (fun x => do l <- getitem E x ;; Ok (length l)) (columns n) = Ok (map (fun x => length (succs E x)) (columns n)).
Proof.
  intros A. apply mapM_ok. intros x Hx. destruct (getitem_keys E x) as (l & G & D); [now rewrite (ad_keys _ _ A)|]. rewrite G. cbn [bind]. unfold succs. now rewrite D.
Qed.
Lemma pc_levels_inv : forall fuel i st, pc_inv st -> 0 < i -> n + 1 < fuel + i -> i <= S n ->
  safe (raised test) (fun st' => pc_inv st' /\ sub_edges (fst st') (fst st)) (pc_levels fuel test alpha n i st).
Proof.
  induction fuel as [|f IH]; intros i st I Hi F L; [lia|]. cbn [pc_levels].
  apply (safe_bind _ _ _ _ _ (pc_level_inv i st Hi I)). intros st' [I' S']. pose proof I' as (A & _ & _). rewrite (adjacency_lens _ A). cbn [bind].
  destruct (existsb _ _) eqn:X; [|split; assumption]. apply existsb_exists in X as (k & Hk & Lk). apply Nat.ltb_lt in Lk.
  apply in_map_iff in Hk as (x & <- & Hx).
  assert (length (succs (fst st') x) <= n).
  { unfold succs. destruct (dget (fst st') x) as [l|] eqn:D; [|simpl; lia]. destruct (ad_lists _ _ A _ _ D). now apply length_le_columns. }
  eapply safe_mono; [|apply IH; [assumption|lia|lia|lia]]. intros s [Is Ss]. split; [assumption|]. intros a b H'. apply S', Ss, H'.
Qed.
Lemma complete_edge x y : edge (complete n) x y <-> In x (columns n) /\ In y (columns n) /\ x <> y.
Proof.
  unfold complete, columns. assert (G : forall l, dget (map (fun i => (NInt i, map NInt (filter (fun j => negb (i =? j)) (seq 0 n)))) l) x =
     match x with NInt i => if existsb (Nat.eqb i) l then Some (map NInt (filter (fun j => negb (i =? j)) (seq 0 n))) else None | _ => None end).
  { induction l as [|i r IH]; cbn [map dget]; [now destruct x|]. rewrite IH. destruct x as [k|s]; simpl; [|reflexivity].
    destruct (Nat.eqb_spec k i) as [-> |N]; simpl; reflexivity. }
  unfold edge. rewrite G. destruct x as [i|s].
  - destruct (existsb (Nat.eqb i) (seq 0 n)) eqn:X.
    + apply existsb_exists in X as (j & Hj & Ej). apply Nat.eqb_eq in Ej. subst j. split.
      * intros (c & [= <-] & H). apply in_map_iff in H as (k & <- & Hk). apply filter_In in Hk as [Hk Nk]. apply negb_true_iff, Nat.eqb_neq in Nk.
        split; [now apply in_map|]. split; [now apply in_map|congruence].
      * intros (_ & H & N). apply in_map_iff in H as (k & <- & Hk). eexists. split; [reflexivity|]. apply in_map, filter_In. split; [assumption|].
        apply negb_true_iff, Nat.eqb_neq. congruence.
    + split; [intros (c & Hc & _); discriminate|]. intros (H & _). exfalso. apply in_map_iff in H as (k & [= ->] & Hk).
      assert (existsb (Nat.eqb i) (seq 0 n) = true) by (apply existsb_exists; exists i; rewrite Nat.eqb_refl; auto). congruence.
  - split; [intros (c & Hc & _); discriminate|]. intros (H & _). apply in_map_iff in H as (k & Hk & _). discriminate.
Qed.
Lemma complete_adjacency : adjacency (columns n) (complete n).
Proof.
  constructor.
  - unfold complete, dkeys, columns. now rewrite map_map.
  - unfold complete. intros x l. assert (G : forall s, dget (map (fun i => (NInt i, map NInt (filter (fun j => negb (i =? j)) (seq 0 n)))) s) x = Some l ->
      exists i, l = map NInt (filter (fun j => negb (i =? j)) (seq 0 n))).
    { induction s as [|i r IH]; cbn [map dget]; [discriminate|]. destruct (name_eqb x (NInt i)); [intros [= <-]; eauto|exact IH]. }
    intros H. apply G in H as (i & ->). split.
    + apply FinFun.Injective_map_NoDup; [intros a b; congruence|]. apply NoDup_filter, seq_NoDup.
    + intros y Hy. apply in_map_iff in Hy as (j & <- & Hj). apply filter_In in Hj as [Hj _]. unfold columns. now apply in_map.
  - intros x H. apply complete_edge in H. tauto.
  - intros x y H. apply complete_edge in H. apply complete_edge. intuition congruence.
Qed.
Lemma pc_start_inv : pc_inv (complete n, map (fun i => (NInt i, [])) (seq 0 n)).
Proof.
  unfold pc_inv. cbn [fst snd]. split; [apply complete_adjacency|]. split.
  - intros x y Hx Hy N H. exfalso. apply H, complete_edge. auto.
  - split.
    + intros x Hx. unfold dkeys. rewrite map_map. exact Hx.
    + intros x b D. left. revert D. induction (seq 0 n) as [|i r IH]; cbn [map dget]; [discriminate|]. destruct (name_eqb x (NInt i)); [congruence|exact IH].
Qed.
Lemma pc_skeleton_inv : safe (raised test) pc_inv (pc_skeleton test alpha n).
Proof.
  unfold pc_skeleton. eapply safe_mono; [|apply pc_levels_inv; [apply pc_start_inv|lia|lia|lia]]. now intros s [H _].
Qed.
End PC.

(** pc never runs a test with fewer than three columns *)
Lemma pc_skeleton_ext t1 t2 alpha n : (forall a b c r, t1 (a :: b :: c :: r) = t2 (a :: b :: c :: r)) -> pc_skeleton t1 alpha n = pc_skeleton t2 alpha n.
Proof.
  intros H. unfold pc_skeleton.
  assert (T : forall x y st z, z <> [] -> pc_try t1 alpha x y st z = pc_try t2 alpha x y st z).
  { intros x y st [|c r] Hz; [congruence|]. unfold pc_try. rewrite H. reflexivity. }
  assert (N : forall i x f pos st, 0 < i -> pc_neighbours f t1 alpha i x pos st = pc_neighbours f t2 alpha i x pos st).
  { intros i x. induction f as [|f IH]; intros pos st Hi; simpl; [reflexivity|]. destruct (getitem (fst st) x) as [ex|]; simpl; [|reflexivity].
    destruct (nth_error ex pos) as [y|]; [|reflexivity].
    rewrite (foldM_ext (pc_try t1 alpha x y) (pc_try t2 alpha x y) (combs ex i)).
    - destruct (foldM (pc_try t2 alpha x y) (combs ex i) st); simpl; [|reflexivity]. now apply IH.
    - intros s z Hz. apply T. apply In_combs in Hz as [_ Lz]. intros ->. simpl in Lz. lia. }
  generalize (S n) at 1 2 as f. generalize (complete n, map (fun i : nat => (NInt i, @nil (name * list name))) (seq 0 n)) as st.
  assert (G : forall f i st, 0 < i -> pc_levels f t1 alpha n i st = pc_levels f t2 alpha n i st).
  { induction f as [|f IH]; intros i st Hi; simpl; [reflexivity|]. unfold pc_level.
    rewrite (foldM_ext (fun st x => pc_neighbours (S n) t1 alpha i x 0 st) (fun st x => pc_neighbours (S n) t2 alpha i x 0 st)) by (intros; now apply N).
    destruct (foldM _ (columns n) st) as [st'|]; cbn [bind]; [|reflexivity]. destruct (mapM _ (columns n)) as [lens|]; cbn [bind]; [|reflexivity].
    destruct (existsb _ lens); [|reflexivity]. apply IH. lia. }
  intros st f. apply G. lia.
Qed.

(** ** orient_edges_CS *)
(** the edges one recorded meeting x - z - y contributes *)
Definition contributes (E : edict) (B : bdict) (x z y a b : name) : Prop :=
  meeting E x z y /\ exists s, recorded B x y s /\
    ((~ In z s /\ ((a = x /\ b = z) \/ (a = y /\ b = z))) \/ (In z s /\ ((a = z /\ b = x) \/ (a = z /\ b = y)))).
Lemma cs_meet_ok E B x z y d : In x (dkeys E) -> In y (dkeys E) -> In z (dkeys E) -> In x (dkeys B) -> edge E x z -> edge E z y ->
  dkeys d = dkeys E -> lists_ok d ->
  exists d', cs_meet E B x z d y = Ok d' /\ dkeys d' = dkeys E /\ lists_ok d' /\
    (forall a b, edge d' a b <-> edge d a b \/ contributes E B x z y a b).
Proof.
  intros Kx Ky Kz KB Exz Ezy Kd L. unfold cs_meet.
  assert (Same : (forall a b, ~ contributes E B x z y a b) -> exists d', Ok d = Ok d' /\ dkeys d' = dkeys E /\ lists_ok d' /\
     (forall a b, edge d' a b <-> edge d a b \/ contributes E B x z y a b)).
  { intros H. exists d. split; [reflexivity|]. split; [assumption|]. split; [assumption|]. intros a b. specialize (H a b). tauto. }
  destruct (name_eqb_spec y x) as [Ex|Ex]; [apply Same; intros a b [(_ & _ & N & _) _]; congruence|].
  destruct (getitem_keys _ _ Ky) as (ey & Gy & Dy). rewrite Gy. cbn [bind].
  destruct (mem_spec x ey) as [Hx|Hx]; [apply Same; intros a b [(_ & _ & _ & _ & N) _]; apply N; eexists; eauto|].
  destruct (getitem_keys _ _ Kx) as (ex & Gx & Dx). rewrite Gx. cbn [bind].
  destruct (mem_spec y ex) as [Hy|Hy]; [apply Same; intros a b [(_ & _ & _ & N & _) _]; apply N; eexists; eauto|].
  destruct (In_dget _ _ KB) as (bx & Db). unfold getitem at 1. rewrite Db. cbn [bind].
  assert (M : meeting E x z y).
  { split; [assumption|]. split; [assumption|]. split; [assumption|]. split; intros H; [apply (edge_get _ _ _ _ Dx) in H|apply (edge_get _ _ _ _ Dy) in H]; contradiction. }
  destruct (dget bx y) as [s|] eqn:Ds.
  2: { apply Same. intros a b [_ (s & (b' & D1 & D2) & _)]. congruence. }
  assert (Rec : recorded B x y s) by (exists bx; auto).
  assert (Uniq : forall s', recorded B x y s' -> s' = s). { intros s' (b' & D1 & D2). congruence. }
  destruct (mem_spec z s) as [Hz|Hz].
  - destruct (put_sp d z x) as (d1 & P1 & K1 & L1 & Ed1); [now rewrite Kd|assumption|]. rewrite P1. cbn [bind].
    destruct (put_sp d1 z y) as (d2 & P2 & K2 & L2 & Ed2); [now rewrite K1, Kd|assumption|]. exists d2. split; [assumption|]. split; [congruence|]. split; [assumption|].
    intros a b. rewrite Ed2, Ed1. split.
    + intros [[H|H]|H]; [now left| |]; right; (split; [assumption|]); exists s; split; auto.
    + intros [H|[_ (s' & Hs' & H)]]; [auto|]. apply Uniq in Hs'. subst s'. tauto.
  - destruct (put_sp d x z) as (d1 & P1 & K1 & L1 & Ed1); [now rewrite Kd|assumption|]. rewrite P1. cbn [bind].
    destruct (put_sp d1 y z) as (d2 & P2 & K2 & L2 & Ed2); [now rewrite K1, Kd|assumption|]. exists d2. split; [assumption|]. split; [congruence|]. split; [assumption|].
    intros a b. rewrite Ed2, Ed1. split.
    + intros [[H|H]|H]; [now left| |]; right; (split; [assumption|]); exists s; split; auto.
    + intros [H|[_ (s' & Hs' & H)]]; [auto|]. apply Uniq in Hs'. subst s'. tauto.
Qed.
(** a loop whose every step adds some edges to the dict *)
Lemma foldM_collect {A} (keys : list name) (step : edict -> A -> res edict) (add : A -> name -> name -> Prop) l : 
  (forall t d, In t l -> dkeys d = keys -> lists_ok d -> exists d', step d t = Ok d' /\ dkeys d' = keys /\ lists_ok d' /\ (forall a b, edge d' a b <-> edge d a b \/ add t a b)) ->
  forall d, dkeys d = keys -> lists_ok d ->
  exists d', foldM step l d = Ok d' /\ dkeys d' = keys /\ lists_ok d' /\ (forall a b, edge d' a b <-> edge d a b \/ exists t, In t l /\ add t a b).
Proof.
  induction l as [|t r IH]; intros H d K L; simpl.
  - exists d. split; [reflexivity|]. split; [assumption|]. split; [assumption|]. intros a b. split; [tauto|]. intros [?|(t & [] & _)]; assumption.
  - destruct (H t d (or_introl eq_refl) K L) as (d1 & S1 & K1 & L1 & E1). rewrite S1. cbn [bind].
    destruct (IH (fun t' d' Ht => H t' d' (or_intror Ht)) d1 K1 L1) as (d2 & S2 & K2 & L2 & E2). exists d2. split; [assumption|]. split; [assumption|]. split; [assumption|].
    intros a b. rewrite E2, E1. split.
    + intros [[?|?]|(t' & ? & ?)]; eauto 6.
    + intros [?|(t' & [-> |?] & ?)]; eauto 6.
Qed.
Lemma empties_get (l : list name) x c : dget (map (fun x => (x, @nil name)) l) x = Some c -> c = [].
Proof. induction l as [|y r IH]; cbn [map dget]; [discriminate|]. destruct (name_eqb x y); [congruence|exact IH]. Qed.
Lemma orient_edges_CS_ok E B : closed_edges E -> (forall x, In x (dkeys E) -> In x (dkeys B)) ->
  exists D, orient_edges_CS E B = Ok D /\ dkeys D = dkeys E /\ lists_ok D /\
    (forall a b, edge D a b <-> exists x z y, contributes E B x z y a b).
Proof.
  intros [N C] KB. unfold orient_edges_CS.
  assert (Kin : forall x y, edge E x y -> In x (dkeys E)). { intros x y (c & D & _). now apply dget_Some_In in D. }
  destruct (foldM_collect (dkeys E)
    (fun d x => do ex <- getitem E x ;; foldM (fun d z => do ez <- getitem E z ;; foldM (cs_meet E B x z) ez d) ex d)
    (fun x a b => exists z y, contributes E B x z y a b) (dkeys E)) with (d := map (fun x => (x, @nil name)) (dkeys E)) as (D & F & K & L & Ed).
  - intros x d Hx K L. destruct (getitem_keys _ _ Hx) as (ex & Gx & Dx). rewrite Gx. cbn [bind].
    destruct (foldM_collect (dkeys E) (fun d z => do ez <- getitem E z ;; foldM (cs_meet E B x z) ez d) (fun z a b => exists y, contributes E B x z y a b) ex) with (d := d)
      as (d' & F & K' & L' & Ed'); [|assumption|assumption|].
    + intros z d0 Hz K0 L0. assert (Exz : edge E x z) by (eexists; eauto). destruct (getitem_keys _ _ (C _ _ Exz)) as (ez & Gz & Dz). rewrite Gz. cbn [bind].
      destruct (foldM_collect (dkeys E) (cs_meet E B x z) (fun y a b => contributes E B x z y a b) ez) with (d := d0) as (d1 & F1 & K1 & L1 & Ed1); [|assumption|assumption|].
      * intros y d2 Hy K2 L2. assert (Ezy : edge E z y) by (eexists; eauto). apply cs_meet_ok; eauto.
      * exists d1. split; [assumption|]. split; [assumption|]. split; [assumption|]. intros a b. rewrite Ed1. split.
        { intros [?|(y & _ & ?)]; eauto. }
        { intros [?|(y & Hc)]; [auto|]. right. exists y. split; [|assumption]. destruct Hc as [(_ & Hy & _) _]. now apply (edge_get _ _ _ _ Dz) in Hy. }
    + exists d'. split; [assumption|]. split; [assumption|]. split; [assumption|]. intros a b. rewrite Ed'. split.
      { intros [?|(z & _ & y & ?)]; eauto. }
      { intros [?|(z & y & Hc)]; [auto|]. right. exists z. split; [|eauto]. destruct Hc as [(Hz & _) _]. now apply (edge_get _ _ _ _ Dx) in Hz. }
  - apply dkeys_map_pair.
  - intros x c H. apply empties_get in H. subst. constructor.
  - exists D. split; [assumption|]. split; [assumption|]. split; [assumption|]. intros a b. rewrite Ed. split.
    + intros [(c & H & Hb)|(x & _ & z & y & ?)]; [apply empties_get in H; subst; contradiction|eauto].
    + intros (x & z & y & Hc). right. exists x. split; [|eauto]. destruct Hc as [(Hx & _) _]. eauto.
Qed.
Lemma adjacency_closed nodes E : NoDup nodes -> adjacency nodes E -> closed_edges E.
Proof.
  intros N A. split; [now rewrite (ad_keys _ _ A)|]. intros u v (c & D & H). rewrite (ad_keys _ _ A). destruct (ad_lists _ _ A _ _ D). auto.
Qed.
Lemma contributes_edge E B x z y a b : (forall u v, edge E u v -> edge E v u) -> contributes E B x z y a b -> edge E a b.
Proof. intros Sy [(Exz & Ezy & _) (s & _ & [[_ [[-> ->]|[-> ->]]]|[_ [[-> ->]|[-> ->]]]])]; auto. Qed.

(** ** value_dict *)
Lemma value_dict_ok t : table_ok t -> exists vd, value_dict t = Ok vd /\ dkeys vd = columns (t_ncols t) /\
  (forall i, i < t_ncols t -> dget vd (NInt i) = Some (np_unique (map (fun r => nth i r (NInt 0)) (t_rows t)))).
Proof.
  intros T. unfold value_dict.
  rewrite (mapM_ok _ (fun i => (NInt i, np_unique (map (fun r => nth i r (NInt 0)) (t_rows t))))).
  - eexists. split; [reflexivity|]. split; [unfold dkeys, columns; rewrite map_map; reflexivity|]. intros i Hi.
    assert (In i (seq 0 (t_ncols t))) as H by (apply in_seq; lia). revert H. generalize (seq 0 (t_ncols t)) as s. induction s as [|j r IH]; [intros []|]. cbn [map dget].
    destruct (name_eqb_spec (NInt i) (NInt j)) as [E|E]; [injection E as ->; reflexivity|]. intros [-> |H]; [congruence|auto].
  - intros i Hi. apply in_seq in Hi. unfold column. destruct (Nat.ltb_spec i (t_ncols t)); [|lia].
    rewrite (mapM_ok _ (fun r => nth i r (NInt 0))); [reflexivity|]. intros r Hr. unfold nget. rewrite (nth_error_nth' r (NInt 0)); [reflexivity|].
    rewrite (T _ Hr). lia.
Qed.

(** BayesNet(D, value_dict) for a dict whose keys are the columns *)
Lemma build_ok D t vd : table_ok t -> value_dict t = Ok vd -> dkeys D = columns (t_ncols t) -> closed_edges D ->
  exists bn, set_structure D (Some vd) = Ok bn /\ bn_E bn = D /\ topsort D None = Ok (bn_V bn) /\ incl (bn_V bn) (columns (t_ncols t)) /\
    (acyclic D -> Permutation (bn_V bn) (columns (t_ncols t))) /\
    (forall i d, In (NInt i) (bn_V bn) -> dget (bn_F bn) (NInt i) = Some d -> f_values d = np_unique (map (fun r => nth i r (NInt 0)) (t_rows t))).
Proof.
  intros T V K C. destruct (value_dict_ok t T) as (vd' & V' & Kv & Gv). rewrite V in V'. injection V' as <-.
  destruct (topsort_from_ok D (topsort_roots D) C) as (out & TS & (N & R & Q)).
  { intros x Hx. apply In_topsort_roots in Hx; [apply Hx|apply C]. }
  assert (Inc : incl out (dkeys D)).
  { intros x Hx. apply R in Hx as (s & Hs & Hr). apply In_topsort_roots in Hs; [|apply C]. apply rt_cases in Hr as [<-|P]; [apply Hs|].
    clear - C P. induction P as [a b H|a b c _ _ _ IH]; [now apply C in H|assumption]. }
  destruct (set_structure_ok D (Some vd) out C) as (bn & SS & HV & HE & HF); [exact TS| |].
  { intros v Hv. apply Inc in Hv. rewrite K, <- Kv in Hv. now apply In_dget. }
  exists bn. split; [assumption|]. split; [assumption|]. rewrite HV. split; [exact TS|]. split; [now rewrite <- K|]. split.
  - intros Ac. apply NoDup_Permutation; [assumption|apply NoDup_columns|]. rewrite <- K. intros x. split; [apply Inc|]. intros Hx.
    apply R. destruct (from_source (edge D) (edge_dec D) (dkeys D) x (proj1 C) Ac) as (r & Hr & Src & P); [|exact Hx|].
    + intros u w _ (c & Dc & _). now apply dget_Some_In in Dc.
    + exists r. split; [|assumption]. apply In_topsort_roots; [apply C|]. now split.
  - intros i d Hi Di. destruct (HF _ Hi) as (d' & Dd & _ & _ & Fv). rewrite Di in Dd. injection Dd as <-. rewrite Fv.
    apply Inc in Hi. rewrite K in Hi. apply In_columns in Hi as (j & [= <-] & Hj). now rewrite Gv.
Qed.
