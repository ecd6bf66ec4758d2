(** Chordal.v -- make_chordal's elimination game yields a chordal supergraph. *)
From Verif Require Import Py Num BayesNet SpecFactor SpecGraph Graph GraphTheory GraphTopsort GraphNet GraphFacts.
Open Scope nat_scope.

Definition cadj (l : list cedge) (a b : name) : Prop := uadj (map snd l) a b.
Lemma cadj_sym l a b : cadj l a b -> cadj l b a.
Proof. unfold cadj, uadj. tauto. Qed.
Lemma cadj_app l x a b : cadj (l ++ [x]) a b <-> cadj l a b \/ (a, b) = snd x \/ (b, a) = snd x.
Proof. unfold cadj, uadj. rewrite map_app, !in_app_iff. simpl. intuition congruence. Qed.

Lemma In_adj_v v tE n : In n (adj_v v tE) <-> n <> v /\ cadj tE v n.
Proof.
  unfold adj_v. rewrite In_dedup, in_flat_map. split.
  - intros ([fl [a b]] & He & H). apply filter_In in H as [H1 H2]. simpl in H1, H2. apply andb_prop in H2 as [H2 H3].
    apply negb_true_iff, name_eqb_neq in H3. split; [assumption|]. unfold touches in H2. simpl in H2. apply orb_prop in H2.
    assert (In (a, b) (map snd tE)) by (apply in_map_iff; exists (fl, (a, b)); auto).
    destruct H2 as [H2|H2]; apply name_eqb_eq in H2; subst.
    + destruct H1 as [<-|[<-|[]]]; [congruence|]. now left.
    + destruct H1 as [<-|[<-|[]]]; [|congruence]. now right.
  - intros [N [H|H]]; apply in_map_iff in H as ([fl e] & E & H); simpl in E; subst e.
    + exists (fl, (v, n)). split; [assumption|]. apply filter_In. split; [simpl; auto|]. unfold touches. simpl.
      rewrite name_eqb_refl. simpl. now apply negb_true_iff, name_eqb_neq.
    + exists (fl, (n, v)). split; [assumption|]. apply filter_In. split; [simpl; auto|]. unfold touches. simpl.
      rewrite name_eqb_refl, orb_true_r. simpl. now apply negb_true_iff, name_eqb_neq.
Qed.

Lemma lmem_cadj x l : lmem x l = true -> In x (map snd l).
Proof.
  unfold lmem. intros H. apply existsb_exists in H as ([fl e] & He & H). apply andb_prop in H as [_ H]. simpl in H.
  destruct (edge_eqb_spec x e); [|discriminate]. subst. apply in_map_iff. exists (fl, e). auto.
Qed.

(** one fill step *)
Lemma fill_pair_ok st ab : let st' := fill_pair st ab in
  (forall x, In x (fst st) -> In x (fst st')) /\ (forall x, In x (snd st) -> In x (snd st')) /\
  (forall a b, cadj (fst st') a b -> cadj (fst st) a b \/ (a, b) = ab \/ (b, a) = ab) /\
  (forall a b, cadj (snd st') a b -> cadj (snd st) a b \/ (a, b) = ab \/ (b, a) = ab) /\
  (fst ab <> snd ab -> cadj (fst st') (fst ab) (snd ab)) /\
  (forall a b, (cadj (snd st) a b <-> cadj (fst st) a b) -> (cadj (snd st') a b <-> cadj (fst st') a b)).
Proof.
  destruct st as [cE tE], ab as [a b]. cbn zeta. unfold fill_pair. cbn [fst snd].
  destruct (name_eqb_spec a b) as [->|N]; simpl.
  { split; [auto|]. split; [auto|]. split; [auto|]. split; [auto|]. split; [congruence|auto]. }
  destruct (lmem (a, b) cE) eqn:L1; simpl.
  { split; [auto|]. split; [auto|]. split; [auto|]. split; [auto|]. split; [intros _; left; now apply lmem_cadj|auto]. }
  destruct (lmem (b, a) cE) eqn:L2; simpl.
  { split; [auto|]. split; [auto|]. split; [auto|]. split; [auto|]. split; [intros _; right; now apply lmem_cadj|auto]. }
  split; [intros x Hx; apply in_or_app; now left|]. split; [intros x Hx; apply in_or_app; now left|].
  split; [intros x y; rewrite cadj_app; simpl; tauto|]. split; [intros x y; rewrite cadj_app; simpl; tauto|].
  split; [intros _; rewrite cadj_app; simpl; tauto|]. intros x y H. rewrite !cadj_app. simpl. tauto.
Qed.
Lemma fill_all_ok l : forall st, let st' := fold_left fill_pair l st in
  (forall x, In x (fst st) -> In x (fst st')) /\
  (forall a b, cadj (fst st') a b -> cadj (fst st) a b \/ In (a, b) l \/ In (b, a) l) /\
  (forall a b, cadj (snd st') a b -> cadj (snd st) a b \/ In (a, b) l \/ In (b, a) l) /\
  (forall a b, In (a, b) l -> a <> b -> cadj (fst st') a b) /\
  (forall a b, (cadj (snd st) a b <-> cadj (fst st) a b) -> (cadj (snd st') a b <-> cadj (fst st') a b)).
Proof.
  induction l as [|ab l IH]; intros st; cbn zeta; simpl.
  - split; [auto|]. split; [auto|]. split; [auto|]. split; [intros ? ? []|auto].
  - destruct (fill_pair_ok st ab) as (A1 & A2 & A3 & A4 & A5 & A6). destruct (IH (fill_pair st ab)) as (B1 & B2 & B3 & B4 & B5).
    split; [auto|]. split.
    { intros a b H. apply B2 in H as [H|H]; [|tauto]. apply A3 in H as [H|[H|H]]; auto. }
    split.
    { intros a b H. apply B3 in H as [H|H]; [|tauto]. apply A4 in H as [H|[H|H]]; auto. }
    split.
    { intros a b [->|H] N; [|now apply B4]. specialize (A5 N). simpl in A5.
      destruct A5 as [K|K]; [left|right]; apply in_map_iff in K as (x & Ex & Hx); apply in_map_iff; exists x; auto. }
    intros a b H. apply B5, A6, H.
Qed.
Lemma In_pairs_of l a b : In (a, b) (pairs_of l) <-> In a l /\ In b l.
Proof.
  unfold pairs_of. rewrite in_flat_map. split.
  - intros (x & Hx & H). apply in_map_iff in H as (y & E & Hy). inversion E; subst. auto.
  - intros [Ha Hb]. exists a. split; [assumption|]. apply in_map_iff. eauto.
Qed.

Lemma cadj_filter_touch v tE a b : cadj (filter (fun e => negb (touches v e)) tE) a b <-> cadj tE a b /\ a <> v /\ b <> v.
Proof.
  assert (G : forall x y, In (x, y) (map snd (filter (fun e => negb (touches v e)) tE)) <-> In (x, y) (map snd tE) /\ x <> v /\ y <> v).
  { intros x y. split.
    - intros H. apply in_map_iff in H as ([fl e] & E & H). simpl in E. subst. apply filter_In in H as [H1 H2].
      unfold touches in H2. simpl in H2. apply negb_true_iff, orb_false_elim in H2 as [K1 K2]. apply name_eqb_neq in K1, K2.
      split; [apply in_map_iff; exists (fl, (x, y)); auto|]. split; congruence.
    - intros (H & N1 & N2). apply in_map_iff in H as ([fl e] & E & H). simpl in E. subst. apply in_map_iff. exists (fl, (x, y)).
      split; [reflexivity|]. apply filter_In. split; [assumption|]. unfold touches. simpl.
      destruct (name_eqb_spec v x), (name_eqb_spec v y); congruence || reflexivity. }
  unfold cadj, uadj. rewrite !G. tauto.
Qed.

(** one elimination step followed by the rest *)
Lemma eliminate_ok : forall vs o cE tE (elim : name -> Prop), good o -> (forall x, elim x \/ ~ elim x) ->
  (forall a b, cadj tE a b <-> cadj cE a b /\ ~ elim a /\ ~ elim b) ->
  let F := eliminate o vs cE tE in
  (forall x, In x cE -> In x F) /\
  (forall a b, cadj F a b -> elim a -> cadj cE a b) /\
  (forall a b, cadj F a b -> cadj cE a b \/ (exists w, cadj cE a w) /\ (exists w, cadj cE b w)) /\
  (forall p v q, vs = p ++ v :: q -> ~ elim v -> ~ In v p -> forall a b, cadj F v a -> cadj F v b -> a <> b -> a <> v -> b <> v ->
     ~ elim a -> ~ elim b -> ~ In a p -> ~ In b p -> cadj F a b).
Proof.
  induction vs as [|v vs IH]; intros o cE tE elim Go Dec Inv F.
  - unfold F. simpl. split; [auto|]. split; [auto|]. split; [auto|]. intros p v q E. destruct p; discriminate.
  - assert (PA := good_ask (sub o (length (v :: vs))) (adj_v v tE) (good_sub _ _ Go)).
    set (l := ask (sub o (length (v :: vs))) (adj_v v tE)) in *.
    assert (Il : forall x, In x l <-> x <> v /\ cadj tE v x).
    { intros x. rewrite <- In_adj_v. split; apply Permutation_in; [exact PA|symmetry; exact PA]. }
    destruct (fill_all_ok (pairs_of l) (cE, tE)) as (A1 & A2 & A3 & A4 & A5).
    unfold F. cbn [eliminate]. fold l. destruct (fold_left fill_pair (pairs_of l) (cE, tE)) as [cE' tE'] eqn:Est. cbn [fst snd] in *.
    assert (Pair : forall a b, In (a, b) (pairs_of l) \/ In (b, a) (pairs_of l) -> ~ elim a /\ ~ elim b /\ a <> v /\ b <> v).
    { intros a b [H|H]; apply In_pairs_of in H as [H1 H2]; apply Il in H1 as [N1 H1], H2 as [N2 H2]; apply Inv in H1, H2; tauto. }
    set (elim' := fun x => elim x \/ x = v).
    assert (Dec' : forall x, elim' x \/ ~ elim' x).
    { intros x. unfold elim'. destruct (Dec x), (name_eq_dec x v); tauto. }
    assert (Inv' : forall a b, cadj (filter (fun e => negb (touches v e)) tE') a b <-> cadj cE' a b /\ ~ elim' a /\ ~ elim' b).
    { intros a b. rewrite cadj_filter_touch. unfold elim'. split.
      - intros (H & N1 & N2).
        assert (Ne : ~ elim a /\ ~ elim b).
        { apply A3 in H as [H|H]; [apply Inv in H; tauto|apply Pair in H; tauto]. }
        split; [|tauto]. apply (A5 a b); [rewrite Inv; tauto|assumption].
      - intros (H & N1 & N2). split; [|split; intros ->; tauto]. apply (A5 a b); [rewrite Inv; tauto|assumption]. }
    destruct (IH o cE' (filter (fun e => negb (touches v e)) tE') elim' Go Dec' Inv') as (B1 & B2 & B3 & B4).
    split; [auto|]. split; [|split].
    + intros a b H Ea. apply B2 in H; [|now left]. apply A2 in H as [H|H]; [assumption|]. apply Pair in H. tauto.
    + assert (Wit : forall a b, cadj cE' a b -> cadj cE a b \/ (exists w, cadj cE a w) /\ (exists w, cadj cE b w)).
      { intros a b H. apply A2 in H as [H|H]; [now left|]. right.
        assert (Q : In a l /\ In b l) by (destruct H as [H|H]; apply In_pairs_of in H; tauto).
        destruct Q as [Qa Qb]. apply Il in Qa as [_ Qa], Qb as [_ Qb]. apply Inv in Qa, Qb.
        split; exists v; apply cadj_sym; tauto. }
      intros a b H. apply B3 in H as [H|[(wa & Ha) (wb & Hb)]]; [now apply Wit|]. right. split.
      * apply Wit in Ha as [Ha|[Ha _]]; eauto.
      * apply Wit in Hb as [Hb|[Hb _]]; eauto.
    + intros p w q E Ew Nw a b Ha Hb Nab Na Nb Ea Eb Pa Pb. destruct p as [|x p]; simpl in E; inversion E; subst.
      * (* w is eliminated now *)
        assert (G : forall x, cadj (eliminate o q cE' (filter (fun e => negb (touches w e)) tE')) w x -> x <> w -> ~ elim x -> In x l).
        { intros x Hx Nx Ex. apply B2 in Hx; [|now right]. apply Il. split; [assumption|].
          apply A2 in Hx as [Hx|Hx]; [|apply Pair in Hx; tauto]. apply Inv. tauto. }
        assert (Qa := G a Ha Na Ea). assert (Qb := G b Hb Nb Eb).
        assert (X : cadj cE' a b) by (apply A4; [apply In_pairs_of; auto|assumption]).
        destruct X as [X|X]; [left|right]; apply in_map_iff in X as (z & Ez & Hz); apply in_map_iff; exists z; auto.
      * assert (T : forall y, ~ In y (x :: p) -> ~ elim y -> ~ elim' y) by (intros y K1 K2 [K|K]; subst; simpl in *; tauto).
        apply (B4 p w q eq_refl); auto; intros K; [apply Nw|apply Pa|apply Pb]; now right.
Qed.

Lemma first_in (P : name -> Prop) (Pd : forall x, {P x} + {~ P x}) vs : (exists x, In x vs /\ P x) ->
  exists p v q, vs = p ++ v :: q /\ P v /\ forall x, In x p -> ~ P x.
Proof.
  induction vs as [|v vs IH]; intros (x & Hx & Px); [destruct Hx|]. destruct (Pd v) as [Y|N].
  - exists [], v, vs. split; [reflexivity|]. split; [assumption|]. intros ? [].
  - destruct Hx as [->|Hx]; [contradiction|]. destruct IH as (p & w & q & -> & Pw & Hp); [eauto|].
    exists (v :: p), w, q. split; [reflexivity|]. split; [assumption|]. intros y [<-|Hy]; auto.
Qed.

Lemma cyc_nth_In c i : c <> [] -> In (cyc_nth c i) c.
Proof. intros N. apply nth_In. apply Nat.mod_upper_bound. destruct c; [congruence|discriminate]. Qed.
Lemma cyc_nth_mod c i : c <> [] -> cyc_nth c (i mod length c) = cyc_nth c i.
Proof. intros N. unfold cyc_nth. rewrite Nat.mod_mod by (destruct c; [congruence|discriminate]). reflexivity. Qed.

(** a graph with an elimination order in which the later neighbours of every vertex are
    pairwise adjacent is chordal *)
Lemma peo_chordal es vs :
  (forall a b, uadj es a b -> In a vs) ->
  (forall p v q, vs = p ++ v :: q -> ~ In v p -> forall a b, uadj es v a -> uadj es v b -> a <> b -> a <> v -> b <> v ->
     ~ In a p -> ~ In b p -> uadj es a b) -> chordal es.
Proof.
  intros Vin Peo c (_ & ND & Adj) Len. set (n := length c) in *.
  assert (Nc : c <> []) by (intros ->; simpl in Len; unfold n in Len; simpl in Len; lia).
  destruct (first_in (fun x => In x c) (fun x => in_dec name_eq_dec x c) vs) as (p & v & q & E & Hv & Hp).
  { exists (cyc_nth c 0). split; [|now apply cyc_nth_In]. eapply Vin. apply Adj. }
  destruct (In_nth c v (NInt 0) Hv) as (i & Hi & Ei).
  assert (Ci : cyc_nth c i = v) by (unfold cyc_nth; rewrite Nat.mod_small by assumption; exact Ei).
  fold n in Hi.
  assert (M : S i mod n < n /\ (i + n - 1) mod n < n /\ S i mod n <> (i + n - 1) mod n /\
    S (S i mod n) mod n <> (i + n - 1) mod n /\ S ((i + n - 1) mod n) mod n <> S i mod n /\ S i mod n <> i /\ (i + n - 1) mod n <> i).
  { assert (Sm : forall x, x < n -> x mod n = x) by (intros; now apply Nat.mod_small).
    assert (Nn : n mod n = 0) by (apply Nat.mod_same; lia).
    destruct (Nat.eq_dec i 0) as [->|N0].
    - rewrite (Sm 1), (Sm (0 + n - 1)) by lia. rewrite (Sm 2) by lia. replace (S (0 + n - 1)) with n by lia. rewrite Nn. lia.
    - replace (i + n - 1) with ((i - 1) + 1 * n) by lia. rewrite Nat.mod_add by lia. rewrite (Sm (i - 1)) by lia.
      replace (S (i - 1)) with i by lia. rewrite (Sm i) by lia.
      destruct (Nat.eq_dec (S i) n) as [En|Nn'].
      + rewrite En, Nn, (Sm 1) by lia. lia.
      + rewrite (Sm (S i)) by lia. destruct (Nat.eq_dec (S (S i)) n) as [En|Nn2].
        * rewrite En, Nn. lia.
        * rewrite (Sm (S (S i))) by lia. lia. }
  destruct M as (M1 & M2 & M3 & M4 & M5 & M6 & M7).
  exists (S i mod n), ((i + n - 1) mod n). fold n. split; [assumption|]. split; [assumption|]. split; [assumption|].
  split; [assumption|]. split; [assumption|]. unfold n. rewrite !cyc_nth_mod by assumption. fold n.
  assert (Inj : forall x y, x < n -> y < n -> x <> y -> nth x c (NInt 0) <> nth y c (NInt 0)).
  { intros x y Hx Hy N Q. apply N. eapply (proj1 (NoDup_nth c (NInt 0)) ND); eassumption. }
  assert (Va : cyc_nth c (S i) = nth (S i mod n) c (NInt 0)) by reflexivity.
  assert (Vb : cyc_nth c (i + n - 1) = nth ((i + n - 1) mod n) c (NInt 0)) by reflexivity.
  apply (Peo p v q E).
  - intros K. now apply (Hp v).
  - rewrite <- Ci. apply Adj.
  - assert (A := Adj (i + n - 1)). replace (S (i + n - 1)) with (i + 1 * n) in A by lia.
    assert (X : cyc_nth c (i + 1 * n) = v) by (unfold cyc_nth; fold n; rewrite Nat.mod_add by lia; exact Ci).
    rewrite X in A. unfold uadj in *. tauto.
  - rewrite Va, Vb. now apply Inj.
  - rewrite <- Ei, Va. now apply Inj.
  - rewrite <- Ei, Vb. now apply Inj.
  - intros K. apply (Hp _ K). now apply cyc_nth_In.
  - intros K. apply (Hp _ K). now apply cyc_nth_In.
Qed.

Lemma map_snd_tag (es : list (name * name)) : map snd (map (fun e => (false, e)) es) = es.
Proof. rewrite map_map. simpl. apply map_id. Qed.

Lemma eliminate_chordal o vs es : good o -> (forall a b, uadj es a b -> In a vs) ->
  let F := map snd (eliminate o vs (map (fun e => (false, e)) es) (map (fun e => (false, e)) es)) in
  incl es F /\ chordal F /\ (forall a b, uadj F a b -> In a vs /\ In b vs).
Proof.
  intros Go Vin F.
  destruct (eliminate_ok vs o (map (fun e => (false, e)) es) (map (fun e => (false, e)) es) (fun _ => False) Go) as (A1 & _ & A3 & A4).
  - intros. now right.
  - intros. tauto.
  - assert (VF : forall a b, uadj F a b -> In a vs /\ In b vs).
    { intros a b H. apply A3 in H. unfold cadj in H. rewrite map_snd_tag in H. destruct H as [H|[(w & Hw) (w' & Hw')]].
      - split; eapply Vin; [exact H|]. unfold uadj in *. rewrite or_comm. exact H.
      - split; eapply Vin; eassumption. }
    split; [|split].
    + intros e He. unfold F. apply in_map_iff. exists (false, e). split; [reflexivity|]. apply A1. apply in_map_iff. eauto.
    + apply (peo_chordal F vs).
      * intros a b H. now apply VF in H.
      * intros p v q E Nv a b Ha Hb Nab Na Nb Pa Pb. apply (A4 p v q E); auto.
    + exact VF.
Qed.
Lemma In_evertices es a b : uadj es a b -> In a (evertices es).
Proof.
  intros H. unfold evertices. rewrite In_dedup. apply in_flat_map.
  destruct H as [H|H]; eexists; (split; [exact H|]); simpl; auto.
Qed.
