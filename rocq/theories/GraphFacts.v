(** GraphFacts.v -- moral graph, Markov blankets, structure distances, counting. *)
From Verif Require Import Py Num BayesNet Factor SpecFactor SpecGraph Graph GraphTheory GraphTopsort GraphNet.
Open Scope nat_scope.

Definition nchildren (bn : bayesnet) (v : name) : list name := match dget (bn_E bn) v with Some c => c | None => [] end.
Lemma In_nchildren bn u v : In v (nchildren bn u) <-> edge (bn_E bn) u v.
Proof. apply In_succs. Qed.
Lemma go_parents bn v : graph_ok bn -> In v (bn_V bn) ->
  bn_parents bn v = Ok (nparents bn v) /\ NoDup (nparents bn v) /\ incl (nparents bn v) (bn_V bn).
Proof.
  intros G Hv. destruct (go_F _ G v Hv) as (d & D & N & I). unfold bn_parents, nparents.
  rewrite (getitem_Some _ _ _ D), D. auto.
Qed.
Lemma go_children bn v : graph_ok bn -> In v (bn_V bn) ->
  bn_children bn v = Ok (nchildren bn v) /\ NoDup (nchildren bn v) /\ incl (nchildren bn v) (bn_V bn).
Proof.
  intros G Hv. destruct (go_E _ G v Hv) as (d & D & N & I). unfold bn_children, nchildren.
  rewrite (getitem_Some _ _ _ D), D. auto.
Qed.

(** ** moralized_edges *)
Lemma edge_eqb_spec a b : reflect (a = b) (edge_eqb a b).
Proof.
  destruct a as [a1 a2], b as [b1 b2]. unfold edge_eqb. simpl.
  destruct (name_eqb_spec a1 b1), (name_eqb_spec a2 b2); simpl; constructor; congruence.
Qed.
Lemma emem_In x l : emem x l = true <-> In x l.
Proof.
  unfold emem. rewrite existsb_exists. split.
  - intros (y & Hy & E). destruct (edge_eqb_spec x y); [now subst|discriminate].
  - intros H. exists x. split; [assumption|]. destruct (edge_eqb_spec x x); congruence.
Qed.
Lemma In_eadd x y l : In x (eadd y l) <-> x = y \/ In x l.
Proof.
  unfold eadd. destruct (emem y l) eqn:M.
  - apply emem_In in M. split; [now right|intros [->|H]; assumption].
  - rewrite in_app_iff. simpl. intuition congruence.
Qed.
Lemma NoDup_eadd y l : NoDup l -> NoDup (eadd y l).
Proof.
  intros H. unfold eadd. destruct (emem y l) eqn:M; [assumption|].
  apply NoDup_app_intro; [assumption|constructor; [intros []|constructor]|]. intros x Hx [<-|[]].
  apply emem_In in Hx. congruence.
Qed.

Definition coparents_of (bn : bayesnet) (a b : name) : Prop :=
  a <> b /\ exists c, In c (bn_V bn) /\ In a (nparents bn c) /\ In b (nparents bn c).

Lemma moral_inner p1 ps e : let e' := fold_left (fun e p2 => if negb (name_eqb p1 p2) && negb (emem (p2, p1) e) then eadd (p1, p2) e else e) ps e in
  (NoDup e -> NoDup e') /\ incl e e' /\ (forall x, In x e' -> In x e \/ (exists p2, x = (p1, p2) /\ In p2 ps /\ p1 <> p2)) /\
  (forall p2, In p2 ps -> p1 <> p2 -> uadj e' p1 p2).
Proof.
  revert e. induction ps as [|p2 ps IH]; intros e; cbn zeta; simpl.
  - split; [auto|]. split; [apply incl_refl|]. split; [auto|]. intros ? [].
  - match goal with |- context[fold_left _ ps ?e0] => set (e1 := e0) end. destruct (IH e1) as (N & I & S & C).
    assert (Ie : incl e e1).
    { unfold e1. destruct (_ && _); [|apply incl_refl]. intros x Hx. apply In_eadd. now right. }
    split.
    { intros ND. apply N. unfold e1. destruct (_ && _); [now apply NoDup_eadd|assumption]. }
    split; [intros x Hx; apply I, Ie, Hx|]. split.
    + intros x Hx. apply S in Hx as [Hx|(q & -> & Hq & Nq)]; [|right; exists q; auto].
      unfold e1 in Hx. destruct (name_eqb_spec p1 p2) as [->|Np]; simpl in Hx; [now left|].
      destruct (emem (p2, p1) e); simpl in Hx; [now left|]. apply In_eadd in Hx as [->|Hx]; [|now left].
      right. exists p2. auto.
    + intros q [<-|Hq] Nq; [|now apply C].
      assert (X : uadj e1 p1 p2).
      { unfold e1. apply name_eqb_neq in Nq. rewrite Nq. simpl. destruct (emem (p2, p1) e) eqn:M; simpl.
        - right. now apply emem_In.
        - left. apply In_eadd. now left. }
      destruct X as [X|X]; [left|right]; now apply I.
Qed.
Lemma moral_outer u ps0 ps e : let e' := fold_left (fun e p1 =>
          fold_left (fun e p2 => if negb (name_eqb p1 p2) && negb (emem (p2, p1) e) then eadd (p1, p2) e else e)
                    ps0 (eadd (p1, u) e)) ps e in
  (NoDup e -> NoDup e') /\ incl e e' /\
  (forall x, In x e' -> In x e \/ (exists p1, x = (p1, u) /\ In p1 ps) \/ (exists p1 p2, x = (p1, p2) /\ In p1 ps /\ In p2 ps0 /\ p1 <> p2)) /\
  (forall p1, In p1 ps -> In (p1, u) e') /\
  (forall p1 p2, In p1 ps -> In p2 ps0 -> p1 <> p2 -> uadj e' p1 p2).
Proof.
  revert e. induction ps as [|p1 ps IH]; intros e; cbn zeta; simpl.
  - split; [auto|]. split; [apply incl_refl|]. split; [auto|]. split; [intros ? []|intros ? ? []].
  - match goal with |- context[fold_left _ ps ?e0] => set (e1 := e0) end. destruct (moral_inner p1 ps0 (eadd (p1, u) e)) as (N1 & I1 & S1 & C1). fold e1 in N1, I1, S1, C1.
    destruct (IH e1) as (N & I & S & C & D).
    split; [intros ND; apply N, N1, NoDup_eadd, ND|].
    split; [intros x Hx; apply I, I1, In_eadd; now right|]. split; [|split].
    + intros x Hx. apply S in Hx as [Hx|[(q & -> & Hq)|(q1 & q2 & -> & H1 & H2 & H3)]].
      * apply S1 in Hx as [Hx|(q & -> & Hq & Nq)].
        -- apply In_eadd in Hx as [->|Hx]; [|now left]. right. left. exists p1. auto.
        -- right. right. exists p1, q. auto.
      * right. left. exists q. auto.
      * right. right. exists q1, q2. auto.
    + intros q [<-|Hq]; [|now apply C]. apply I, I1, In_eadd. now left.
    + intros q1 q2 [<-|H1] H2 H3; [|now apply D]. specialize (C1 q2 H2 H3). destruct C1 as [X|X]; [left|right]; now apply I.
Qed.

Lemma moralized_edges_ok bn : graph_ok bn -> exists es, moralized_edges bn = Ok es /\ NoDup es /\
  (forall a b, In (a, b) es -> (In b (bn_V bn) /\ In a (nparents bn b)) \/ coparents_of bn a b) /\
  (forall a b, In b (bn_V bn) -> In a (nparents bn b) -> In (a, b) es) /\
  (forall a b, coparents_of bn a b -> uadj es a b).
Proof.
  intros G. unfold moralized_edges. set (step := fun e u => _).
  assert (H : forall l e, incl l (bn_V bn) -> NoDup e -> exists es, foldM step l e = Ok es /\ NoDup es /\ incl e es /\
     (forall x, In x es -> In x e \/ (exists u p, x = (p, u) /\ In u l /\ In p (nparents bn u)) \/
        (exists u p1 p2, x = (p1, p2) /\ In u l /\ In p1 (nparents bn u) /\ In p2 (nparents bn u) /\ p1 <> p2)) /\
     (forall u p, In u l -> In p (nparents bn u) -> In (p, u) es) /\
     (forall u p1 p2, In u l -> In p1 (nparents bn u) -> In p2 (nparents bn u) -> p1 <> p2 -> uadj es p1 p2)).
  { induction l as [|u l IH]; intros e Il ND.
    - exists e. split; [reflexivity|]. split; [assumption|]. split; [apply incl_refl|]. split; [auto|]. split; [intros ? ? []|intros ? ? ? []].
    - simpl foldM. unfold step at 1. destruct (go_parents bn u G (Il u (or_introl eq_refl))) as (-> & _ & _). cbn [bind].
      destruct (moral_outer u (nparents bn u) (nparents bn u) e) as (N1 & I1 & S1 & C1 & D1).
      set (e1 := fold_left _ (nparents bn u) e) in *.
      destruct (IH e1) as (es & E & N & I & S & C & D); [intros x Hx; apply Il; now right|auto|].
      exists es. split; [exact E|]. split; [assumption|]. split; [intros x Hx; auto|]. split; [|split].
      + intros x Hx. apply S in Hx as [Hx|[(w & p & -> & H1 & H2)|(w & p1 & p2 & -> & H1 & H2 & H3 & H4)]].
        * apply S1 in Hx as [Hx|[(p & -> & Hp)|(p1 & p2 & -> & H1 & H2 & H3)]].
          -- now left.
          -- right. left. exists u, p. simpl. auto.
          -- right. right. exists u, p1, p2. simpl. auto.
        * right. left. exists w, p. simpl. auto.
        * right. right. exists w, p1, p2. simpl. repeat split; auto.
      + intros w p [<-|Hw] Hp; [apply I; auto|now apply C].
      + intros w p1 p2 [<-|Hw] H1 H2 H3; [|now apply (D w)]. destruct (D1 p1 p2 H1 H2 H3) as [X|X]; [left|right]; auto. }
  destruct (H (bn_V bn) [] (incl_refl _) (NoDup_nil _)) as (es & E & N & _ & S & C & D).
  exists es. split; [exact E|]. split; [assumption|]. split; [|split].
  - intros a b Hab. apply S in Hab as [[]|[(u & p & Q & H1 & H2)|(u & p1 & p2 & Q & H1 & H2 & H3 & H4)]]; inversion Q; subst.
    + now left.
    + right. split; [assumption|]. exists u. auto.
  - auto.
  - intros a b (Nab & c & Hc & Ha & Hb). now apply (D c).
Qed.

(** ** markov_blanket *)
Definition spouses (bn : bayesnet) (x : name) : list name :=
  flat_map (fun c => filter (fun p => negb (name_eqb p x)) (nparents bn c)) (nchildren bn x).

Lemma mb_append rv ps : forall mb l, dget mb rv = Some l ->
  exists mb', foldM (fun mb cp => if name_eqb cp rv then Ok mb else do l <- getitem mb rv ;; Ok (dset mb rv (l ++ [cp]))) ps mb = Ok mb' /\
    dget mb' rv = Some (l ++ filter (fun p => negb (name_eqb p rv)) ps) /\ forall k, k <> rv -> dget mb' k = dget mb k.
Proof.
  induction ps as [|p ps IH]; intros mb l D.
  - exists mb. split; [reflexivity|]. split; [now rewrite app_nil_r|reflexivity].
  - simpl. destruct (name_eqb_spec p rv) as [->|N]; simpl.
    + now apply IH.
    + rewrite (getitem_Some _ _ _ D). cbn [bind].
      destruct (IH (dset mb rv (l ++ [p])) (l ++ [p])) as (mb' & E & D' & O).
      * rewrite dget_dset, name_eqb_refl. reflexivity.
      * exists mb'. split; [exact E|]. split; [now rewrite D', <- app_assoc|].
        intros k Nk. rewrite O, dget_dset by assumption. apply name_eqb_neq in Nk. now rewrite Nk.
Qed.
Lemma mb_children bn rv cs : graph_ok bn -> incl cs (bn_V bn) -> forall mb l, dget mb rv = Some l ->
  exists mb', foldM (fun mb child => do ps <- bn_parents bn child ;;
      foldM (fun mb cp => if name_eqb cp rv then Ok mb else do l <- getitem mb rv ;; Ok (dset mb rv (l ++ [cp]))) ps mb) cs mb = Ok mb' /\
    dget mb' rv = Some (l ++ flat_map (fun c => filter (fun p => negb (name_eqb p rv)) (nparents bn c)) cs) /\
    forall k, k <> rv -> dget mb' k = dget mb k.
Proof.
  intros G. induction cs as [|c cs IH]; intros Ic mb l D.
  - exists mb. split; [reflexivity|]. split; [now rewrite app_nil_r|reflexivity].
  - simpl foldM. destruct (go_parents bn c G (Ic c (or_introl eq_refl))) as (-> & _ & _). cbn [bind].
    destruct (mb_append rv (nparents bn c) mb l D) as (m1 & E1 & D1 & O1). rewrite E1. cbn [bind].
    destruct (IH (fun x H => Ic x (or_intror H)) m1 _ D1) as (m2 & E2 & D2 & O2).
    exists m2. split; [exact E2|]. split; [now rewrite D2, <- app_assoc|]. intros k Nk. now rewrite O2, O1.
Qed.
Lemma markov_blanket_ok bn : graph_ok bn -> exists mb, markov_blanket bn = Ok mb /\
  forall x, In x (bn_V bn) -> dget mb x = Some (nparents bn x ++ nchildren bn x ++ spouses bn x).
Proof.
  intros G. unfold markov_blanket.
  rewrite (mapM_ok _ (fun rv => (rv, nparents bn rv ++ nchildren bn rv))).
  2:{ intros x Hx. destruct (go_parents bn x G Hx) as (-> & _ & _). destruct (go_children bn x G Hx) as (-> & _ & _). reflexivity. }
  cbn [bind]. set (step := fun mb rv => _).
  set (base := fun rv => nparents bn rv ++ nchildren bn rv).
  assert (H : forall l mb, incl l (bn_V bn) -> NoDup l -> (forall x, In x l -> dget mb x = Some (base x)) ->
     exists mb', foldM step l mb = Ok mb' /\ (forall x, In x l -> dget mb' x = Some (base x ++ spouses bn x)) /\
       forall x, ~ In x l -> dget mb' x = dget mb x).
  { induction l as [|rv l IH]; intros mb Il ND D.
    - exists mb. split; [reflexivity|]. split; [intros ? []|reflexivity].
    - simpl foldM. unfold step at 1. destruct (go_children bn rv G (Il rv (or_introl eq_refl))) as (-> & _ & Ic). cbn [bind].
      inversion ND; subst.
      destruct (mb_children bn rv (nchildren bn rv) G Ic mb _ (D rv (or_introl eq_refl))) as (m1 & -> & D1 & O1). cbn [bind].
      destruct (IH m1) as (m2 & E2 & D2 & O2).
      + intros x Hx. apply Il. now right.
      + assumption.
      + intros x Hx. rewrite O1 by (intros ->; contradiction). apply D. now right.
      + exists m2. split; [exact E2|]. split.
        * intros x [<-|Hx]; [|now apply D2]. rewrite O2 by assumption. exact D1.
        * intros x Nx. rewrite O2 by (intros K; apply Nx; now right). apply O1. intros ->. apply Nx. now left. }
  destruct (H (bn_V bn) (dict_of (map (fun rv => (rv, base rv)) (bn_V bn))) (incl_refl _) (go_V _ G)) as (mb & E & D & _).
  { intros x Hx. now apply dget_dict_of_scope. }
  exists mb. split; [exact E|]. intros x Hx. rewrite (D x Hx). unfold base. now rewrite <- app_assoc.
Qed.
Lemma In_spouses bn x y : In y (spouses bn x) <-> y <> x /\ exists c, edge (bn_E bn) x c /\ In y (nparents bn c).
Proof.
  unfold spouses. rewrite in_flat_map. split.
  - intros (c & Hc & H). apply filter_In in H as [H1 H2]. apply negb_true_iff, name_eqb_neq in H2. split; [assumption|].
    exists c. split; [now apply In_nchildren|assumption].
  - intros (N & c & Hc & H). exists c. split; [now apply In_nchildren|]. apply filter_In. split; [assumption|].
    now apply negb_true_iff, name_eqb_neq.
Qed.

(** ** Edge lists, degrees *)
Definition edge_list (bn : bayesnet) : list (name * name) :=
  flat_map (fun u => map (fun v => (u, v)) (nchildren bn u)) (bn_V bn).
Lemma In_edge_list bn u v : In (u, v) (edge_list bn) <-> In u (bn_V bn) /\ edge (bn_E bn) u v.
Proof.
  unfold edge_list. rewrite in_flat_map. split.
  - intros (w & Hw & H). apply in_map_iff in H as (z & Q & Hz). inversion Q; subst. split; [assumption|now apply In_nchildren].
  - intros [H1 H2]. exists u. split; [assumption|]. apply in_map_iff. exists v. split; [reflexivity|now apply In_nchildren].
Qed.
Lemma NoDup_edge_list bn : graph_ok bn -> NoDup (edge_list bn).
Proof.
  intros G. unfold edge_list. assert (H : forall l, incl l (bn_V bn) -> NoDup l -> NoDup (flat_map (fun u => map (fun v => (u, v)) (nchildren bn u)) l)).
  { induction l as [|u l IH]; intros I ND; [constructor|]. inversion ND; subst. simpl. apply NoDup_app_intro.
    - destruct (go_children bn u G (I u (or_introl eq_refl))) as (_ & N & _). clear -N.
      induction N as [|x c Hx N IH]; simpl; [constructor|]. constructor; [|assumption].
      intros K. apply in_map_iff in K as (y & Q & Hy). inversion Q; subst. contradiction.
    - apply IH; [intros x Hx; apply I; now right|assumption].
    - intros [a b] K1 K2. apply in_map_iff in K1 as (y & Q & Hy). inversion Q; subst.
      apply in_flat_map in K2 as (w & Hw & K2). apply in_map_iff in K2 as (z & Q' & _). inversion Q'; subst. contradiction. }
  apply H; [apply incl_refl|apply (go_V _ G)].
Qed.
Lemma flat_map_concat' {A B} (f : A -> list B) l : concat (map f l) = flat_map f l.
Proof. induction l; simpl; congruence. Qed.
Lemma bn_edges_ok bn : graph_ok bn -> bn_edges bn = Ok (edge_list bn).
Proof.
  intros G. unfold bn_edges. rewrite (mapM_ok _ (fun u => map (fun v => (u, v)) (nchildren bn u))).
  - simpl. f_equal. apply flat_map_concat'.
  - intros u Hu. destruct (go_children bn u G Hu) as (X & _). unfold bn_children in X. now rewrite X.
Qed.
Lemma foldM_count {A} (f : nat -> A -> res nat) (g : A -> nat) l :
  (forall n x, In x l -> f n x = Ok (n + g x)) -> forall n, foldM f l n = Ok (n + nsum (map g l)).
Proof.
  induction l as [|x l IH]; intros H n; simpl; [f_equal; lia|]. rewrite H by (now left). cbn [bind].
  rewrite IH by (intros; apply H; now right). f_equal. simpl. lia.
Qed.
Lemma length_flat_map {A B} (f : A -> list B) l : length (flat_map f l) = nsum (map (fun x => length (f x)) l).
Proof. induction l; simpl; [reflexivity|]. rewrite app_length. lia. Qed.
Lemma bn_num_edges_ok bn : graph_ok bn -> bn_num_edges bn = Ok (length (edge_list bn)).
Proof.
  intros G. unfold bn_num_edges. rewrite (foldM_count _ (fun u => length (nchildren bn u))).
  - f_equal. unfold edge_list. rewrite length_flat_map. simpl. f_equal. apply map_ext. intros. now rewrite map_length.
  - intros n u Hu. destruct (go_children bn u G Hu) as (X & _). unfold bn_children in X. rewrite X. reflexivity.
Qed.
Lemma bn_degree_ok bn v : graph_ok bn -> In v (bn_V bn) -> bn_degree bn v = Ok (length (nparents bn v) + length (nchildren bn v)).
Proof.
  intros G Hv. unfold bn_degree. destruct (go_parents bn v G Hv) as (-> & _). destruct (go_children bn v G Hv) as (-> & _). reflexivity.
Qed.
Lemma nsum_plus {A} (f g : A -> nat) l : nsum (map (fun x => f x + g x) l) = nsum (map f l) + nsum (map g l).
Proof. induction l; simpl; lia. Qed.
Lemma nsum_swap {A B} (f : A -> B -> nat) l m :
  nsum (map (fun x => nsum (map (f x) m)) l) = nsum (map (fun y => nsum (map (fun x => f x y) l)) m).
Proof.
  induction l as [|x l IH]; simpl; [|rewrite IH, <- nsum_plus; reflexivity]. induction m; simpl; auto.
Qed.
Lemma length_filter_nsum {A} (f : A -> bool) l : length (filter f l) = nsum (map (fun x => if f x then 1 else 0) l).
Proof. induction l as [|x l IH]; simpl; [reflexivity|]. destruct (f x); simpl; lia. Qed.
Lemma length_sub_filter l K : NoDup l -> NoDup K -> incl l K -> length l = length (filter (fun x => mem x l) K).
Proof.
  intros N1 N2 I. apply Permutation_length. apply NoDup_Permutation; [assumption|now apply NoDup_filter|].
  intros x. rewrite filter_In, mem_In. split; [auto|tauto].
Qed.
(** handshake lemma *)
Lemma degree_sum bn : graph_ok bn -> agree bn ->
  nsum (map (fun v => length (nparents bn v) + length (nchildren bn v)) (bn_V bn)) = 2 * length (edge_list bn).
Proof.
  intros G A. rewrite nsum_plus. unfold edge_list. rewrite length_flat_map.
  rewrite (map_ext (fun x => length (map (fun v => (x, v)) (nchildren bn x))) (fun x => length (nchildren bn x))) by (intros; apply map_length).
  assert (X : nsum (map (fun v => length (nparents bn v)) (bn_V bn)) = nsum (map (fun u => length (nchildren bn u)) (bn_V bn))); [|lia].
  assert (E1 : map (fun v => length (nparents bn v)) (bn_V bn) =
               map (fun v => nsum (map (fun u => if mem u (nparents bn v) then 1 else 0) (bn_V bn))) (bn_V bn)).
  { apply map_ext_in. intros v Hv. destruct (go_parents bn v G Hv) as (_ & N & I).
    rewrite (length_sub_filter _ (bn_V bn) N (go_V _ G) I). apply length_filter_nsum. }
  assert (E2 : map (fun v => length (nchildren bn v)) (bn_V bn) =
               map (fun v => nsum (map (fun u => if mem u (nchildren bn v) then 1 else 0) (bn_V bn))) (bn_V bn)).
  { apply map_ext_in. intros v Hv. destruct (go_children bn v G Hv) as (_ & N & I).
    rewrite (length_sub_filter _ (bn_V bn) N (go_V _ G) I). apply length_filter_nsum. }
  rewrite E1, E2, nsum_swap. f_equal. apply map_ext_in. intros u Hu. f_equal. apply map_ext_in. intros v Hv.
  destruct (mem_spec u (nparents bn v)) as [P|P], (mem_spec v (nchildren bn u)) as [Q|Q]; try reflexivity; exfalso.
  - apply Q, In_nchildren. now apply A.
  - apply P. apply A; auto. now apply In_nchildren.
Qed.

Lemma adj_list_ok bn : graph_ok bn -> exists adj, adj_list bn = Ok adj /\ length adj = length (bn_V bn) /\
  forall i u, nth_error (bn_V bn) i = Some u -> exists row, nth_error adj i = Some row /\
    map (fun j => nth_error (bn_V bn) j) row = map Some (nchildren bn u).
Proof.
  intros G. unfold adj_list. rewrite (bn_edges_ok bn G). cbn [bind]. set (step := fun adj uv => _).
  set (V := bn_V bn). pose proof (go_V _ G) as ND. fold V in ND.
  set (pos := fun v => match index_of v V with Some j => j | None => 0 end).
  assert (Pos : forall v, In v V -> index_of v V = Some (pos v) /\ nth_error V (pos v) = Some v).
  { intros v Hv. unfold pos. destruct (index_of_In v V Hv) as [j J]. rewrite J. split; [reflexivity|now apply index_of_Some]. }
  assert (H1 : forall cs u adj row, In u V -> incl cs V -> length adj = length V -> nth_error adj (pos u) = Some row ->
     foldM step (map (fun v => (u, v)) cs) adj = Ok (upd_nth (pos u) (row ++ map pos cs) adj)).
  { induction cs as [|c cs IH]; intros u adj row Hu Ic L R.
    - simpl. f_equal. rewrite app_nil_r. clear -R. revert R. generalize (pos u) as i. intros i. revert i.
      induction adj as [|r adj IH]; intros [|i] R; simpl in *; try discriminate; [inversion R; subst; reflexivity|f_equal; auto].
    - simpl foldM. unfold step at 1. cbn [fst snd]. fold V. rewrite (proj1 (Pos u Hu)). cbn [bind].
      rewrite (proj1 (Pos c (Ic c (or_introl eq_refl)))). cbn [bind]. unfold nget. rewrite R. cbn [bind].
      rewrite (IH u _ (row ++ [pos c])).
      + f_equal. simpl. rewrite <- app_assoc. simpl. generalize (row ++ pos c :: map pos cs) as z. generalize (row ++ [pos c]) as y. intros y z.
        clear. revert adj. generalize (pos u) as i. induction i as [|i IHi]; intros [|r adj]; simpl; auto. f_equal. auto.
      + assumption.
      + intros x Hx. apply Ic. now right.
      + now rewrite upd_nth_length.
      + rewrite nth_error_upd_nth, Nat.eqb_refl.
        assert (pos u < length adj) by (apply nth_error_Some; congruence).
        destruct (Nat.ltb_spec (pos u) (length adj)); [reflexivity|lia]. }
  assert (H2 : forall l adj, incl l V -> NoDup l -> length adj = length V -> (forall u, In u l -> nth_error adj (pos u) = Some []) ->
     exists adj', foldM step (flat_map (fun u => map (fun v => (u, v)) (nchildren bn u)) l) adj = Ok adj' /\ length adj' = length V /\
       (forall u, In u l -> nth_error adj' (pos u) = Some (map pos (nchildren bn u))) /\
       (forall u, In u V -> ~ In u l -> nth_error adj' (pos u) = nth_error adj (pos u))).
  { induction l as [|u l IH]; intros adj Il NDl L Z.
    - exists adj. split; [reflexivity|]. split; [assumption|]. split; [intros ? []|reflexivity].
    - simpl flat_map. rewrite foldM_app. destruct (go_children bn u G (Il u (or_introl eq_refl))) as (_ & _ & Ic).
      rewrite (H1 (nchildren bn u) u adj [] (Il u (or_introl eq_refl)) Ic L (Z u (or_introl eq_refl))). cbn [bind app].
      inversion NDl; subst.
      assert (Inj : forall w, In w V -> w <> u -> pos w <> pos u).
      { intros w Hw N E. destruct (Pos w Hw) as [_ A]. destruct (Pos u (Il u (or_introl eq_refl))) as [_ B]. rewrite E in A. congruence. }
      destruct (IH (upd_nth (pos u) (map pos (nchildren bn u)) adj)) as (adj' & E & L' & R & O).
      + intros x Hx. apply Il. now right.
      + assumption.
      + now rewrite upd_nth_length.
      + intros w Hw. rewrite nth_error_upd_nth. assert (Nw : w <> u) by (intros ->; contradiction).
        specialize (Inj w (Il w (or_intror Hw)) Nw). destruct (Nat.eqb_spec (pos u) (pos w)); [congruence|]. apply Z. now right.
      + exists adj'. split; [exact E|]. split; [assumption|]. split.
        * intros w [<-|Hw]; [|now apply R]. rewrite O; [|apply Il; now left|assumption].
          rewrite nth_error_upd_nth, Nat.eqb_refl.
          assert (pos u < length adj) by (apply nth_error_Some; rewrite (Z u (or_introl eq_refl)); discriminate).
          destruct (Nat.ltb_spec (pos u) (length adj)); [reflexivity|lia].
        * intros w Hw Nw. rewrite O; [|assumption|intros K; apply Nw; now right]. rewrite nth_error_upd_nth.
          assert (Nu : w <> u) by (intros ->; apply Nw; now left). specialize (Inj w Hw Nu).
          destruct (Nat.eqb_spec (pos u) (pos w)); [congruence|reflexivity]. }
  destruct (H2 V (map (fun _ => []) V) (incl_refl _) ND) as (adj & E & L & R & _).
  - now rewrite map_length.
  - intros u Hu. destruct (Pos u Hu) as [_ P]. rewrite nth_error_map, P. reflexivity.
  - exists adj. split; [exact E|]. split; [assumption|]. intros i u Hi.
    assert (Hu : In u V) by (eapply nth_error_In; eassumption).
    assert (pos u = i). { unfold pos. fold V in Hi. now rewrite (index_of_nth V i u ND Hi). } subst i.
    exists (map pos (nchildren bn u)). split; [now apply R|]. rewrite map_map. apply map_ext_in. intros c Hc.
    destruct (go_children bn u G Hu) as (_ & _ & Ic). apply Pos. now apply Ic.
Qed.

(** ** Structure distances *)
Definition edges_not_in (x y : bayesnet) : list (name * name) := filter (fun e => negb (emem e (edge_list y))) (edge_list x).

Lemma missing_edges_ok x y : graph_ok x -> graph_ok y -> (forall v, In v (bn_V x) -> In v (bn_V y)) ->
  missing_edges x y = Ok (length (edges_not_in x y)).
Proof.
  intros Gx Gy I. unfold missing_edges.
  rewrite (foldM_count _ (fun u => length (filter (fun c => negb (mem c (nchildren y u))) (nchildren x u)))).
  - f_equal. simpl. unfold edges_not_in, edge_list at 2.
    assert (H : forall l, incl l (bn_V x) -> nsum (map (fun u => length (filter (fun c => negb (mem c (nchildren y u))) (nchildren x u))) l) =
       length (filter (fun e => negb (emem e (edge_list y))) (flat_map (fun u => map (fun v => (u, v)) (nchildren x u)) l))).
    { induction l as [|u l IH]; intros Il; [reflexivity|]. simpl. rewrite filter_app, app_length. f_equal; [|apply IH; intros z Hz; apply Il; now right].
      assert (Hu : In u (bn_V y)) by (apply I, Il; now left). clear -Hu.
      induction (nchildren x u) as [|c cs IH]; [reflexivity|]. simpl.
      assert (Q : emem (u, c) (edge_list y) = mem c (nchildren y u)).
      { destruct (mem_spec c (nchildren y u)) as [M|M].
        - apply emem_In, In_edge_list. split; [assumption|now apply In_nchildren].
        - destruct (emem _ _) eqn:K; [|reflexivity]. exfalso. apply M. apply emem_In, In_edge_list in K as [_ K]. now apply In_nchildren. }
      rewrite Q. destruct (mem c (nchildren y u)); simpl; lia. }
    apply H. apply incl_refl.
  - intros n u Hu. unfold bn_has_node. assert (M : mem u (bn_V y) = true) by (apply mem_In; auto). rewrite M. simpl negb. cbn match.
    destruct (go_children x u Gx Hu) as (-> & _). cbn [bind]. destruct (go_children y u Gy (I u Hu)) as (E & _).
    clear M. generalize (nchildren x u) as cs. intros cs. revert n. induction cs as [|c cs IH]; intros n; [simpl; f_equal; lia|].
    simpl foldM. rewrite E. cbn [bind]. rewrite E in IH. rewrite IH. f_equal. simpl. destruct (mem c (nchildren y u)); simpl; lia.
Qed.
Lemma missing_extra x y : missing_edges x y = extra_edges y x.
Proof. reflexivity. Qed.
Lemma incorrect_zero x y : graph_ok x -> graph_ok y -> (forall v, In v (bn_V x) -> In v (bn_V y)) ->
  (forall v, In v (bn_V y) -> ~ In v (nparents y v)) -> incorrect_direction_edges x y = Ok 0.
Proof.
  intros Gx Gy I N. unfold incorrect_direction_edges.
  rewrite (foldM_count _ (fun _ => 0)).
  - f_equal. clear. induction (bn_V x); simpl; auto.
  - intros n u Hu. unfold bn_has_node. assert (M : mem u (bn_V x) = true) by now apply mem_In. rewrite M.
    destruct (go_children x u Gx Hu) as (-> & _). cbn [bind]. destruct (go_parents y u Gy (I u Hu)) as (E & _).
    assert (Nm : mem u (nparents y u) = false) by (apply mem_false; auto).
    rewrite Nat.add_0_r. generalize (nchildren x u) as cs. intros cs. induction cs as [|c cs IH]; [reflexivity|].
    simpl foldM. rewrite E. cbn [bind]. rewrite Nm. rewrite E in IH. cbn [bind] in IH. rewrite Nm in IH. exact IH.
Qed.
Lemma In_edges_not_in x y e : In e (edges_not_in x y) <-> In e (edge_list x) /\ ~ In e (edge_list y).
Proof.
  unfold edges_not_in. rewrite filter_In, negb_true_iff. split; intros [H1 H2]; split; auto.
  - intros K. apply emem_In in K. congruence.
  - destruct (emem e (edge_list y)) eqn:K; [|reflexivity]. apply emem_In in K. contradiction.
Qed.
Lemma not_in_triangle x y z : graph_ok x -> length (edges_not_in x z) <= length (edges_not_in x y) + length (edges_not_in y z).
Proof.
  intros G. rewrite <- app_length. apply NoDup_incl_length.
  - apply NoDup_filter. now apply NoDup_edge_list.
  - intros e He. apply In_edges_not_in in He as [H1 H2]. apply in_or_app.
    destruct (emem e (edge_list y)) eqn:K.
    + right. apply In_edges_not_in. split; [now apply emem_In|assumption].
    + left. apply In_edges_not_in. split; [assumption|]. intros Q. apply emem_In in Q. congruence.
Qed.
Lemma same_nodes_hamming x y : graph_ok x -> graph_ok y -> (forall v, In v (bn_V x) <-> In v (bn_V y)) ->
  (forall v, In v (bn_V y) -> ~ In v (nparents y v)) ->
  hamming x y = Ok (length (edges_not_in x y) + length (edges_not_in y x)).
Proof.
  intros Gx Gy I N. unfold hamming. rewrite <- missing_extra.
  rewrite (missing_edges_ok x y Gx Gy) by (intros v; apply I). rewrite (missing_edges_ok y x Gy Gx) by (intros v; apply I).
  rewrite (incorrect_zero x y Gx Gy) by (try assumption; intros v; apply I). simpl. f_equal. lia.
Qed.
