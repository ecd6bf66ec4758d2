(** Mst.v -- Prim's algorithm as written in graph.py. *)
From Verif Require Import Py Num BayesNet SpecFactor SpecGraph SpecMst Graph GraphTheory GraphTopsort GraphNet.
From Coq Require Import Sorting.Sorted.
Open Scope nat_scope.

(** ** Sorting and scanning *)
Definition wle (a b : name * Qc) : Prop := (snd a <= snd b)%Qc.
Lemma winsert_perm x l : Permutation (winsert x l) (x :: l).
Proof.
  induction l as [|y l IH]; simpl; [reflexivity|]. destruct (qleb (snd x) (snd y)); [reflexivity|].
  rewrite IH. apply perm_swap.
Qed.
Lemma wsort_perm l : Permutation (wsort l) l.
Proof. induction l as [|x l IH]; simpl; [reflexivity|]. rewrite winsert_perm. now constructor. Qed.
Lemma winsert_sorted x l : StronglySorted wle l -> StronglySorted wle (winsert x l).
Proof.
  induction 1 as [|y l S IH F]; simpl; [constructor; [constructor|constructor]|].
  destruct (qleb_spec (snd x) (snd y)) as [L|L].
  - constructor; [now constructor|]. constructor; [exact L|]. eapply Forall_impl; [|exact F]. intros z Hz. unfold wle in *. eapply Qcle_trans; eassumption.
  - constructor; [assumption|]. rewrite Forall_forall in *. intros z Hz. apply (Permutation_in _ (winsert_perm x l)) in Hz as [<-|Hz]; [|auto].
    unfold wle. apply Qcnot_le_lt in L. now apply Qclt_le_weak.
Qed.
Lemma wsort_sorted l : StronglySorted wle (wsort l).
Proof. induction l; simpl; [constructor|now apply winsert_sorted]. Qed.

Definition best_le (b : option (Qc * name * name)) (w : Qc) : Prop :=
  match b with Some (c, _, _) => (c <= w)%Qc | None => False end.
Lemma scan_ok U rn e : StronglySorted wle e -> forall best,
  let r := mst_scan U rn e best in
  (r = best \/ exists sn w, In (sn, w) e /\ In sn U /\ r = Some (w, rn, sn)) /\
  (forall sn w, In (sn, w) e -> In sn U -> best_le r w) /\
  (forall w, best_le best w -> best_le r w).
Proof.
  induction 1 as [|[sn w] e S IH F]; intros best; cbn zeta; simpl.
  - split; [now left|]. split; [intros ? ? []|auto].
  - destruct (mem_spec sn U) as [M|M]; simpl.
    + destruct (better w best) eqn:B.
      * split; [right; exists sn, w; auto|]. split.
        -- intros sn' w' [Q|Q] HU; simpl; [inversion Q; subst; apply Qcle_refl|].
           rewrite Forall_forall in F. now apply (F (sn', w')) in Q.
        -- intros w' L. destruct best as [[[c s] t]|]; [|contradiction]. simpl in *.
           destruct (qltb_spec w c) as [Q|]; [|discriminate]. apply Qclt_le_weak in Q. eapply Qcle_trans; eassumption.
      * destruct (IH best) as (A & B' & C). split.
        { destruct A as [A|(s' & w' & A1 & A2 & A3)]; [now left|right; exists s', w'; auto]. }
        split; [|exact C]. intros sn' w' [Q|Q] HU; [|now apply (B' sn')]. inversion Q; subst.
        apply C. destruct best as [[[c s] t]|]; simpl in *; [|discriminate].
        destruct (qltb_spec w' c) as [Z|Z]; [discriminate|]. now apply Qcnot_lt_le.
    + destruct (IH best) as (A & B' & C). split.
      { destruct A as [A|(s' & w' & A1 & A2 & A3)]; [now left|right; exists s', w'; auto]. }
      split; [|exact C]. intros sn' w' [Q|Q] HU; [|now apply (B' sn')]. inversion Q; subst. contradiction.
Qed.

Lemma In_dget_dict {A} (d : dict A) k v : NoDup (dkeys d) -> (In (k, v) d <-> dget d k = Some v).
Proof.
  induction d as [|[k' v'] d IH]; simpl; intros ND; [split; [intros []|discriminate]|]. inversion ND; subst.
  destruct (name_eqb_spec k k') as [->|N].
  - split; [|intros E; inversion E; now left]. intros [E|E]; [inversion E; reflexivity|]. exfalso. apply H1.
    apply in_map_iff. exists (k', v). auto.
  - rewrite <- IH by assumption. split; [intros [E|E]; [congruence|assumption]|now right].
Qed.

Section Prim.
  Variable W : dict (dict Qc).
  Hypothesis Wok : forall u e, dget W u = Some e -> NoDup (dkeys e).

  Definition crossing (R U : list name) (s t : name) (w : Qc) : Prop := In s R /\ In t U /\ weight W s t = Some w.

  Lemma search_ok U : forall R best, incl R (dkeys W) ->
    exists r, foldM (fun best rn => do e <- getitem W rn ;; Ok (mst_scan U rn (wsort e) best)) R best = Ok r /\
      (r = best \/ exists s t w, crossing R U s t w /\ r = Some (w, s, t)) /\
      (forall s t w, crossing R U s t w -> best_le r w) /\ (forall w, best_le best w -> best_le r w).
  Proof.
    induction R as [|rn R IH]; intros best I.
    - exists best. split; [reflexivity|]. split; [now left|]. split; [intros s t w ([] & _)|auto].
    - simpl foldM. destruct (In_dget W rn (I rn (or_introl eq_refl))) as [e De]. rewrite (getitem_Some _ _ _ De). cbn [bind].
      destruct (scan_ok U rn (wsort e) (wsort_sorted e) best) as (A1 & B1 & C1).
      assert (Ie : forall sn w, In (sn, w) (wsort e) <-> weight W rn sn = Some w).
      { intros sn w. unfold weight. rewrite De, <- In_dget_dict by now apply (Wok rn).
        split; apply Permutation_in; [|symmetry]; apply wsort_perm. }
      destruct (IH (mst_scan U rn (wsort e) best)) as (r & E & A & B & C); [intros x Hx; apply I; now right|].
      exists r. split; [exact E|]. split; [|split].
      + destruct A as [A|(s & t & w & (H1 & H2 & H3) & A)].
        * rewrite A. destruct A1 as [A1|(sn & w & K1 & K2 & K3)]; [now left|]. right. exists rn, sn, w.
          split; [|assumption]. split; [now left|]. split; [assumption|now apply Ie].
        * right. exists s, t, w. split; [|assumption]. split; [now right|auto].
      + intros s t w ([<-|H1] & H2 & H3).
        * apply C. apply (B1 t); [now apply Ie|assumption].
        * apply (B s t w). split; auto.
      + auto.
  Qed.

  (** the edges added, in order *)
  Inductive prim : list name -> list name -> list (name * name) -> Prop :=
  | prim_stop R U : (forall s t w, ~ crossing R U s t w) -> prim R U []
  | prim_step R U s t w L : crossing R U s t w ->
      (forall s' t' w', crossing R U s' t' w' -> (w <= w')%Qc) ->
      prim (R ++ [t]) (remove1 t U) L -> prim R U ((s, t) :: L).

  Definition add_one (G : edict) (e : name * name) : edict := dset G (fst e) (succs G (fst e) ++ [snd e]).

  Lemma mst_loop_prim : forall k R U G, incl R (dkeys W) -> incl U (dkeys W) -> length U <= k -> incl (dkeys W) (dkeys G) ->
    exists L, mst_loop k W R U G = Ok (fold_left add_one L G) /\ prim R U L.
  Proof.
    induction k as [|k IH]; intros R U G IR IU Lk IG.
    - destruct U; [|simpl in Lk; lia]. exists []. split; [reflexivity|]. constructor. intros s t w (_ & [] & _).
    - simpl mst_loop. destruct (search_ok U R None IR) as (r & -> & A & B & _). cbn [bind].
      destruct r as [[[c s] t]|].
      + destruct A as [A|(s' & t' & w' & Cr & A)]; [discriminate|]. inversion A; subst s' t' w'; clear A.
        destruct Cr as (H1 & H2 & H3). destruct (In_dget G s (IG s (IR s H1))) as [cs Dc].
        rewrite (getitem_Some _ _ _ Dc). cbn [bind].
        assert (Lr := length_remove1 t U H2).
        destruct (IH (R ++ [t]) (remove1 t U) (dset G s (cs ++ [t]))) as (L & E & P).
        * intros x Hx. apply in_app_or in Hx as [Hx|[<-|[]]]; auto.
        * intros x Hx. apply remove1_incl in Hx. auto.
        * lia.
        * intros x Hx. apply In_dkeys_dset. right. auto.
        * exists ((s, t) :: L). split.
          -- simpl. unfold add_one at 2. cbn [fst snd]. unfold succs. rewrite Dc. exact E.
          -- econstructor; [split; [|split]; eassumption| |exact P].
             intros s' t' w' Cr. exact (B _ _ _ Cr).
      + exists []. split; [reflexivity|]. constructor. intros s t w Cr. exact (B _ _ _ Cr).
  Qed.
End Prim.

(** ** The edges of the result *)
Lemma edge_add_one G e x y : edge (add_one G e) x y <-> edge G x y \/ (x, y) = e.
Proof.
  destruct e as [u v]. rewrite <- !In_succs. unfold add_one. cbn [fst snd]. unfold succs at 1. rewrite dget_dset.
  destruct (name_eqb_spec x u) as [->|N].
  - rewrite in_app_iff. simpl. intuition congruence.
  - fold (succs G x). intuition congruence.
Qed.
Lemma edge_add_all L : forall G x y, edge (fold_left add_one L G) x y <-> edge G x y \/ In (x, y) L.
Proof.
  induction L as [|e L IH]; intros G x y; simpl; [tauto|]. rewrite IH, edge_add_one. intuition congruence.
Qed.
Lemma dkeys_add_all L : forall G, incl (map fst L) (dkeys G) -> dkeys (fold_left add_one L G) = dkeys G.
Proof.
  induction L as [|e L IH]; intros G I; simpl; [reflexivity|].
  assert (E : dkeys (add_one G e) = dkeys G) by (unfold add_one; apply dkeys_dset_in, I; now left).
  rewrite IH; rewrite E; [reflexivity|]. intros x Hx. apply I. now right.
Qed.
Lemma all_edges_dset G u v : In u (dkeys G) -> Permutation (all_edges (add_one G (u, v))) ((u, v) :: all_edges G).
Proof.
  unfold add_one, succs. cbn [fst snd]. induction G as [|[k c] G IH]; intros I; [destruct I|]. simpl.
  destruct (name_eqb_spec u k) as [->|N].
  - unfold all_edges. simpl. rewrite map_app. simpl. rewrite <- !app_assoc. simpl.
    symmetry. apply Permutation_middle.
  - destruct I as [I|I]; [simpl in I; congruence|]. specialize (IH I). unfold all_edges in *. simpl.
    destruct (dget G u) as [c'|]; rewrite IH; symmetry; apply Permutation_middle.
Qed.
Lemma all_edges_add_all L : forall G, incl (map fst L) (dkeys G) -> Permutation (all_edges (fold_left add_one L G)) (L ++ all_edges G).
Proof.
  induction L as [|[u v] L IH]; intros G I; simpl; [reflexivity|].
  assert (Hu : In u (dkeys G)) by (apply I; now left).
  rewrite IH.
  - rewrite (all_edges_dset G u v Hu). symmetry. apply Permutation_middle.
  - unfold add_one. cbn [fst snd]. rewrite dkeys_dset_in by assumption. intros x Hx. apply I. now right.
Qed.

(** ** Facts about Prim runs *)
Section PrimFacts.
  Variable W : dict (dict Qc).
  Lemma prim_edges R U L : prim W R U L -> NoDup (R ++ U) ->
    (forall s t, In (s, t) L -> weight W s t <> None /\ In t U /\ (In s R \/ In s (map snd L))) /\ NoDup (map snd L) /\
    (forall p s t q, L = p ++ (s, t) :: q -> In s R \/ In s (map snd p)) /\
    (forall x y, In x (R ++ map snd L) -> In y U -> weight W x y <> None -> In y (map snd L)) /\
    length L <= length U.
  Proof.
    induction 1 as [R U H|R U s t w L (C1 & C2 & C3) Min P IH]; intros ND.
    - split; [intros ? ? []|]. split; [constructor|]. split; [intros p s t q E; destruct p; discriminate|].
      split; [|simpl; lia]. intros x y Hx Hy Hw. exfalso. simpl in Hx. rewrite app_nil_r in Hx.
      destruct (weight W x y) as [w|] eqn:Ew; [|congruence]. apply (H x y w). split; auto.
    - assert (NDU : NoDup U) by (clear -ND; induction R; [assumption|apply IHR; now inversion ND]).
      assert (PU : Permutation (R ++ U) ((R ++ [t]) ++ remove1 t U)).
      { rewrite <- app_assoc. apply Permutation_app_head. simpl. now apply remove1_perm. }
      destruct (IH (Permutation_NoDup PU ND)) as (I1 & I2 & I3 & I4 & I5).
      assert (Nt : ~ In t (map snd L)).
      { intros K. apply in_map_iff in K as ([s' t'] & Q & K). simpl in Q. subst. apply I1 in K as (_ & K & _).
        apply In_remove1 in K; [|assumption]. now destruct K. }
      split; [|split; [|split; [|split]]].
      + intros s' t' [Q|Q].
        * inversion Q; subst. split; [rewrite C3; discriminate|]. split; [assumption|]. now left.
        * apply I1 in Q as (K1 & K2 & K3). split; [assumption|]. split; [now apply remove1_incl in K2|].
          destruct K3 as [K3|K3]; [|right; now right]. apply in_app_or in K3 as [K3|[<-|[]]]; [now left|right; now left].
      + simpl. constructor; assumption.
      + intros p s' t' q E. destruct p as [|[a b] p]; simpl in E; inversion E; subst; [now left|].
        destruct (I3 p s' t' q eq_refl) as [K|K]; [|right; now right].
        apply in_app_or in K as [K|[<-|[]]]; [now left|right; now left].
      + intros x y Hx Hy Hw. simpl. destruct (name_eqb_spec t y) as [->|N]; [now left|]. right. apply (I4 x y).
        * rewrite <- app_assoc. exact Hx.
        * apply In_remove1; auto.
        * assumption.
      + simpl. pose proof (length_remove1 t U C2). lia.
  Qed.
End PrimFacts.

(** ** Exchange argument *)
Lemma last_default {A} (l : list A) d d' : l <> [] -> last l d = last l d'.
Proof. induction l as [|x l IH]; intros N; [congruence|]. destruct l as [|y l]; [reflexivity|]. exact (IH ltac:(discriminate)). Qed.
Lemma last_app_cons {A} (p : list A) u q d : last (p ++ u :: q) d = last (u :: q) d.
Proof. induction p as [|x p IH]; [reflexivity|]. simpl app. rewrite <- IH. simpl. destruct (p ++ u :: q) eqn:E; [destruct p; discriminate|reflexivity]. Qed.
Lemma last_cons {A} (u w : A) l : last (u :: w :: l) u = last (w :: l) w.
Proof. change (last (w :: l) u = last (w :: l) w). now apply last_default. Qed.
Lemma chain_app_r R p u q : chain R (p ++ u :: q) -> chain R (u :: q).
Proof.
  induction p as [|x p IH]; intros C; [exact C|]. apply IH. simpl in C. remember (p ++ u :: q) as l eqn:El.
  destruct l; [destruct p; discriminate|]. now inversion C.
Qed.
Lemma NoDup_app_r' {A} (p q : list A) : NoDup (p ++ q) -> NoDup q.
Proof. induction p; intros H; [exact H|]. inversion H; auto. Qed.
Lemma simple_path (R : name -> name -> Prop) u v : clos_refl_trans _ R u v ->
  exists l, chain R (u :: l) /\ NoDup (u :: l) /\ last (u :: l) u = v.
Proof.
  intros H. apply clos_rt_rt1n in H. induction H as [u|u w v Huw _ (l & C & ND & La)].
  - exists []. split; [constructor|]. split; [constructor; [intros []|constructor]|reflexivity].
  - destruct (in_dec name_eq_dec u (w :: l)) as [I|N].
    + apply in_split in I as (p & q & E). rewrite E in C, ND, La. exists q. split; [now apply chain_app_r in C|]. split.
      * now apply NoDup_app_r' in ND.
      * rewrite last_app_cons in La. rewrite <- La. now apply last_default.
    + exists (w :: l). split; [now constructor|]. split; [now constructor|]. now rewrite last_cons.
Qed.

(** a simple path leaving R crosses its border; both remaining pieces avoid that edge *)
Lemma crossing_edge (A : name -> name -> Prop) (inR : name -> Prop) (dec : forall x, {inR x} + {~ inR x}) :
  forall l u v, chain A (u :: l) -> NoDup (u :: l) -> last (u :: l) u = v -> inR u -> ~ inR v ->
  exists x y, A x y /\ inR x /\ ~ inR y /\
    clos_refl_trans _ (fun a b => A a b /\ ~ (a = x /\ b = y) /\ ~ (a = y /\ b = x)) u x /\
    clos_refl_trans _ (fun a b => A a b /\ ~ (a = x /\ b = y) /\ ~ (a = y /\ b = x)) y v.
Proof.
  induction l as [|w l IH]; intros u v C ND La Hu Hv.
  - simpl in La. subst. contradiction.
  - inversion C; subst. inversion ND; subst.
    assert (Lw : last (u :: w :: l) u = last (w :: l) w).
    { apply last_cons. }
    rewrite Lw in *. destruct (dec w) as [Hw|Hw].
    + destruct (IH w _ H3 H4 eq_refl Hw Hv) as (x & y & K1 & K5 & K6 & K7 & K8). exists x, y. split; [assumption|]. split; [assumption|].
      split; [assumption|]. split; [|assumption]. apply rt_trans with w; [|assumption]. apply rt_step. split; [assumption|].
      split; intros [Q1 Q2]; subst; contradiction.
    + exists u, w. split; [assumption|]. split; [assumption|]. split; [assumption|]. split; [apply rt_refl|].
      (* the rest of the path does not contain u *)
      assert (G : forall l w, chain A (w :: l) -> ~ In u (w :: l) -> 
         clos_refl_trans _ (fun a b => A a b /\ ~ In u [a; b]) w (last (w :: l) w)).
      { clear. induction l as [|a l IH]; intros w C N; [apply rt_refl|]. inversion C; subst.
        assert (Lw : last (w :: a :: l) w = last (a :: l) a).
        { apply last_cons. }
        rewrite Lw. apply rt_trans with a; [|apply IH; [assumption|intros K; apply N; now right]].
        apply rt_step. split; [assumption|]. intros [Q|[Q|[]]]; subst; apply N; simpl; auto. }
      eapply clos_rt_incl; [|apply G; assumption]. intros a b [K1 K2]. split; [assumption|]. simpl in K2. split; intros [Q1 Q2]; subst; tauto.
Qed.

Definition eq_edge_dec (a b : name * name) : {a = b} + {a <> b}.
Proof. decide equality; apply name_eq_dec. Defined.

Section Exchange.
  Variable W : dict (dict Qc).
  Hypothesis Sym : symmetric W.
  Variable V : list name.
  Hypothesis Wv : forall a b, weight W a b <> None -> In a V /\ In b V.

  Definition spans (S : list (name * name)) : Prop := forall a b, In a V -> In b V -> uconnected S a b.

  Lemma uconnected_sym S a b : uconnected S a b -> uconnected S b a.
  Proof.
    induction 1 as [x y H|x|x y z _ I1 _ I2]; [apply rt_step; destruct H; [right|left]; assumption|apply rt_refl|eapply rt_trans; eassumption].
  Qed.

  Lemma prim_exchange R U L : prim W R U L -> NoDup (R ++ U) -> incl V (R ++ U) -> incl (R ++ U) V -> R <> [] ->
    forall G Rest, (forall a b, In (a, b) G -> In a R /\ In b R) -> (forall a b, In (a, b) (G ++ Rest) -> weight W a b <> None) ->
    spans (G ++ Rest) -> exists Rest', spans (G ++ L ++ Rest') /\ length (L ++ Rest') = length Rest /\
      (total_weight W (L ++ Rest') <= total_weight W Rest)%Qc.
  Proof.
    induction 1 as [R U H|R U s t w L (C1 & C2 & C3) Min P IH]; intros ND IV VI NR G Rest HG HW Sp.
    - exists Rest. simpl. split; [assumption|]. split; [reflexivity|apply Qcle_refl].
    - assert (NDU : NoDup U) by (clear -ND; induction R; [assumption|apply IHR; now inversion ND]).
      assert (PU : Permutation (R ++ U) ((R ++ [t]) ++ remove1 t U)).
      { rewrite <- app_assoc. apply Permutation_app_head. simpl. now apply remove1_perm. }
      assert (Ds : forall x, {In x R} + {~ In x R}) by (intros; apply in_dec, name_eq_dec).
      assert (Hs : In s V) by (apply VI, in_or_app; now left). assert (Ht : In t V) by (apply VI, in_or_app; now right).
      assert (NtR : ~ In t R). { clear -ND C2. intros K. induction R as [|r R IH]; [destruct K|]. simpl in ND. inversion ND; subst.
        destruct K as [->|K]; [|auto]. apply H1. apply in_or_app. now right. }
      destruct (simple_path _ _ _ (Sp s t Hs Ht)) as (l & Ch & NDl & La).
      destruct (crossing_edge _ (fun x => In x R) Ds l s t Ch NDl La C1 NtR) as (x & y & Axy & Hx & Hy & P1 & P2).
      (* the crossing edge is in Rest, in one of its orientations *)
      assert (Fx : exists f, In f Rest /\ (f = (x, y) \/ f = (y, x))).
      { destruct Axy as [K|K]; apply in_app_or in K as [K|K].
        - apply HG in K. tauto.
        - exists (x, y). auto.
        - apply HG in K. tauto.
        - exists (y, x). auto. }
      destruct Fx as (f & Hf & Ef). apply in_split in Hf as (r1 & r2 & Er).
      assert (Hy' : In y U).
      { assert (Iy : In y (R ++ U)); [|apply in_app_or in Iy as [Iy|Iy]; [contradiction|assumption]].
        apply IV. destruct Axy as [K|K]; apply HW, Wv in K; apply K. }
      assert (Wf : weight W (fst f) (snd f) = weight W x y).
      { destruct Ef as [-> | ->]; simpl; [reflexivity|apply Sym]. }
      assert (Hwf : exists wf, weight W x y = Some wf).
      { destruct (weight W x y) as [wf|] eqn:E; [eauto|]. exfalso. apply (HW (fst f) (snd f)); [|congruence].
        rewrite Er. destruct f. apply in_or_app. right. apply in_or_app. right. now left. }
      destruct Hwf as [wf Hwf].
      assert (Le : (w <= wf)%Qc) by (apply (Min x y wf); split; auto).
      assert (Keep : forall a b, uadj (G ++ Rest) a b -> ~ (a = x /\ b = y) -> ~ (a = y /\ b = x) ->
                     uadj ((G ++ [(s, t)]) ++ r1 ++ r2) a b).
      { intros a b [K|K] N1 N2; [left|right]; rewrite Er in K; rewrite !in_app_iff in K; simpl in K; rewrite !in_app_iff;
          (destruct K as [K|[K|[K|K]]]; [tauto|tauto| |tauto]); exfalso; destruct Ef as [-> | ->]; inversion K; subst; tauto. }
      assert (Sp' : spans ((G ++ [(s, t)]) ++ r1 ++ r2)).
      { assert (XY : uconnected ((G ++ [(s, t)]) ++ r1 ++ r2) x y).
        { apply rt_trans with s.
          - apply uconnected_sym. eapply clos_rt_incl; [|exact P1]. intros a b (K1 & K2 & K3). now apply Keep.
          - apply rt_trans with t.
            + apply rt_step. left. rewrite !in_app_iff. simpl. tauto.
            + apply uconnected_sym. eapply clos_rt_incl; [|exact P2]. intros a b (K1 & K2 & K3). now apply Keep. }
        intros a b Ha Hb. specialize (Sp a b Ha Hb). clear Ha Hb. induction Sp as [a b H|a|a c b _ I1 _ I2].
        - destruct (eq_edge_dec (a, b) (x, y)) as [Q|Q]; [inversion Q; subst; assumption|].
          destruct (eq_edge_dec (a, b) (y, x)) as [Q'|Q']; [inversion Q'; subst; now apply uconnected_sym|].
          apply rt_step. apply Keep; [assumption|intros [-> ->]; congruence|intros [-> ->]; congruence].
        - apply rt_refl.
        - apply rt_trans with c; auto. }
      assert (IV' : incl V ((R ++ [t]) ++ remove1 t U)) by (intros z Hz; apply (Permutation_in _ PU); auto).
      assert (VI' : incl ((R ++ [t]) ++ remove1 t U) V) by (intros z Hz; apply VI; now apply (Permutation_in _ (Permutation_sym PU))).
      assert (NR' : R ++ [t] <> []) by (intros K; apply app_eq_nil in K as [_ K]; discriminate).
      destruct (IH (Permutation_NoDup PU ND) IV' VI' NR' (G ++ [(s, t)]) (r1 ++ r2)) as (Rest' & S1 & S2 & S3).
      + intros a b K. rewrite !in_app_iff. apply in_app_or in K as [K|[K|[]]]; [apply HG in K; tauto|]. inversion K; subst. simpl. tauto.
      + intros a b K. rewrite <- app_assoc in K. simpl in K. apply in_app_or in K as [K|[K|K]].
        * apply HW, in_or_app. now left.
        * inversion K; subst. rewrite C3. discriminate.
        * apply HW, in_or_app. right. rewrite Er. apply in_app_or in K. apply in_or_app. simpl. tauto.
      + exact Sp'.
      + exists Rest'. split; [rewrite <- app_assoc in S1; exact S1|]. split.
        * rewrite Er, !app_length in *. simpl. lia.
        * unfold total_weight in *. rewrite Er. simpl. rewrite !map_app, !qsum_app in *. simpl. rewrite Wf, Hwf, C3. simpl.
          eapply Qcle_trans; [apply Qcplus_le_compat; [exact Le|exact S3]|].
          match goal with |- (?a <= ?b)%Qc => replace b with a by ring end. apply Qcle_refl.
  Qed.
End Exchange.

(** ** Results about mst *)
Lemma weighted_keys W : weighted_graph W -> incl (map NInt (seq 0 (length W))) (dkeys W) /\ incl (dkeys W) (map NInt (seq 0 (length W))).
Proof. intros [P _]. split; intros x; apply Permutation_in; [symmetry|]; exact P. Qed.
Lemma weight_ends W a b : weighted_graph W -> weight W a b <> None -> In a (dkeys W) /\ In b (dkeys W).
Proof.
  intros [_ H] N. unfold weight in N. destruct (dget W a) as [e|] eqn:D; [|congruence].
  split; [eapply dget_Some_In; eassumption|]. destruct (H a e D) as [_ I]. apply I. apply dget_In. exact N.
Qed.
Lemma split_unique {A} (p q p' q' : list A) v : p ++ v :: q = p' ++ v :: q' -> NoDup (p ++ v :: q) -> p = p'.
Proof.
  revert p'. induction p as [|a p IH]; intros [|b p'] X ND; simpl in *; inversion X as [[X1 X2]]; subst.
  - reflexivity.
  - inversion ND as [|? ? Hn _]. exfalso. apply Hn. apply in_or_app. right. now left.
  - inversion ND as [|? ? Hn _]. exfalso. apply Hn. apply in_or_app. right. now left.
  - f_equal. inversion ND; subst. now apply IH.
Qed.
Definition mst_init (n : nat) : edict := map (fun i => (NInt i, [])) (seq 0 n).
Lemma dkeys_mst_init n : dkeys (mst_init n) = map NInt (seq 0 n).
Proof. unfold mst_init, dkeys. rewrite map_map. reflexivity. Qed.
Lemma edge_mst_init n u v : ~ edge (mst_init n) u v.
Proof.
  intros (c & D & H). unfold mst_init in D. assert (c = []); [|subst; destruct H]. clear H.
  revert D. generalize 0 as k. induction n as [|n IH]; intros k D; [discriminate|]. simpl in D.
  destruct (name_eqb u (NInt k)); [now inversion D|]. exact (IH (S k) D).
Qed.
Lemma all_edges_mst_init n : all_edges (mst_init n) = [].
Proof. unfold mst_init, all_edges. generalize 0 as k. induction n as [|n IH]; intros k; [reflexivity|]. exact (IH (S k)). Qed.

Lemma mst_prim W : weighted_graph W -> 0 < length W ->
  exists L, mst W = Ok (fold_left add_one L (mst_init (length W))) /\
    prim W [NInt 0] (map NInt (seq 1 (length W - 1))) L /\ NoDup ([NInt 0] ++ map NInt (seq 1 (length W - 1))) /\
    [NInt 0] ++ map NInt (seq 1 (length W - 1)) = map NInt (seq 0 (length W)).
Proof.
  intros Wg Pn. set (n := length W) in *.
  assert (Eq : [NInt 0] ++ map NInt (seq 1 (n - 1)) = map NInt (seq 0 n)).
  { destruct n as [|m]; [lia|]. simpl. rewrite Nat.sub_0_r. reflexivity. }
  destruct (weighted_keys W Wg) as [K1 K2]. fold n in K1, K2. unfold mst.
  destruct (mst_loop_prim W) with (k := n) (R := [NInt 0]) (U := map NInt (seq 1 (n - 1))) (G := mst_init n) as (L & E & P).
  - intros u e D. now apply (proj2 Wg) in D.
  - intros x Hx. apply K1. rewrite <- Eq. apply in_or_app. now left.
  - intros x Hx. apply K1. rewrite <- Eq. apply in_or_app. now right.
  - rewrite map_length, seq_length. lia.
  - rewrite dkeys_mst_init. exact K2.
  - exists L. split; [exact E|]. split; [exact P|]. split; [|exact Eq]. rewrite Eq.
    apply (Permutation_NoDup (l := map NInt (seq 0 n))); [reflexivity|].
    apply FinFun.Injective_map_NoDup; [intros a b Q; now inversion Q|apply seq_NoDup].
Qed.

Lemma mst_tree W : weighted_graph W -> 0 < length W -> exists T, mst W = Ok T /\
  dkeys T = map NInt (seq 0 (length W)) /\ NoDup (all_edges T) /\
  (forall u v, edge T u v -> weight W u v <> None) /\
  (forall u, ~ edge T u (NInt 0)) /\
  (forall u u' v, edge T u v -> edge T u' v -> u = u') /\
  acyclic T /\
  (forall v, reach T (NInt 0) v <-> wreach W (NInt 0) v) /\
  ((forall v, In v (dkeys W) -> wreach W (NInt 0) v) -> S (length (all_edges T)) = length W).
Proof.
  intros Wg Pn. destruct (mst_prim W Wg Pn) as (L & E & P & ND & Eq).
  set (n := length W) in *. set (U := map NInt (seq 1 (n - 1))) in *. set (T := fold_left add_one L (mst_init n)) in *.
  destruct (prim_edges W _ _ _ P ND) as (I1 & I2 & I3 & I4 & I5).
  assert (Et : forall u v, edge T u v <-> In (u, v) L).
  { intros u v. unfold T. rewrite edge_add_all. split; [intros [K|K]; [now apply edge_mst_init in K|assumption]|now right]. }
  assert (Fst : incl (map fst L) (dkeys (mst_init n))).
  { intros x Hx. apply in_map_iff in Hx as ([s t] & <- & K). rewrite dkeys_mst_init. simpl.
    apply I1 in K as (K & _). apply weight_ends in K; [|assumption]. apply (weighted_keys W Wg). apply K. }
  assert (Pe : Permutation (all_edges T) L).
  { unfold T. rewrite all_edges_add_all by assumption. rewrite all_edges_mst_init, app_nil_r. reflexivity. }
  assert (NDL : NoDup L) by (apply (NoDup_map_inv snd); exact I2).
  assert (N0 : ~ In (NInt 0) U) by (inversion ND; assumption).
  assert (Uniq : forall u u' v, edge T u v -> edge T u' v -> u = u').
  { intros u u' v H1 H2. apply Et in H1, H2. clear -I2 H1 H2. induction L as [|[a b] L IH]; [destruct H1|].
    simpl in I2. inversion I2; subst. destruct H1 as [H1|H1], H2 as [H2|H2].
    - congruence.
    - inversion H1; subst. exfalso. apply H3. apply in_map_iff. exists (u', v). auto.
    - inversion H2; subst. exfalso. apply H3. apply in_map_iff. exists (u, v). auto.
    - auto. }
  assert (Pre : forall p q, L = p ++ q -> forall v, In v (map snd p) -> reach T (NInt 0) v).
  { induction p as [|[s t] p IH] using rev_ind; intros q EL v Hv; [destruct Hv|].
    rewrite <- app_assoc in EL. simpl in EL. rewrite map_app in Hv. apply in_app_or in Hv as [Hv|[<-|[]]]; [now apply (IH _ EL)|].
    simpl. assert (St : edge T s t) by (apply Et; rewrite EL; apply in_or_app; right; now left).
    apply rt_trans with s; [|now apply rt_step].
    destruct (I3 p s t q EL) as [[<-|[]]|K]; [apply rt_refl|now apply (IH _ EL)]. }
  exists T. split; [exact E|]. split; [unfold T; rewrite dkeys_add_all by assumption; apply dkeys_mst_init|].
  split; [now apply (Permutation_NoDup (Permutation_sym Pe))|].
  split; [intros u v H; apply Et in H; now apply I1 in H|].
  split; [intros u H; apply Et in H; apply I1 in H as (_ & H & _); contradiction|].
  split; [exact Uniq|].
  split.
  { unfold acyclic, path. apply (order_acyclic (edge T) ([NInt 0] ++ map snd L)).
    - intros u v H. apply Et in H. apply in_or_app. right. apply in_map_iff. exists (u, v). auto.
    - intros p v q u Eo H. apply Et in H. apply in_split in H as (p1 & q1 & EL).
      assert (X : [NInt 0] ++ map snd L = ([NInt 0] ++ map snd p1) ++ v :: map snd q1).
      { rewrite EL, map_app. simpl. reflexivity. }
      rewrite Eo in X.
      assert (NDo : NoDup (p ++ v :: q)).
      { rewrite <- Eo. simpl. constructor; [|assumption]. intros K. apply in_map_iff in K as ([s t] & Q & K). simpl in Q. subst.
        apply I1 in K. destruct K as (_ & K & _). contradiction. }
      assert (Q : p = [NInt 0] ++ map snd p1).
      { now apply (split_unique p q _ (map snd q1) v). }
      rewrite Q. destruct (I3 p1 u v q1 EL) as [[<-|[]]|K]; [now left|]. apply in_or_app. now right.
    - simpl. constructor; [|assumption]. intros K. apply in_map_iff in K as ([s t] & Q & K). simpl in Q. subst.
      apply I1 in K. destruct K as (_ & K & _). contradiction. }
  assert (Re : forall v, wreach W (NInt 0) v -> In v ([NInt 0] ++ map snd L)).
  { intros v H. apply clos_rt_rtn1 in H. induction H as [|y z Hyz _ IH]; [now left|].
    assert (Hz : In z (dkeys W)) by (apply weight_ends in Hyz; [apply Hyz|assumption]).
    apply (weighted_keys W Wg) in Hz. fold n in Hz. rewrite <- Eq in Hz. destruct Hz as [<-|Hz]; [now left|].
    right. apply (I4 y z IH Hz Hyz). }
  split.
  { intros v. split.
    - apply clos_rt_incl. intros a b K. apply Et in K. now apply I1 in K.
    - intros H. apply Re in H as [<-|H]; [apply rt_refl|]. apply (Pre L []); [now rewrite app_nil_r|assumption]. }
  intros All. rewrite (Permutation_length Pe).
  assert (LU : length U = n - 1) by (unfold U; rewrite map_length, seq_length; reflexivity).
  assert (length U <= length (map snd L)).
  { apply NoDup_incl_length; [now inversion ND|]. intros x Hx.
    assert (Kx : In x (dkeys W)) by (apply (weighted_keys W Wg); fold n; rewrite <- Eq; now right).
    destruct (Re x (All x Kx)) as [<-|K]; [contradiction|assumption]. }
  rewrite map_length in *. lia.
Qed.

Lemma mst_minimal W S : weighted_graph W -> symmetric W -> spanning_tree W S ->
  exists T, mst W = Ok T /\ spanning_tree W (all_edges T) /\ (total_weight W (all_edges T) <= total_weight W S)%Qc.
Proof.
  intros Wg Sy (S1 & S2 & S3). assert (Pn : 0 < length W) by lia.
  destruct (mst_prim W Wg Pn) as (L & E & P & ND & Eq).
  destruct (mst_tree W Wg Pn) as (T & E' & KT & NDT & T1 & T2 & T3 & T4 & T5 & T6). rewrite E in E'. inversion E' as [ET]; clear E'.
  destruct (prim_edges W _ _ _ P ND) as (I1 & I2 & I3 & I4 & I5).
  destruct (weighted_keys W Wg) as [K1 K2].
  assert (Pe : Permutation (all_edges T) L).
  { rewrite <- ET. rewrite all_edges_add_all; [rewrite all_edges_mst_init, app_nil_r; reflexivity|].
    intros x Hx. apply in_map_iff in Hx as ([s t] & <- & K). rewrite dkeys_mst_init. simpl.
    apply I1 in K as (K & _). apply weight_ends in K; [|assumption]. apply K2. apply K. }
  destruct (prim_exchange W Sy (dkeys W) (fun a b => weight_ends W a b Wg) _ _ _ P ND) with (G := @nil (name * name)) (Rest := S) as (Rest & Sp & Le & Tw).
  - rewrite Eq. exact K2.
  - rewrite Eq. exact K1.
  - discriminate.
  - intros a b [].
  - exact S1.
  - exact S3.
  - assert (Conn : forall v, In v (dkeys W) -> wreach W (NInt 0) v).
    { intros v Hv. assert (H0 : In (NInt 0) (dkeys W)) by (apply K1; rewrite <- Eq; now left).
      eapply clos_rt_incl; [|exact (S3 _ _ H0 Hv)]. intros a b [K|K]; [now apply S1|]. rewrite Sy. now apply S1. }
    specialize (T6 Conn). rewrite (Permutation_length Pe) in T6.
    assert (Rest = []) as -> by (rewrite app_length in Le; destruct Rest; [reflexivity|simpl in Le; lia]).
    rewrite app_nil_r in *. simpl in Sp. exists T. split; [congruence|]. split.
    + split; [|split].
      * intros u v H. apply (Permutation_in _ Pe) in H. now apply I1 in H.
      * rewrite (Permutation_length Pe). lia.
      * intros a b Ha Hb. eapply clos_rt_incl; [|exact (Sp a b Ha Hb)]. intros x y [K|K]; [left|right]; now apply (Permutation_in _ (Permutation_sym Pe)).
    + eapply Qcle_trans; [|exact Tw]. unfold total_weight. rewrite (qsum_perm _ _ (Permutation_map _ Pe)). apply Qcle_refl.
Qed.
