(** Properties_Chow.v -- theorems C106: chow_liu.  Specification: SpecTree.v. *)
From Verif Require Import Py Num BayesNet Data Graph SpecFactor SpecGraph SpecMst SpecConstraint SpecTree StructScore Constraint ChowLiu GraphFacts GraphTheory GraphTopsort GraphNet StructFacts ConstraintFacts Mst ChowFacts Properties_Graph.
Open Scope nat_scope.

(** ** C106 *)
(** as shipped chow_liu never returns *)
Theorem C106_never : forall t, table_ok t -> chow_liu_shipped t = Raise (if t_ncols t <=? 1 then IndexError else TypeError).
Proof.
  intros t W. unfold chow_liu_shipped, chow_liu. destruct (value_dict_ok t W) as (vd & -> & _). cbn [bind]. unfold cl_tree, cl_edges.
  destruct (t_ncols t) as [|[|n]]; [reflexivity|reflexivity|]. replace (S (S n) <=? 1) with false by (symmetry; apply Nat.leb_gt; lia).
  unfold cl_pairs. cbn [seq flat_map Nat.sub map app mapM fst snd bind]. reflexivity.
Qed.
Print Assumptions C106_never.

Section Tree.
  Variables (mi : name -> name -> res Qc) (w : name -> name -> Qc) (n : nat).
  Hypothesis Hn : 2 <= n.
  Hypothesis Hmi : forall i j, i < j < n -> mi (NInt i) (NInt j) = Ok (w (NInt i) (NInt j)).
  Let es := cl_sort (map (fun p => (p, w (fst p) (snd p))) (cl_pairs n)).
  Lemma es_in a b q : In (a, b, q) es <-> q = w a b /\ exists i j, a = NInt i /\ b = NInt j /\ i < j < n.
  Proof.
    unfold es. split.
    - intros H. apply (Permutation_in _ (Permutation_sym (cl_sort_perm _))) in H. apply in_map_iff in H as ([x y] & E & H). cbn in E. injection E as <- <- <-. split; [reflexivity|now apply In_cl_pairs].
    - intros (-> & H). apply In_cl_pairs in H. apply (Permutation_in _ (cl_sort_perm _)). apply in_map_iff. now exists (a, b).
  Qed.
  Lemma cl_tree_run : exists e0 r0, es = e0 :: r0 /\ cl_tree mi n = Ok (fold_left add_one (cl_run es [fst (fst e0)]) (mst_init n)).
  Proof.
    unfold cl_tree. rewrite (cl_edges_ok mi w n) by (intros a b H; apply In_cl_pairs in H as (i & j & -> & -> & H); now apply Hmi). cbn [bind]. fold es.
    assert (NE : es <> []). { intros E. assert (In (NInt 0, NInt 1, w (NInt 0) (NInt 1)) es) as K; [|rewrite E in K; destruct K]. apply es_in. split; [reflexivity|]. exists 0, 1. split; [reflexivity|]. split; [reflexivity|lia]. }
    destruct es as [|e0 r0] eqn:E; [contradiction|]. exists e0, r0. split; [reflexivity|].
    destruct (cl_loop_run n (e0 :: r0)) with (C := [fst (fst e0)]) (T := mst_init n) as (C' & R); [| |].
    - intros [[a b] q] H. rewrite <- E in H. apply es_in in H as (_ & i & j & -> & -> & H). cbn. split; apply in_map, in_seq; lia.
    - apply dkeys_mst_init.
    - exact (f_equal (fun m => bind m (fun st => Ok (snd st))) R).
  Qed.
  Lemma in_columns v : In v (columns n) <-> exists i, v = NInt i /\ i < n.
  Proof. unfold columns. rewrite in_map_iff. split; [intros (i & <- & H); apply in_seq in H; exists i; split; [reflexivity|lia]|intros (i & -> & H); exists i; split; [reflexivity|apply in_seq; lia]]. Qed.
  Lemma joins_columns e a b : In e es -> joins e a b -> In a (columns n) /\ In b (columns n) /\ a <> b.
  Proof.
    destruct e as [[x y] q]. intros H J. apply es_in in H as (_ & i & j & -> & -> & H).
    destruct J as [J|J]; cbn in J; injection J as <- <-; (split; [apply in_columns; eexists; split; [reflexivity|lia]|]; split; [apply in_columns; eexists; split; [reflexivity|lia]|]; intros K; injection K; lia).
  Qed.
  Lemma pair_edge a b : In a (columns n) -> In b (columns n) -> a <> b -> exists e, In e es /\ joins e a b /\ (snd e = w a b \/ snd e = w b a).
  Proof.
    intros Ha Hb N. apply in_columns in Ha as (i & -> & Hi). apply in_columns in Hb as (j & -> & Hj). assert (i <> j) by congruence. destruct (Nat.lt_ge_cases i j).
    - exists (NInt i, NInt j, w (NInt i) (NInt j)). split; [apply es_in; split; [reflexivity|]; exists i, j; split; [reflexivity|]; split; [reflexivity|lia]|]. split; [now left|now left].
    - exists (NInt j, NInt i, w (NInt j) (NInt i)). split; [apply es_in; split; [reflexivity|]; exists j, i; split; [reflexivity|]; split; [reflexivity|lia]|]. split; [now right|now right].
  Qed.
  Hypothesis Sym : forall u v, w u v = w v u.
  Lemma joins_weight e a b : In e es -> joins e a b -> snd e = w a b.
  Proof. destruct e as [[x y] q]. intros H J. apply es_in in H as (-> & _). destruct J as [J|J]; cbn in J; injection J as -> ->; [reflexivity|apply Sym]. Qed.

  Lemma cl_tree_ok : exists T r s, cl_tree mi n = Ok T /\ tree_on n r T /\
    In s (columns n) /\ r <> s /\ (forall u v, In u (columns n) -> In v (columns n) -> u <> v -> (w u v <= w r s)%Qc) /\
    edge T r s /\ (forall u v, edge T u v -> v <> s -> (w r v <= w u v /\ w s v <= w u v)%Qc) /\ NoDup (all_edges T) /\ (forall u v, edge T u v <-> In (u, v) (all_edges T)).
  Proof.
    destruct cl_tree_run as (e0 & r0 & E & R). pose proof (cl_sort_desc (map (fun p => (p, w (fst p) (snd p))) (cl_pairs n))) as D. fold es in D.
    set (r := fst (fst e0)) in *. set (L := cl_run es [r]) in *. set (T := fold_left add_one L (mst_init n)) in *.
    assert (He0 : In e0 es) by (rewrite E; now left). destruct (joins_columns e0 r (snd (fst e0)) He0) as (Hr & Hs & Nrs); [left; now destruct (fst e0)|].
    destruct (run_fresh es [r]) as [ND Fr]. fold L in ND, Fr.
    assert (In_L : forall s t, In (s, t) L -> In s (columns n) /\ In t (columns n) /\ t <> r).
    { intros s t H. pose proof H as H'. apply run_in in H as (e & He & J). destruct (joins_columns e s t He J) as (A & B & C). split; [exact A|]. split; [exact B|].
      intros ->. apply (Fr r); [|now left]. apply in_map_iff. exists (s, r). now split. }
    assert (Et : forall u v, edge T u v <-> In (u, v) L) by (intros u v; unfold T; rewrite edge_add_all; split; [intros [K|K]; [now apply edge_mst_init in K|assumption]|now right]).
    assert (Fst : incl (map fst L) (dkeys (mst_init n))).
    { intros x Hx. apply in_map_iff in Hx as ([s t] & <- & K). rewrite dkeys_mst_init. now apply In_L in K. }
    assert (Pe : Permutation (all_edges T) L) by (unfold T; rewrite all_edges_add_all by assumption; rewrite all_edges_mst_init, app_nil_r; reflexivity).
    set (s := snd (fst e0)) in *.
    assert (EL : L = (r, s) :: cl_run r0 [s; r]).
    { unfold L. rewrite E. cbn [cl_run]. fold r s. destruct (cl_cases r s [r]) as [(E1 & _)|[(E1 & E2 & A & _)|(E1 & E2 & A)]]; rewrite E1, ?E2; [reflexivity|exfalso; apply A; now left|].
      exfalso. destruct (proj1 A (or_introl eq_refl)) as [K|[]]. congruence. }
    assert (Dr : descending r0) by (rewrite E in D; now inversion D).
    assert (Two : forall v x, In v (columns n) -> v <> r -> v <> s -> x = r \/ x = s -> exists u, In (u, v) (cl_run r0 [s; r]) /\ (w x v <= w u v)%Qc).
    { intros v x Hv Nr Ns Hx. assert (Hxc : In x (columns n)) by (destruct Hx as [-> | ->]; assumption). assert (Nx : x <> v) by (destruct Hx as [-> | ->]; congruence).
      destruct (pair_edge x v Hxc Hv Nx) as (e & He & J & _). assert (He' : In e r0).
      { pose proof He as He'. rewrite E in He'. destruct He' as [<-|He']; [|exact He']. exfalso. unfold r, s in *. destruct J as [J|J]; rewrite J in *; cbn in *; congruence. }
      destruct (run_root r0 Dr [s; r] x v e) as (u & y & I1 & I2 & I3 & I4); [destruct Hx as [-> | ->]; cbn; tauto|exact He'|exact J|intros [K|[K|[]]]; congruence|].
      exists u. split; [exact I1|]. rewrite <- (joins_weight e x v He J), <- (joins_weight y u v) by (try exact I3; rewrite E; now right). exact I4. }
    assert (All : forall v, In v (columns n) -> v <> r -> exists u, In (u, v) L).
    { intros v Hv Nr. rewrite EL. destruct (name_eq_dec v s) as [-> |Ns]; [exists r; now left|]. destruct (Two v r Hv Nr Ns) as (u & Hu & _); [now left|]. exists u. now right. }
    assert (Uniq : forall u u' v, In (u, v) L -> In (u', v) L -> u = u').
    { intros u u' v H1 H2. clear -ND H1 H2. induction L as [|[a b] l IH]; [destruct H1|]. cbn in ND. inversion ND as [|? ? N1 N2]; subst. destruct H1 as [H1|H1], H2 as [H2|H2].
      - congruence.
      - injection H1 as -> ->. exfalso. apply N1. apply in_map_iff. exists (u', v). auto.
      - injection H2 as -> ->. exfalso. apply N1. apply in_map_iff. exists (u, v). auto.
      - auto. }
    assert (NDo : NoDup ([r] ++ map snd L)) by (cbn; constructor; [intros K; apply (Fr r K); now left|exact ND]).
    exists T, r, s. split; [exact R|]. split; [|split; [exact Hs|split; [exact Nrs|split; [|split; [apply Et; rewrite EL; now left|split; [|split]]]]]].
    - split; [unfold T; rewrite dkeys_add_all by assumption; apply dkeys_mst_init|]. split; [exact Hr|]. split; [intros u v H; apply Et in H; now apply In_L|].
      split; [intros v Hv Nv; destruct (All v Hv Nv) as (u & Hu); exists u; split; [now apply Et|]; intros u' H; apply Et in H; now apply (Uniq u' u v)|].
      split; [|split].
      + unfold acyclic, path. apply (order_acyclic (edge T) ([r] ++ map snd L)); [| |exact NDo].
        * intros u v H. apply Et in H. apply in_or_app. right. apply in_map_iff. exists (u, v). auto.
        * intros p v q u Eo H. apply Et in H. apply in_split in H as (p1 & q1 & EL').
          assert (X : [r] ++ map snd L = ([r] ++ map snd p1) ++ v :: map snd q1) by (rewrite EL', map_app; reflexivity).
          assert (Q : p = [r] ++ map snd p1) by (rewrite Eo in NDo; apply (split_unique p q _ (map snd q1) v); [now rewrite <- Eo|exact NDo]).
          rewrite Q. destruct (run_prefix es [r] p1 u v q1 EL') as [[<-|[]]|K]; [now left|apply in_or_app; now right].
      + assert (Pre : forall p q, L = p ++ q -> forall v, In v (map snd p) -> reach T r v).
        { induction p as [|[y z] p IH] using rev_ind; intros q EL' v Hv; [destruct Hv|].
          rewrite <- app_assoc in EL'. cbn in EL'. rewrite map_app in Hv. apply in_app_or in Hv as [Hv|[<-|[]]]; [now apply (IH _ EL')|].
          cbn. assert (St : edge T y z) by (apply Et; rewrite EL'; apply in_or_app; right; now left). apply rt_trans with y; [|now apply rt_step].
          destruct (run_prefix es [r] p y z q EL') as [[<-|[]]|K]; [apply rt_refl|now apply (IH _ EL')]. }
        intros v Hv. destruct (name_eq_dec v r) as [-> |N]; [apply rt_refl|]. destruct (All v Hv N) as (u & Hu). apply (Pre L []); [now rewrite app_nil_r|]. apply in_map_iff. now exists (u, v).
      + rewrite (Permutation_length Pe). assert (PP : Permutation ([r] ++ map snd L) (columns n)).
        { apply NoDup_Permutation; [exact NDo|apply FinFun.Injective_map_NoDup; [intros a b Q; now inversion Q|apply seq_NoDup]|]. intros v. split.
          - intros [<-|H]; [exact Hr|]. apply in_map_iff in H as ([y z] & <- & H). now apply In_L in H.
          - intros Hv. destruct (name_eq_dec v r) as [-> |N]; [now left|]. right. destruct (All v Hv N) as (u & Hu). apply in_map_iff. now exists (u, v). }
        apply Permutation_length in PP. cbn in PP. unfold columns in PP. rewrite !map_length, seq_length in PP. exact PP.
    - intros u v Hu Hv N. destruct (pair_edge u v Hu Hv N) as (e & He & J & _). rewrite <- (joins_weight e u v He J), <- (joins_weight e0 r s He0) by (left; now destruct (fst e0)).
      rewrite E in He, D. inversion D as [|? ? H _]; subst. destruct He as [<-|He]; [apply Qcle_refl|now apply H].
    - intros u v H Ns. apply Et in H. destruct (In_L u v H) as (_ & Hv & Nv).
      assert (G : forall x, x = r \/ x = s -> (w x v <= w u v)%Qc) by (intros x Hx; destruct (Two v x Hv Nv Ns Hx) as (u' & Hu' & Le); rewrite (Uniq u u' v H); [exact Le|rewrite EL; now right]). split; apply G; [now left|now right].
    - apply (Permutation_NoDup (Permutation_sym Pe)). now apply (NoDup_map_inv snd).
    - intros u v. rewrite Et. split; intros K; [now apply (Permutation_in _ (Permutation_sym Pe))|now apply (Permutation_in _ Pe)].
  Qed.
  Lemma es_nodup : NoDup es.
  Proof. unfold es. apply (Permutation_NoDup (cl_sort_perm _)). apply FinFun.Injective_map_NoDup; [intros x y E; now injection E|apply cl_pairs_nodup]. Qed.
  Lemma joins_unique e e' a b : In e es -> In e' es -> joins e a b -> joins e' a b -> e = e'.
  Proof.
    destruct e as [[x y] q], e' as [[x' y'] q']. intros H H' J J'. apply es_in in H as (-> & i & j & -> & -> & L), H' as (-> & i' & j' & -> & -> & L').
    destruct J as [J|J], J' as [J'|J']; cbn in J, J'; injection J as <- <-; injection J' as E1 E2; first [lia|subst; reflexivity].
  Qed.
  (** when the two heaviest pairs are disjoint, the second is not taken *)
  Lemma second_skipped a b c d T : In a (columns n) -> In b (columns n) -> In c (columns n) -> In d (columns n) -> NoDup [a; b; c; d] ->
    (w c d < w a b)%Qc -> (forall u v, In u (columns n) -> In v (columns n) -> u <> v -> (u, v) <> (a, b) -> (u, v) <> (b, a) -> (u, v) <> (c, d) -> (u, v) <> (d, c) -> (w u v < w c d)%Qc) ->
    cl_tree mi n = Ok T -> ~ edge T c d /\ ~ edge T d c.
  Proof.
    intros Ha Hb Hc Hd N4 Lt Oth ET. destruct cl_tree_run as (e0 & r0 & E & R). rewrite ET in R. injection R as R. pose proof (cl_sort_desc (map (fun p => (p, w (fst p) (snd p))) (cl_pairs n))) as D. fold es in D.
    assert (Nab : a <> b) by (inversion N4 as [|? ? K _]; subst; intros ->; apply K; now left). assert (Ncd : c <> d) by (intros ->; inversion N4 as [|? ? _ K]; subst; inversion K as [|? ? _ K2]; subst; inversion K2 as [|? ? K3 _]; subst; apply K3; now left).
    assert (Dis : c <> a /\ c <> b /\ d <> a /\ d <> b). { inversion N4 as [|? ? K1 K2]; subst. inversion K2 as [|? ? K3 _]; subst. cbn in K1, K3. split; [intros ->; tauto|]. split; [intros ->; tauto|]. split; intros ->; tauto. }
    destruct Dis as (D1 & D2 & D3 & D4).
    assert (Kind : forall e, In e es -> joins e a b \/ joins e c d \/ (snd e < w c d)%Qc).
    { intros e He. assert (J : joins e (fst (fst e)) (snd (fst e))) by (left; now destruct (fst e)). destruct (joins_columns _ _ _ He J) as (A & B & C). pose proof (joins_weight _ _ _ He J) as We.
      set (x := fst (fst e)) in *. set (y := snd (fst e)) in *. clearbody x y. destruct (eq_edge_dec (x, y) (a, b)) as [Q|Q1]; [injection Q as -> ->; now left|]. destruct (eq_edge_dec (x, y) (b, a)) as [Q|Q2]; [injection Q as -> ->; left; destruct J; [now right|now left]|].
      destruct (eq_edge_dec (x, y) (c, d)) as [Q|Q3]; [injection Q as -> ->; right; now left|]. destruct (eq_edge_dec (x, y) (d, c)) as [Q|Q4]; [injection Q as -> ->; right; left; destruct J; [now right|now left]|]. right; right. rewrite We. now apply Oth. }
    destruct (pair_edge a b Ha Hb Nab) as (eab & Iab & Jab & _). destruct (pair_edge c d Hc Hd Ncd) as (ecd & Icd & Jcd & _). pose proof (joins_weight _ _ _ Iab Jab) as Wab. pose proof (joins_weight _ _ _ Icd Jcd) as Wcd.
    pose proof es_nodup as NDe. rewrite E in D. destruct (desc_inv _ _ D) as [M D']. assert (I0 : In e0 es) by (rewrite E; now left).
    assert (J0 : joins e0 a b).
    { assert (Le : (snd eab <= snd e0)%Qc) by (rewrite E in Iab; destruct Iab as [<-|Iab]; [apply Qcle_refl|now apply M]). destruct (Kind e0 I0) as [K|[K|K]]; [exact K| |]; exfalso; [rewrite (joins_weight e0 c d I0 K), Wab in Le|rewrite Wab in Le]; qclra. }
    assert (Icd' : In ecd r0). { rewrite E in Icd. destruct Icd as [<-|K]; [|exact K]. exfalso. clear - Jcd J0 D1 D2. destruct Jcd as [K|K], J0 as [K'|K']; rewrite K in K'; injection K' as -> ->; congruence. }
    destruct r0 as [|e1 r1]; [destruct Icd'|]. destruct (desc_inv _ _ D') as [M' _]. assert (I1 : In e1 es) by (rewrite E; right; now left).
    assert (J1 : joins e1 c d).
    { assert (Le : (snd ecd <= snd e1)%Qc) by (destruct Icd' as [<-|K]; [apply Qcle_refl|now apply M']). destruct (Kind e1 I1) as [K|[K|K]]; [|exact K|].
      - exfalso. assert (e0 = e1) by now apply (joins_unique e0 e1 a b). subst e1. rewrite E in NDe. inversion NDe as [|? ? K' _]; subst. apply K'. now left.
      - exfalso. rewrite Wcd in Le. qclra. }
    assert (Skip : forall u v, edge T u v -> joins e0 u v \/ exists e, In e r1 /\ joins e u v).
    { intros u v H. rewrite R in H. apply edge_add_all in H as [H|H]; [now apply edge_mst_init in H|]. revert H. rewrite E. set (r := fst (fst e0)). set (s := snd (fst e0)).
      assert (Ers : fst e0 = (r, s)) by (unfold r, s; now destruct (fst e0)). cbn [cl_run]. fold r s. destruct (cl_cases r s [r]) as [(E1 & _)|[(E1 & E2 & A & _)|(E1 & E2 & A)]]; rewrite E1, ?E2.
      2: { exfalso. apply A. now left. }
      2: { exfalso. destruct (proj1 A (or_introl eq_refl)) as [K|[]]. destruct (joins_columns e0 r s I0 (or_introl Ers)) as (_ & _ & K'). congruence. }
      destruct (cl_cases (fst (fst e1)) (snd (fst e1)) [s; r]) as [(E3 & A & _)|[(E3 & E4 & _ & A)|(E3 & E4 & A)]]; rewrite E3, ?E4.
      - exfalso. assert (fst (fst e1) = c \/ fst (fst e1) = d) as X by (destruct J1 as [K|K]; rewrite K; cbn; tauto). assert (Y : fst (fst e1) = a \/ fst (fst e1) = b) by (destruct J0 as [K|K]; rewrite Ers in K; injection K as -> ->; cbn in A; intuition congruence). clear - X Y D1 D2 D3 D4. intuition congruence.
      - exfalso. assert (snd (fst e1) = c \/ snd (fst e1) = d) as X by (destruct J1 as [K|K]; rewrite K; cbn; tauto). assert (Y : snd (fst e1) = a \/ snd (fst e1) = b) by (destruct J0 as [K|K]; rewrite Ers in K; injection K as -> ->; cbn in A; intuition congruence). clear - X Y D1 D2 D3 D4. intuition congruence.
      - intros [H|H]; [left; left; congruence|]. right. now apply run_in in H. }
    assert (No : forall u v, (u, v) = (c, d) \/ (u, v) = (d, c) -> ~ edge T u v).
    { intros u v Q H. assert (Q' : forall e, joins e u v -> joins e c d) by (intros e J; destruct Q as [Q|Q]; injection Q as -> ->; [exact J|destruct J; [now right|now left]]).
      apply Skip in H as [J|(e & He & J)]; apply Q' in J.
      - clear - J J0 D1 D2. destruct J as [K|K], J0 as [K'|K']; rewrite K in K'; injection K' as -> ->; congruence.
      - assert (e1 = e) by (apply (joins_unique e1 e c d); try assumption; rewrite E; right; now right). subst e. rewrite E in NDe. inversion NDe as [|? ? _ K']; subst. inversion K' as [|? ? K2 _]; subst. contradiction. }
    split; apply No; [now left|now right].
  Qed.
End Tree.
(** with the keyword corrected, for any symmetric weights of at least two columns: the result is a tree over all columns
    directed away from an end r of a heaviest pair (r,s), containing r -> s; every other column's edge is at least as heavy
    as its edges to r and to s *)
Theorem C106_tree : forall mi w n, 2 <= n -> (forall i j, i < j < n -> mi (NInt i) (NInt j) = Ok (w (NInt i) (NInt j))) -> (forall u v, w u v = w v u) ->
  exists T r s, cl_tree mi n = Ok T /\ tree_on n r T /\
    In s (columns n) /\ r <> s /\ (forall u v, In u (columns n) -> In v (columns n) -> u <> v -> (w u v <= w r s)%Qc) /\
    edge T r s /\ forall u v, edge T u v -> v <> s -> (w r v <= w u v /\ w s v <= w u v)%Qc.
Proof. intros mi w n Hn Hmi Sym. destruct (cl_tree_ok mi w n Hn Hmi Sym) as (T & r & s & H1 & H2 & H3 & H4 & H5 & H6 & H7 & _). exists T, r, s. split; [exact H1|]. split; [exact H2|]. split; [exact H3|]. split; [exact H4|]. split; [exact H5|]. split; assumption. Qed.
Print Assumptions C106_tree.
(** and chow_liu returns a network on the columns in which every column but one has exactly one parent *)
Theorem C106_network : forall mi w t, table_ok t -> 2 <= t_ncols t -> (forall i j, i < j < t_ncols t -> mi (NInt i) (NInt j) = Ok (w (NInt i) (NInt j))) -> (forall u v, w u v = w v u) ->
  exists bn r, chow_liu mi t = Ok bn /\ tree_on (t_ncols t) r (bn_E bn) /\ Permutation (bn_nodes bn) (columns (t_ncols t)) /\ topological (bn_E bn) (bn_nodes bn) /\
    bn_parents bn r = Ok [] /\ forall v, In v (columns (t_ncols t)) -> v <> r -> exists u, bn_parents bn v = Ok [u] /\ edge (bn_E bn) u v.
Proof.
  intros mi w t W Hn Hmi Sym. destruct (C106_tree mi w _ Hn Hmi Sym) as (T & r & _ & ET & TT & _). destruct (value_dict_ok t W) as (vd & Ev & Kv & _).
  unfold chow_liu. rewrite Ev, ET. cbn [bind]. pose proof TT as (K & Hr & Ed & Par & Ac & Re & _).
  assert (Cl : closed_edges T) by (split; [rewrite K; apply FinFun.Injective_map_NoDup; [intros a b Q; now inversion Q|apply seq_NoDup]|intros u v H; rewrite K; now apply Ed in H]).
  destruct (C20_topsort_acyclic T Cl Ac) as (V & EV & PV). destruct (set_structure_ok T (Some vd) V Cl EV) as (bn & Eb & Hv & He & _).
  { intros v H. apply In_dget. rewrite Kv, <- K. now apply (Permutation_in v PV). }
  destruct (C22_set_structure T vd Cl Ac) as (bn' & Eb' & _ & Acc & Agr); [intros v H; now rewrite Kv, <- K|]. rewrite Eb in Eb'. injection Eb' as <-.
  exists bn, r. split; [exact Eb|]. rewrite He. unfold bn_nodes. rewrite Hv. split; [exact TT|]. split; [now rewrite PV, K|].
  split; [apply (C21_forest T V Cl EV); intros u u' v H H'; destruct (Ed u v H) as (_ & Hv' & Nv); destruct (Par v Hv' Nv) as (x & _ & X); now rewrite (X u H), (X u' H')|].
  assert (Pa : forall v, In v (columns (t_ncols t)) -> exists ps, bn_parents bn v = Ok ps /\ NoDup ps /\ forall u, In u ps -> edge T u v).
  { intros v Hv'. rewrite <- K in Hv'. destruct (Acc v Hv') as (ps & vs & c & E1 & _ & _ & _ & _ & _ & ND). exists ps. split; [exact E1|]. split; [exact ND|]. intros u Hu.
    assert (Huk : In u (dkeys T)).
    { unfold bn_parents in E1. destruct (set_structure_ok T (Some vd) V Cl EV) as (bn2 & Eb2 & _ & _ & Hf2). { intros z H. apply In_dget. rewrite Kv, <- K. now apply (Permutation_in z PV). }
      rewrite Eb in Eb2. injection Eb2 as <-. destruct (Hf2 v (Permutation_in v (Permutation_sym PV) Hv')) as (d & D & Hp & _). unfold getitem in E1. rewrite D in E1. cbn [bind] in E1. injection E1 as <-. apply (Permutation_in u PV). rewrite Hp in Hu. apply filter_In in Hu. tauto. }
    destruct (Acc u Huk) as (_ & _ & c' & _ & _ & _ & E4 & _ & E6 & _). exists c'. split; [exact E6|]. now apply (Agr u v ps c'). }
  split.
  - destruct (Pa r Hr) as (ps & -> & _ & H). destruct ps as [|u q]; [reflexivity|]. exfalso. apply (Ed u r); [|reflexivity]. apply H. now left.
  - intros v Hv' Nv. destruct (Par v Hv' Nv) as (u & Hu & U). exists u. split; [|exact Hu]. destruct (Pa v Hv') as (ps & E1 & ND & H). rewrite E1. apply f_equal.
    assert (I : In u ps). { assert (Huk : In u (dkeys T)) by (rewrite K; now apply Ed in Hu). destruct (Acc u Huk) as (_ & _ & c' & _ & _ & _ & E4 & _ & E6 & _). apply (Agr u v ps c' E1 E4). destruct Hu as (c & D & Hc). congruence. }
    destruct ps as [|a q]; [destruct I|]. assert (a = u) by (apply U, H; now left). subst a. destruct q as [|b q]; [reflexivity|]. assert (b = u) by (apply U, H; right; now left). subst b. inversion ND as [|? ? N _]; subst. exfalso. apply N. now left.
Qed.
Print Assumptions C106_network.
Lemma ucon_sym S a b : uconnected S a b -> uconnected S b a.
Proof. induction 1 as [a b H|a|a b c _ IH1 _ IH2]; [apply rt_step; destruct H; [now right|now left]|apply rt_refl|now apply rt_trans with b]. Qed.
Lemma tree_spans n r T : tree_on n r T -> (forall u v, edge T u v <-> In (u, v) (all_edges T)) -> spans_columns n (all_edges T).
Proof.
  intros (K & Hr & Ed & _ & _ & Re & Len) EA. split; [intros u v H; apply EA in H; apply Ed in H; tauto|]. split; [exact Len|].
  assert (G : forall v, In v (columns n) -> uconnected (all_edges T) r v).
  { assert (RU : forall a b, reach T a b -> uconnected (all_edges T) a b) by (intros x y P; induction P as [a b H|a|a b c _ IH1 _ IH2]; [apply rt_step; left; now apply EA|apply rt_refl|now apply rt_trans with b]).
    intros v Hv. apply RU, Re, Hv. }
  intros a b Ha Hb. apply rt_trans with r; [apply ucon_sym|]; now apply G.
Qed.
(** a vertex connected to another one has a proper edge *)
Lemma ucon_proper S a b : uconnected S a b -> a <> b -> exists y, y <> a /\ uadj S a y.
Proof.
  intros H N. apply clos_rt_rt1n in H. induction H as [|a y b Hy _ IH]; [congruence|]. destruct (name_eq_dec y a) as [-> |Ny]; [now apply IH|]. now exists y.
Qed.
Lemma sum_weight_perm w S S' : Permutation S S' -> sum_weight w S = sum_weight w S'.
Proof. intros P. unfold sum_weight. apply qsum_perm. now apply Permutation_map. Qed.
(** up to three columns the tree has the largest total weight *)
Theorem C106_three_columns : forall mi w n S, 2 <= n <= 3 -> (forall i j, i < j < n -> mi (NInt i) (NInt j) = Ok (w (NInt i) (NInt j))) -> (forall u v, w u v = w v u) ->
  spans_columns n S -> exists T, cl_tree mi n = Ok T /\ spans_columns n (all_edges T) /\ (sum_weight w S <= sum_weight w (all_edges T))%Qc.
Proof.
  intros mi w n S Hn Hmi Sym (Sc & Sl & Scon). destruct (cl_tree_ok mi w n (proj1 Hn) Hmi Sym) as (T & r & s & ET & TT & Hs & Nrs & Max & Ers & Oth & ND & EA).
  exists T. split; [exact ET|]. split; [now apply (tree_spans n r)|]. pose proof TT as (K & Hr & Ed & Par & Ac & Re & Len).
  assert (Prop1 : forall a, In a (columns n) -> exists y, y <> a /\ uadj S a y).
  { intros a Ha. destruct (name_eq_dec a r) as [-> |N]; [apply (ucon_proper S r s); [now apply Scon|congruence]|apply (ucon_proper S a r); [now apply Scon|exact N]]. }
  assert (Wle : forall a b, In (a, b) S -> a <> b -> (w a b <= w r s)%Qc) by (intros a b H N; destruct (Sc a b H); now apply Max).
  apply EA in Ers. assert (C : n = 2 \/ n = 3) by lia. destruct C as [-> | ->].
  - destruct S as [|[a b] [|? ?]]; cbn in Sl; try lia. destruct (all_edges T) as [|e [|? ?]]; cbn in Len; try lia. destruct Ers as [-> |[]]. unfold sum_weight. cbn [map qsum fold_right fst snd].
    assert (N : a <> b). { intros ->. destruct (Prop1 r Hr) as (y & Ny & [[E|[]]|[E|[]]]); injection E as E1 E2; congruence. }
    pose proof (Wle a b (or_introl eq_refl) N). qclra.
  - assert (X : exists x, In x (columns 3) /\ x <> r /\ x <> s /\ forall v, In v (columns 3) -> v = r \/ v = s \/ v = x).
    { clear - Hr Hs Nrs. cbn in Hr, Hs. destruct Hr as [<-|[<-|[<-|[]]]], Hs as [<-|[<-|[<-|[]]]]; try congruence.
      - exists (NInt 2). cbn. intuition congruence.
      - exists (NInt 1). cbn. intuition congruence.
      - exists (NInt 2). cbn. intuition congruence.
      - exists (NInt 0). cbn. intuition congruence.
      - exists (NInt 1). cbn. intuition congruence.
      - exists (NInt 0). cbn. intuition congruence. }
    destruct X as (x & Hx & Nxr & Nxs & Cov). destruct (Par x Hx Nxr) as (u & Hu & _). destruct (Oth u x Hu Nxs) as [O1 O2]. apply EA in Hu.
    assert (WT : sum_weight w (all_edges T) = (w r s + w u x)%Qc).
    { assert (Pm : Permutation (all_edges T) [(r, s); (u, x)]).
      { apply NoDup_Permutation_bis; [exact ND|cbn; lia|]. intros e He. assert (NoDup [(r, s); (u, x)]) by (constructor; [intros [E|[]]; congruence|constructor; [intros []|constructor]]).
        assert (I : incl (all_edges T) [(r, s); (u, x)]) by (apply NoDup_length_incl; [assumption|cbn; lia|intros e' [<-|[<-|[]]]; assumption]). now apply I. }
      rewrite (sum_weight_perm w _ _ Pm). unfold sum_weight. cbn. ring. }
    rewrite WT. destruct S as [|[a b] [|[c d] [|? ?]]]; cbn in Sl; try lia. unfold sum_weight. cbn [map qsum fold_right fst snd].
    assert (Pr : a <> b /\ c <> d).
    { assert (G : forall p q g h, (forall v, In v (columns 3) -> exists y, y <> v /\ uadj [(p, q); (g, h)] v y) -> p = q -> False).
      { intros p q g h H ->. assert (V : forall v, In v (columns 3) -> v = g \/ v = h).
        { intros v Hv. destruct (H v Hv) as (y & Ny & [[E|[E|[]]]|[E|[E|[]]]]); injection E as E1 E2; subst; try congruence; auto. }
        destruct (V r Hr) as [-> | ->], (V s Hs) as [-> | ->], (V x Hx) as [-> | ->]; congruence. }
      split; intros E; [apply (G a b c d Prop1 E)|]. apply (G c d a b); [|exact E]. intros v Hv. destruct (Prop1 v Hv) as (y & Ny & A). exists y. split; [exact Ny|]. destruct A as [[A|[A|[]]]|[A|[A|[]]]]; injection A as -> ->; cbv [uadj In]; tauto. }
    destruct Pr as [P1 P2]. pose proof (Wle a b (or_introl eq_refl) P1) as W1. pose proof (Wle c d (or_intror (or_introl eq_refl)) P2) as W2.
    assert (WX : forall y, In y (columns 3) -> y <> x -> (w x y <= w u x)%Qc) by (intros y Hy Ny; rewrite (Sym x y); destruct (Cov y Hy) as [-> |[-> | ->]]; [exact O1|exact O2|congruence]).
    destruct (Prop1 x Hx) as (y & Ny & A). assert (Hy : In y (columns 3)) by (destruct A as [A|A]; apply Sc in A; tauto). specialize (WX y Hy Ny).
    destruct A as [[A|[A|[]]]|[A|[A|[]]]]; injection A as -> ->; try rewrite (Sym y x) in *; qclra.
Qed.
Print Assumptions C106_three_columns.

(** four or more columns: whenever the two heaviest pairs have no column in common the tree misses the second one
    and is not maximal *)
Theorem C106_not_maximal : forall mi w n a b c d, (forall i j, i < j < n -> mi (NInt i) (NInt j) = Ok (w (NInt i) (NInt j))) -> (forall u v, w u v = w v u) ->
  In a (columns n) -> In b (columns n) -> In c (columns n) -> In d (columns n) -> NoDup [a; b; c; d] -> (w c d < w a b)%Qc ->
  (forall u v, In u (columns n) -> In v (columns n) -> u <> v -> (u, v) <> (a, b) -> (u, v) <> (b, a) -> (u, v) <> (c, d) -> (u, v) <> (d, c) -> (w u v < w c d)%Qc) ->
  exists T S, cl_tree mi n = Ok T /\ ~ edge T c d /\ ~ edge T d c /\ spans_columns n (all_edges T) /\ spans_columns n S /\ (sum_weight w (all_edges T) < sum_weight w S)%Qc.
Proof.
  intros mi w n a b c d Hmi Sym Ha Hb Hc Hd N4 Lt Big. assert (Hn : 2 <= n).
  { unfold columns in Ha, Hb. apply in_map_iff in Ha as (i & <- & Hi). apply in_map_iff in Hb as (j & <- & Hj). apply in_seq in Hi, Hj. assert (i <> j) by (intros ->; inversion N4 as [|? ? K _]; subst; apply K; now left). lia. }
  destruct (cl_tree_ok mi w n Hn Hmi Sym) as (T & r & s & ET & TT & Hs & Nrs & Max & Ers & Oth & ND & EA).
  destruct (second_skipped mi w n Hn Hmi Sym a b c d T Ha Hb Hc Hd N4 Lt Big ET) as [Nc Nd]. pose proof TT as (K & Hr & Ed & Par & Ac & Re & Len).
  assert (Nab : a <> b) by (inversion N4 as [|? ? K' _]; subst; intros ->; apply K'; now left).
  assert (Dis : c <> a /\ c <> b /\ d <> a /\ d <> b). { inversion N4 as [|? ? K1 K2]; subst. inversion K2 as [|? ? K3 _]; subst. cbn in K1, K3. split; [intros ->; tauto|]. split; [intros ->; tauto|]. split; intros ->; tauto. }
  assert (Ncd : c <> d) by (intros ->; inversion N4 as [|? ? _ K']; subst; inversion K' as [|? ? _ K2]; subst; inversion K2 as [|? ? K3 _]; subst; apply K3; now left).
  assert (Rab : (r, s) = (a, b) \/ (r, s) = (b, a)).
  { specialize (Max a b Ha Hb Nab). destruct (eq_edge_dec (r, s) (a, b)) as [Q|Q1]; [now left|]. destruct (eq_edge_dec (r, s) (b, a)) as [Q|Q2]; [now right|]. exfalso. assert (W : (w r s <= w c d)%Qc); [|qclra].
    destruct (eq_edge_dec (r, s) (c, d)) as [Q|Q3]; [injection Q as -> ->; apply Qcle_refl|]. destruct (eq_edge_dec (r, s) (d, c)) as [Q|Q4]; [injection Q as -> ->; rewrite (Sym d c); apply Qcle_refl|]. apply Qclt_le_weak. now apply Big. }
  assert (Main : forall x y, In x (columns n) -> In y (columns n) -> x <> y -> x <> r -> x <> s -> ~ edge T y x -> (w y x = w c d) -> (forall p, edge T p x -> (w p x < w c d)%Qc) -> ~ reach T x y ->
    exists S, spans_columns n S /\ (sum_weight w (all_edges T) < sum_weight w S)%Qc).
  { intros x y Hx Hy Nxy Nr Ns Nyx Wyx Wp NR. destruct (Par x Hx Nr) as (p & Hp & Up). pose proof Hp as Ip. apply EA in Ip. apply in_split in Ip as (l1 & l2 & El). set (S := (y, x) :: l1 ++ l2).
    assert (Pm : Permutation (all_edges T) ((p, x) :: l1 ++ l2)) by (rewrite El; symmetry; apply Permutation_middle). exists S. split.
    - assert (ES : forall u v, edge T u v -> (u, v) <> (p, x) -> In (u, v) S).
      { intros u v H N. apply EA in H. apply (Permutation_in _ Pm) in H as [H|H]; [congruence|now right]. }
      split; [intros u v [H|H]; [injection H as <- <-; now split|]; assert (I : In (u, v) (all_edges T)) by (apply (Permutation_in _ (Permutation_sym Pm)); now right); apply EA in I; apply Ed in I; tauto|].
      split; [apply Permutation_length in Pm; cbn in *; lia|].
      assert (ToY : forall u v, reach T u v -> u = r -> ~ reach T x v -> uconnected S u v).
      { intros u v P. apply clos_rt_rtn1 in P. induction P as [|v z Hvz P IH]; intros Eu Nz; [apply rt_refl|]. apply rt_trans with v; [apply IH; [exact Eu|]; intros X; apply Nz; apply rt_trans with v; [exact X|now apply rt_step]|].
        apply rt_step. left. apply ES; [exact Hvz|]. intros Q. injection Q as -> ->. apply Nz. apply rt_refl. }
      assert (G : forall u v, reach T u v -> u = r -> uconnected S u v).
      { intros u v P. apply clos_rt_rtn1 in P. induction P as [|v z Hvz P IH]; intros Eu; [apply rt_refl|]. destruct (name_eq_dec z x) as [-> |Nz].
        - apply rt_trans with y; [apply ToY; [subst u; now apply Re|exact Eu|exact NR]|]. apply rt_step. left. now left.
        - apply rt_trans with v; [now apply IH|]. apply rt_step. left. apply ES; [exact Hvz|congruence]. }
      intros u v Hu Hv. apply rt_trans with r; [apply ucon_sym|]; (apply G; [now apply Re|reflexivity]).
    - rewrite (sum_weight_perm w _ _ Pm). unfold S, sum_weight. cbn [map qsum fold_right fst snd]. rewrite Wyx. specialize (Wp p Hp). qclra. }
  assert (Par_lt : forall x z, (x = c /\ z = d) \/ (x = d /\ z = c) -> forall p, edge T p x -> (w p x < w c d)%Qc).
  { intros x z Q p H. destruct (Ed p x H) as (Hp & Hx & _). apply Big; try assumption.
    - intros ->. apply (Ac x). now apply t_step.
    - intros E. injection E as -> ->. destruct Q as [[-> ->]|[-> ->]]; tauto.
    - intros E. injection E as -> ->. destruct Q as [[-> ->]|[-> ->]]; tauto.
    - intros E. injection E as -> ->. contradiction.
    - intros E. injection E as -> ->. contradiction. }
  assert (NrsC : c <> r /\ c <> s /\ d <> r /\ d <> s) by (destruct Rab as [E|E]; injection E as -> ->; tauto). destruct NrsC as (C1 & C2 & C3 & C4).
  assert (Sp : spans_columns n (all_edges T)) by now apply (tree_spans n r).
  assert (Dec : ~ reach T c d \/ ~ reach T d c).
  { destruct (in_dec name_eq_dec d (nx_reach T c)) as [I|I]; [|left; intros P; apply I; now apply nx_reach_spec]. right. intros P. apply nx_reach_spec in I. apply rt_cases in I as [E|I]; [congruence|]. apply (Ac c). apply tc_rt_tc with d; [exact I|exact P]. }
  destruct Dec as [NR|NR].
  - destruct (Main c d Hc Hd Ncd C1 C2 Nd (Sym d c)) as (S & S1 & S2); [apply (Par_lt c d); left; now split|exact NR|]. exists T, S. split; [exact ET|]. split; [exact Nc|]. split; [exact Nd|]. split; [exact Sp|]. split; assumption.
  - destruct (Main d c Hd Hc (not_eq_sym Ncd) C3 C4 Nc eq_refl) as (S & S1 & S2); [apply (Par_lt d c); right; now split|exact NR|]. exists T, S. split; [exact ET|]. split; [exact Nc|]. split; [exact Nd|]. split; [exact Sp|]. split; assumption.
Qed.
Print Assumptions C106_not_maximal.

(** concrete weights: four columns, 0-1 weighs 4, 2-3 weighs 3, 1-2 weighs 1, the rest 0 *)
Definition exCW (u v : name) : Qc :=
  match u, v with
  | NInt 0, NInt 1 | NInt 1, NInt 0 => Q2Qc 4
  | NInt 2, NInt 3 | NInt 3, NInt 2 => Q2Qc 3
  | NInt 1, NInt 2 | NInt 2, NInt 1 => Q2Qc 1
  | _, _ => Q2Qc 0
  end.
Definition exCmi (u v : name) : res Qc := Ok (exCW u v).
Lemma exCW_sym : forall u v, exCW u v = exCW v u.
Proof. intros [[|[|[|[|u]]]]|u] [[|[|[|[|v]]]]|v]; reflexivity. Qed.
Example C106_nonvacuous : 2 <= 4 /\ (forall i j, i < j < 4 -> exCmi (NInt i) (NInt j) = Ok (exCW (NInt i) (NInt j))) /\ (forall u v, exCW u v = exCW v u) /\
  cl_tree exCmi 4 = Ok [(NInt 0, [NInt 1; NInt 3]); (NInt 1, [NInt 2]); (NInt 2, []); (NInt 3, [])].
Proof. split; [lia|]. split; [reflexivity|]. split; [exact exCW_sym|]. vm_compute. reflexivity. Qed.
Example C106_nonvacuous_three : 2 <= 3 <= 3 /\ spans_columns 3 [(NInt 0, NInt 1); (NInt 2, NInt 1)] /\ cl_tree exCmi 3 = Ok [(NInt 0, [NInt 1]); (NInt 1, [NInt 2]); (NInt 2, [])].
Proof.
  split; [lia|]. split; [|vm_compute; reflexivity]. split; [intros u v [E|[E|[]]]; injection E as <- <-; cbn; tauto|]. split; [reflexivity|].
  assert (G : forall v, In v (columns 3) -> uconnected [(NInt 0, NInt 1); (NInt 2, NInt 1)] (NInt 1) v).
  { intros v [<-|[<-|[<-|[]]]]; [apply rt_step; right; now left|apply rt_refl|apply rt_step; right; right; now left]. }
  intros a b Ha Hb. apply rt_trans with (NInt 1); [apply ucon_sym|]; now apply G.
Qed.
Example C106_nonvacuous_not_maximal : In (NInt 0) (columns 4) /\ In (NInt 1) (columns 4) /\ In (NInt 2) (columns 4) /\ In (NInt 3) (columns 4) /\
  NoDup [NInt 0; NInt 1; NInt 2; NInt 3] /\ (exCW (NInt 2) (NInt 3) < exCW (NInt 0) (NInt 1))%Qc /\
  (forall u v, In u (columns 4) -> In v (columns 4) -> u <> v -> (u, v) <> (NInt 0, NInt 1) -> (u, v) <> (NInt 1, NInt 0) -> (u, v) <> (NInt 2, NInt 3) -> (u, v) <> (NInt 3, NInt 2) -> (exCW u v < exCW (NInt 2) (NInt 3))%Qc).
Proof.
  split; [cbn; tauto|]. split; [cbn; tauto|]. split; [cbn; tauto|]. split; [cbn; tauto|]. split; [repeat constructor; cbn; intuition congruence|]. split; [reflexivity|].
  intros u v Hu Hv N N1 N2 N3 N4. cbn in Hu, Hv. destruct Hu as [<-|[<-|[<-|[<-|[]]]]], Hv as [<-|[<-|[<-|[<-|[]]]]]; try congruence; reflexivity.
Qed.
