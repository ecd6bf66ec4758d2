(** Properties_Graph.v -- theorems C20 to C26, C29 to C35, C60, C64.
    Specification: SpecFactor.v, SpecGraph.v, SpecMst.v. *)
From Verif Require Import Py Num BayesNet Factor SpecFactor Radix FactorOut SpecInference Graph SpecGraph GraphTheory GraphTopsort
  GraphNet GraphFacts SpecMst Mst Chordal Examples GraphCheck.
Open Scope nat_scope.

(** ** C20 *)
Theorem C20_topsort_reachable : forall E, closed_edges E ->
  exists l, topsort E None = Ok l /\ NoDup l /\ forall v, In v l <-> exists r, parentless E r /\ reach E r v.
Proof.
  intros E C. destruct (topsort_from_ok E (topsort_roots E) C) as (l & El & ND & R & _).
  { intros x Hx. apply filter_In in Hx. tauto. }
  exists l. split; [exact El|]. split; [exact ND|]. intros v. rewrite R.
  split; intros (r & Hr & P); exists r; (split; [|exact P]); now apply (In_topsort_roots E r (proj1 C)).
Qed.
Print Assumptions C20_topsort_reachable.
Theorem C20_topsort_root : forall E r, closed_edges E -> In r (dkeys E) ->
  exists l, topsort E (Some r) = Ok l /\ NoDup l /\ forall v, In v l <-> reach E r v.
Proof.
  intros E r C Hr. destruct (topsort_from_ok E [r] C) as (l & El & ND & R & _).
  { intros x [<-|[]]. assumption. }
  exists l. split; [exact El|]. split; [exact ND|]. intros v. rewrite R. split.
  - intros (s & [<-|[]] & P). exact P.
  - intros P. exists r. split; [now left|exact P].
Qed.
Print Assumptions C20_topsort_root.
Theorem C20_topsort_acyclic : forall E, closed_edges E -> acyclic E ->
  exists l, topsort E None = Ok l /\ Permutation l (dkeys E).
Proof.
  intros E C A. destruct (C20_topsort_reachable E C) as (l & El & ND & R). exists l. split; [exact El|].
  apply NoDup_Permutation; [exact ND|apply C|]. intros v. rewrite R. split.
  - intros (r & [Hr _] & P). destruct (rt_cases _ _ _ P) as [<-|T]; [exact Hr|].
    destruct (tc_last _ _ _ T) as (w & _ & Hw). now apply (proj2 C w).
  - intros Hv. destruct (from_source (edge E) (edge_dec E) (dkeys E) v (proj1 C) A) as (s & Hs & Src & P).
    + intros u w _ (c & D & _). now apply dget_Some_In in D.
    + exact Hv.
    + exists s. split; [split; assumption|exact P].
Qed.
Print Assumptions C20_topsort_acyclic.
(** a vertex on or only below a directed cycle is silently dropped *)
Theorem C20_topsort_drops : forall E l v, closed_edges E -> topsort E None = Ok l ->
  (forall r, reach E r v -> exists u, edge E u r) -> ~ In v l.
Proof.
  intros E l v C El H I. destruct (C20_topsort_reachable E C) as (l' & El' & _ & R).
  rewrite El in El'. inversion El'; subst l'. apply R in I as (r & [_ Hr] & P).
  destruct (H r P) as (u & Hu). now apply (Hr u).
Qed.
Print Assumptions C20_topsort_drops.
Theorem C20_missing_root : forall E r, ~ In r (dkeys E) -> topsort E (Some r) = Raise KeyError.
Proof.
  intros E r H. unfold topsort, topsort_from, topsort_fuel. simpl length. cbn [Nat.add topsort_loop mem existsb].
  unfold getitem. apply dget_None in H. now rewrite H.
Qed.
Print Assumptions C20_missing_root.
Theorem C20_dfs_postorder : forall E root l, topsort E root = Ok l -> dfs_postorder E root = Ok (rev l).
Proof. intros E root l H. unfold dfs_postorder. now rewrite H. Qed.
Print Assumptions C20_dfs_postorder.
Definition exDag : edict := [(exA, [exC; exB]); (exB, [exC]); (exC, [])].
Definition exCyc : edict := [(exA, [exB]); (exB, [exC]); (exC, [exB]); (nm "D", [])].
Example C20_nonvacuous : closed_edges exDag /\ acyclic exDag /\ closed_edges exCyc /\ topsort exCyc None = Ok [exA; nm "D"; exB; exC].
Proof. split; [now apply closedb_ok|]. split; [now apply acyclicb_ok|]. split; [now apply closedb_ok|reflexivity]. Qed.
Definition exLoop : edict := [(exA, []); (exB, [exC]); (exC, [exB])].
Example C20_drops_nonvacuous : closed_edges exLoop /\ topsort exLoop None = Ok [exA] /\ forall r, reach exLoop r exB -> exists u, edge exLoop u r.
Proof.
  split; [now apply closedb_ok|]. split; [reflexivity|]. intros r P.
  assert (G : r = exB \/ r = exC).
  { apply clos_rt_rt1n in P. remember exB as b eqn:Eb. induction P as [|x y z Hxy P IH]; [auto|]. subst z.
    destruct (IH eq_refl) as [-> | ->]; apply edge_in_edge in Hxy; unfold edge_in, exLoop in Hxy; cbn [dget] in Hxy;
      destruct (name_eqb_spec x exA); subst; try discriminate; destruct (name_eqb_spec x exB); subst; auto;
      destruct (name_eqb_spec x exC); subst; auto; discriminate. }
  destruct G as [-> | ->]; [exists exC|exists exB]; apply edge_in_edge; reflexivity.
Qed.

(** ** C21 *)
Theorem C21_after_some_parent : forall E l, closed_edges E -> topsort E None = Ok l ->
  forall p v q, l = p ++ v :: q -> parentless E v \/ exists u, In u p /\ edge E u v.
Proof.
  intros E l C El p v q Q. destruct (topsort_from_ok E (topsort_roots E) C) as (l' & El' & _ & _ & O).
  { intros x Hx. apply filter_In in Hx. tauto. }
  unfold topsort in El. rewrite El in El'. inversion El'; subst l'. destruct (O p v q Q) as [H|H]; [|now right].
  left. now apply (In_topsort_roots E v (proj1 C)).
Qed.
Print Assumptions C21_after_some_parent.
Theorem C21_forest : forall E l, closed_edges E -> topsort E None = Ok l ->
  (forall u u' v, edge E u v -> edge E u' v -> u = u') -> topological E l.
Proof.
  intros E l C El F p v q u Q Hu. destruct (C21_after_some_parent E l C El p v q Q) as [[_ N]|(w & Iw & Hw)].
  - now apply N in Hu.
  - now rewrite (F u w v Hu Hw).
Qed.
Print Assumptions C21_forest.
Theorem C21_refuted : exists E l, closed_edges E /\ acyclic E /\ topsort E None = Ok l /\ ~ topological E l.
Proof.
  exists exDag, [exA; exC; exB]. split; [now apply closedb_ok|]. split; [now apply acyclicb_ok|]. split; [reflexivity|].
  intros T. assert (X : In exB [exA]).
  { apply (T [exA] exC [exB]); [reflexivity|]. apply edge_in_edge. reflexivity. }
  destruct X as [X|[]]. discriminate.
Qed.
Print Assumptions C21_refuted.
Definition exForest : edict := [(exC, []); (exA, [exB; exC]); (exB, [])].
Example C21_nonvacuous : closed_edges exForest /\ topsort exForest None = Ok [exA; exB; exC] /\
  (forall u u' v, edge exForest u v -> edge exForest u' v -> u = u').
Proof.
  split; [now apply closedb_ok|]. split; [reflexivity|].
  assert (G : forall u v, edge exForest u v -> u = exA).
  { intros u v H. apply edge_in_edge in H. unfold edge_in, exForest in H. cbn [dget] in H.
    destruct (name_eqb_spec u exC); [discriminate|]. destruct (name_eqb_spec u exA); [assumption|].
    destruct (name_eqb_spec u exB); discriminate. }
  intros u u' v H H'. rewrite (G _ _ H), (G _ _ H'). reflexivity.
Qed.

(** ** C22 *)
Theorem C22_set_structure : forall E vd, closed_edges E -> acyclic E -> (forall v, In v (dkeys E) -> In v (dkeys vd)) ->
  exists bn, set_structure E (Some vd) = Ok bn /\ Permutation (bn_nodes bn) (dkeys E) /\
    (forall v, In v (dkeys E) -> exists ps vs c, bn_parents bn v = Ok ps /\ bn_values bn v = Ok vs /\ bn_cpt bn v = Ok [] /\
       bn_children bn v = Ok c /\ dget vd v = Some vs /\ dget E v = Some c /\ NoDup ps) /\
    (forall u v ps c, bn_parents bn v = Ok ps -> bn_children bn u = Ok c -> (In u ps <-> In v c)).
Proof.
  intros E vd C A Hvd. destruct (C20_topsort_acyclic E C A) as (V & EV & P).
  destruct (set_structure_ok E (Some vd) V C EV) as (bn & Eb & Hv & He & Hf).
  { intros v Hv. apply In_dget, Hvd. now apply (Permutation_in v P). }
  assert (ND : NoDup V) by (apply (Permutation_NoDup (Permutation_sym P)); apply C).
  exists bn. split; [exact Eb|]. split; [unfold bn_nodes; now rewrite Hv|]. split.
  - intros v Hk. assert (Iv : In v V) by (now apply (Permutation_in v (Permutation_sym P))).
    destruct (Hf v Iv) as (d & Hd & Hp & Hc & Hvals). destruct (In_dget vd v (Hvd v Hk)) as (vs & Evs).
    destruct (In_dget E v Hk) as (c & Ec). exists (f_parents d), vs, c.
    unfold bn_parents, bn_values, bn_cpt, bn_children, getitem. rewrite Hd, He, Ec. cbn [bind]. rewrite Hc, Hvals, Evs, Hp.
    split; [reflexivity|]. split; [reflexivity|]. split; [reflexivity|]. split; [reflexivity|]. split; [reflexivity|].
    split; [reflexivity|]. now apply NoDup_filter.
  - intros u v ps c Hps Hc. unfold bn_parents, bn_children, getitem in *. rewrite He in Hc.
    destruct (dget E u) as [c'|] eqn:Eu; [|discriminate]. inversion Hc; subst c'. clear Hc.
    destruct (dget (bn_F bn) v) as [d|] eqn:Ed; [|discriminate]. cbn [bind] in Hps. inversion Hps; subst ps. clear Hps.
    destruct (in_dec name_eq_dec v V) as [Iv|Nv].
    + destruct (Hf v Iv) as (d' & Hd' & Hp & _). rewrite Ed in Hd'. inversion Hd'; subst d'. rewrite Hp, filter_In, edge_in_edge.
      split; [intros [_ (c' & D' & H)]; rewrite Eu in D'; now inversion D'; subst|].
      intros H. split; [|exists c; auto]. apply (Permutation_in u (Permutation_sym P)). now apply dget_Some_In in Eu.
    + (* F only has entries for the nodes *)
      exfalso. apply Nv. clear - Eb Ed Hv. unfold set_structure in Eb.
      destruct (topsort E None) as [V'|]; cbn [bind] in Eb; [|discriminate].
      match type of Eb with bind ?m _ = _ => destruct m as [F|] eqn:EF; cbn [bind] in Eb; [|discriminate] end.
      inversion Eb; subst bn. simpl in *. subst V'. assert (K : In v (dkeys F)) by (apply dget_Some_In in Ed; exact Ed). clear Eb Ed.
      assert (G : forall l F0 F1, foldM (fun F rv =>
            do flags <- mapM (fun p => do c <- getitem E p ;; Ok (p, mem rv c)) V ;;
            let ps := map fst (filter snd flags) in
            do vs <- getitem vd rv ;;
            Ok (dset F rv (mkF ps vs []))) l F0 = Ok F1 -> forall x, In x (dkeys F1) -> In x (dkeys F0) \/ In x l).
      { induction l as [|a l IH]; intros F0 F1 H x Hx; cbn [foldM] in H; [inversion H; subst; now left|].
        destruct (mapM _ V) as [fl|]; cbn [bind] in H; [|discriminate]. destruct (getitem vd a) as [vs|]; cbn [bind] in H; [|discriminate].
        destruct (IH _ _ H x Hx) as [K1|K1]; [|right; now right]. apply In_dkeys_dset in K1 as [-> |K1]; [right; now left|now left]. }
      destruct (G V [] F EF v K) as [[]|I]. exact I.
Qed.
Print Assumptions C22_set_structure.
Definition ex_vd : dict (list name) := [(exA, [nm "0"; nm "1"]); (exB, [nm "x"; nm "y"; nm "z"]); (exC, [nm "0"; nm "1"])].
Example C22_nonvacuous : closed_edges exDag /\ acyclic exDag /\ (forall v, In v (dkeys exDag) -> In v (dkeys ex_vd)) /\
  (do bn <- set_structure exDag (Some ex_vd) ;; do p <- bn_parents bn exC ;; Ok (bn_nodes bn, p)) = Ok ([exA; exC; exB], [exA; exB]).
Proof. split; [now apply closedb_ok|]. split; [now apply acyclicb_ok|]. split; [intros v H; exact H|reflexivity]. Qed.

(** ** C23: a CPT position [i] matches val_dict when the assignment it stands for agrees *)
Definition position_of (bn : bayesnet) (target : name) (a : asg) (i : nat) : Prop :=
  valid (ncard bn) (target :: nparents bn target) a /\ radix (ncard bn) (target :: nparents bn target) a = i.
Theorem C23_cpt_indices : forall bn target vd, wfnet bn -> In target (bn_V bn) ->
  incl (map fst vd) (target :: nparents bn target) -> (forall rv x, In (rv, x) vd -> In x (nvalues bn rv)) ->
  exists idx, cpt_indices bn target vd = Ok idx /\ NoDup idx /\
    forall i, In i idx <-> exists a, position_of bn target a i /\
        forall rv x, In (rv, x) vd -> nth_error (nvalues bn rv) (a rv) = Some x.
Proof.
  intros bn target vd W Ht I K. destruct (cpt_indices_ok bn target vd W Ht I) as (idx & E & ND & H).
  exists idx. split; [exact E|]. split; [exact ND|]. intros i. rewrite H.
  assert (Q : forall a rv x, In (rv, x) vd -> (a rv = used_index bn rv x <-> nth_error (nvalues bn rv) (a rv) = Some x)).
  { intros a rv x Hx. unfold used_index, val_index. destruct (index_of_In _ _ (K rv x Hx)) as (j & Hj). rewrite Hj.
    assert (Hrv : In rv (bn_V bn)).
    { destruct (I rv) as [<-|P]; [apply in_map_iff; exists (rv, x); auto|exact Ht|]. now apply (wn_par _ W target Ht). }
    destruct (wn_vals _ W rv Hrv) as [NDv _]. split.
    - intros ->. now apply index_of_Some.
    - intros N. apply (index_of_nth _ _ _ NDv) in N. congruence. }
  split; intros (a & A).
  - destruct A as (A1 & A2 & A3). exists a. split; [split; assumption|]. intros rv x Hx. apply Q; auto.
  - destruct A as ((A1 & A2) & A3). exists a. split; [assumption|]. split; [assumption|]. intros rv x Hx. apply Q; auto.
Qed.
Print Assumptions C23_cpt_indices.
(** with every scope variable given there is exactly one position *)
Theorem C23_full_assignment : forall bn target vd a, wfnet bn -> In target (bn_V bn) ->
  (forall rv, In rv (map fst vd) <-> In rv (target :: nparents bn target)) ->
  (forall rv x, In (rv, x) vd -> nth_error (nvalues bn rv) (a rv) = Some x) ->
  cpt_indices bn target vd = Ok [radix (ncard bn) (target :: nparents bn target) a].
Proof.
  intros bn target vd a W Ht I K. destruct (C23_cpt_indices bn target vd W Ht) as (idx & E & ND & H).
  { intros rv. apply I. }
  { intros rv x Hx. apply K in Hx. now apply nth_error_In in Hx. }
  rewrite E. f_equal.
  assert (V : valid (ncard bn) (target :: nparents bn target) a).
  { intros v Hv. apply I, in_map_iff in Hv as ([rv x] & <- & Hx). simpl. apply K in Hx.
    assert (L : a rv < length (nvalues bn rv)) by (apply nth_error_Some; congruence).
    unfold ncard, nvalues in *. destruct (dget (bn_F bn) rv); [exact L|simpl in L; lia]. }
  assert (U : forall i, In i idx <-> i = radix (ncard bn) (target :: nparents bn target) a).
  { intros i. rewrite H. split.
    - intros (b & [Vb Rb] & Hb). rewrite <- Rb. apply radix_ext. intros v Hv.
      assert (Hv' := Hv). apply I, in_map_iff in Hv' as ([rv x] & <- & Hx). simpl in *.
      assert (N1 := Hb rv x Hx). assert (N2 := K rv x Hx).
      assert (Hrv : In rv (bn_V bn)) by (destruct Hv as [<-|P]; [exact Ht|now apply (wn_par _ W target Ht)]).
      destruct (wn_vals _ W rv Hrv) as [NDv _]. apply (index_of_nth _ _ _ NDv) in N1, N2. congruence.
    - intros ->. exists a. split; [split; [assumption|reflexivity]|assumption]. }
  destruct idx as [|i [|j r]].
  - exfalso. assert (X : In (radix (ncard bn) (target :: nparents bn target) a) []) by now apply U. destruct X.
  - f_equal. apply U. now left.
  - exfalso. inversion ND; subst. apply H2. left. transitivity (radix (ncard bn) (target :: nparents bn target) a); [|symmetry]; apply U; simpl; auto.
Qed.
Print Assumptions C23_full_assignment.
(** an unknown value is treated as the last value of the variable *)
Theorem C23_unknown_value : forall bn target rv x vd last, wfnet bn -> In target (bn_V bn) ->
  In rv (target :: nparents bn target) -> incl (map fst vd) (target :: nparents bn target) ->
  ~ In x (nvalues bn rv) -> nth_error (nvalues bn rv) (ncard bn rv - 1) = Some last ->
  exists i j, cpt_indices bn target ((rv, x) :: vd) = Ok i /\ cpt_indices bn target ((rv, last) :: vd) = Ok j /\ forall n, In n i <-> In n j.
Proof.
  intros bn target rv x vd last W Ht Hrv I Nx Hl.
  destruct (cpt_indices_ok bn target ((rv, x) :: vd) W Ht) as (i & Ei & _ & Hi); [intros y [<-|Hy]; auto|].
  destruct (cpt_indices_ok bn target ((rv, last) :: vd) W Ht) as (j & Ej & _ & Hj); [intros y [<-|Hy]; auto|].
  exists i, j. split; [exact Ei|]. split; [exact Ej|]. intros n. rewrite Hi, Hj.
  assert (U : used_index bn rv x = used_index bn rv last).
  { unfold used_index, val_index. apply index_of_None in Nx. rewrite Nx.
    assert (Hv : In rv (bn_V bn)) by (destruct Hrv as [<-|P]; [exact Ht|now apply (wn_par _ W target Ht)]).
    destruct (wn_vals _ W rv Hv) as [NDv _]. now rewrite (index_of_nth _ _ _ NDv Hl). }
  split; intros (a & A1 & A2 & A3); exists a; (split; [assumption|split; [assumption|]]); intros rv' x' [Q|Q]; try (now apply A3; right);
    inversion Q; subst; [rewrite <- U|rewrite U]; apply A3; now left.
Qed.
Print Assumptions C23_unknown_value.
Example C23_nonvacuous : wfnet ex3 /\ cpt_indices ex3 exC [(exB, nm "1"); (exC, nm "0")] = Ok [4; 6] /\
  cpt_indices ex3 exC [(exB, nm "nonsense"); (exC, nm "0")] = Ok [8; 10].
Proof. split; [exact ex3_wf|]. split; reflexivity. Qed.

(** ** C24 *)
Theorem C24_strides_agree : forall bn v n, wfnet bn -> In v (bn_V bn) -> In n (v :: nparents bn v) ->
  exists f s, factor_init bn v = Ok f /\ bn_stride bn v n = Ok s /\ dget (f_stride f) n = Some s.
Proof.
  intros bn v n W Hv Hn. destruct (init_ok bn v W Hv) as (f & E & _ & _ & _ & _ & Run & _).
  apply in_split in Hn as (p & q & Q). exists f, (size (ncard bn) p). split; [exact E|].
  split; [now apply (bn_stride_ok bn v p n q)|]. rewrite Q in Run. apply running_app in Run as [_ Run]. simpl in Run.
  rewrite Nat.add_0_r in Run. apply Run.
Qed.
Print Assumptions C24_strides_agree.
Lemma value_indices_sum f vd a : (forall rv x, In (rv, x) vd -> exists s, bn_value_idx (f_bn f) rv x = Ok (Z.of_nat (a rv)) /\ dget (f_stride f) rv = Some s) ->
  value_indices f vd = Ok (Z.of_nat (dot (stride_key (f_stride f)) (map fst vd) a)).
Proof.
  unfold value_indices. intros H.
  assert (G : forall acc, foldM (fun acc kv => do i <- bn_value_idx (f_bn f) (fst kv) (snd kv) ;; do s <- getitem (f_stride f) (fst kv) ;;
     Ok (acc + i * Z.of_nat s)%Z) vd acc = Ok (acc + Z.of_nat (dot (stride_key (f_stride f)) (map fst vd) a))%Z).
  { induction vd as [|[rv x] r IH]; intros acc; [cbn; f_equal; lia|]. cbn [foldM fst snd].
    destruct (H rv x (or_introl eq_refl)) as (s & -> & Hs). cbn [bind]. unfold getitem. rewrite Hs. cbn [bind].
    rewrite IH by (intros; apply H; now right). f_equal. unfold dot. cbn [map nsum fold_right fst]. unfold stride_key at 2. rewrite Hs.
    fold (nsum (map (fun v => a v * stride_key (f_stride f) v) (map fst r))). lia. }
  now rewrite G.
Qed.
Theorem C24_same_index : forall bn v vd, wfnet bn -> In v (bn_V bn) -> NoDup (map fst vd) ->
  (forall rv, In rv (map fst vd) <-> In rv (v :: nparents bn v)) -> (forall rv x, In (rv, x) vd -> In x (nvalues bn rv)) ->
  exists f i, factor_init bn v = Ok f /\ value_indices f vd = Ok (Z.of_nat i) /\ cpt_indices bn v vd = Ok [i].
Proof.
  intros bn v vd W Hv ND I K. destruct (init_ok bn v W Hv) as (f & E & Sc & _ & Bn & _ & Run & R).
  set (a := fun rv => match dget vd rv with Some x => match val_index bn rv x with Some i => i | None => 0 end | None => 0 end).
  assert (A : forall rv x, In (rv, x) vd -> index_of x (nvalues bn rv) = Some (a rv)).
  { intros rv x Hx. unfold a. assert (dget vd rv = Some x) as -> by now apply In_dget_dict. unfold val_index.
    destruct (index_of_In _ _ (K rv x Hx)) as (i & ->). reflexivity. }
  exists f, (radix (ncard bn) (v :: nparents bn v) a). split; [exact E|]. split.
  - rewrite (value_indices_sum f vd a).
    + f_equal. f_equal. rewrite (dot_perm _ _ (v :: nparents bn v)).
      * rewrite (running_dot _ _ _ _ _ Run). lia.
      * apply NoDup_Permutation; [exact ND|now apply (wn_scope _ W)|exact I].
    + intros rv x Hx. rewrite Bn. assert (Hs : In rv (v :: nparents bn v)) by (apply I, in_map_iff; exists (rv, x); auto).
      destruct R as [Wf _]. assert (Hk : In rv (dkeys (f_stride f))).
      { apply (Permutation_in rv (Permutation_sym (wf_skeys _ _ Wf))). now rewrite Sc. }
      destruct (In_dget _ _ Hk) as (s & Hs'). exists s. split; [|exact Hs'].
      assert (Hrv : In rv (bn_V bn)) by (destruct Hs as [<-|P]; [exact Hv|now apply (wn_par _ W v Hv)]).
      destruct (wn_F _ W rv Hrv) as (d & Hd). unfold bn_value_idx, getitem. rewrite Hd. cbn [bind].
      apply A in Hx. unfold nvalues in Hx. rewrite Hd in Hx. now rewrite Hx.
  - apply (C23_full_assignment bn v vd a W Hv I). intros rv x Hx. apply index_of_Some. now apply A.
Qed.
Print Assumptions C24_same_index.
Example C24_nonvacuous : (do f <- factor_init ex3 exC ;; value_indices f [(exB, nm "1"); (exC, nm "0"); (exA, nm "1")]) = Ok 6%Z /\
  cpt_indices ex3 exC [(exB, nm "1"); (exC, nm "0"); (exA, nm "1")] = Ok [6].
Proof. split; reflexivity. Qed.

(** ** C25 *)
Definition parent_of (bn : bayesnet) (u v : name) : Prop := In v (bn_V bn) /\ In u (nparents bn v).
Theorem C25_moral_graph : forall bn, graph_ok bn -> exists es, moralized_edges bn = Ok es /\ NoDup es /\
  (forall a b, uadj es a b <-> parent_of bn a b \/ parent_of bn b a \/ (a <> b /\ exists c, parent_of bn a c /\ parent_of bn b c)) /\
  (forall a, In (a, a) es -> parent_of bn a a).
Proof.
  intros bn G. destruct (moralized_edges_ok bn G) as (es & E & ND & M1 & M2 & M3). exists es. split; [exact E|]. split; [exact ND|]. split.
  - intros a b. split.
    + intros [H|H]; destruct (M1 _ _ H) as [P|(N & c & Hc & P1 & P2)].
      * now left.
      * right. right. split; [exact N|]. exists c. split; split; assumption.
      * right. now left.
      * right. right. split; [congruence|]. exists c. split; split; assumption.
    + intros [[H1 H2]|[[H1 H2]|(N & c & [H1 H2] & [_ H3])]].
      * left. now apply M2.
      * right. now apply M2.
      * apply M3. split; [exact N|]. exists c. auto.
  - intros a H. destruct (M1 _ _ H) as [P|(N & _)]; [exact P|congruence].
Qed.
Print Assumptions C25_moral_graph.
Example ex3_graph : graph_ok ex3 /\ agree ex3.
Proof. split; [now apply graph_okb_ok|now apply agreeb_ok]. Qed.
Definition exV : bayesnet := mkBN [exA; exB; exC] [(exA, [exC]); (exB, [exC]); (exC, [])]
  [(exA, mkF [] [] []); (exB, mkF [] [] []); (exC, mkF [exA; exB] [] [])].
Example C25_nonvacuous : graph_ok exV /\ agree exV /\ moralized_edges exV = Ok [(exA, exC); (exA, exB); (exB, exC)].
Proof. split; [now apply graph_okb_ok|]. split; [now apply agreeb_ok|reflexivity]. Qed.

(** ** C26 *)
Theorem C26_markov_blanket : forall bn, graph_ok bn -> exists mb, markov_blanket bn = Ok mb /\
  forall x, In x (bn_V bn) -> exists l, dget mb x = Some l /\
    forall y, In y l <-> In y (nparents bn x) \/ edge (bn_E bn) x y \/ (y <> x /\ exists c, edge (bn_E bn) x c /\ In y (nparents bn c)).
Proof.
  intros bn G. destruct (markov_blanket_ok bn G) as (mb & E & H). exists mb. split; [exact E|]. intros x Hx.
  eexists. split; [now apply H|]. intros y. rewrite !in_app_iff, In_nchildren, In_spouses. reflexivity.
Qed.
Print Assumptions C26_markov_blanket.
Theorem C26_symmetric : forall bn mb x y lx ly, graph_ok bn -> agree bn -> markov_blanket bn = Ok mb ->
  In x (bn_V bn) -> In y (bn_V bn) -> dget mb x = Some lx -> dget mb y = Some ly -> (In y lx <-> In x ly).
Proof.
  intros bn mb x y lx ly G A E Hx Hy Dx Dy. destruct (C26_markov_blanket bn G) as (mb' & E' & H).
  rewrite E in E'. inversion E'; subst mb'.
  assert (W : forall x y lx ly, In x (bn_V bn) -> In y (bn_V bn) -> dget mb x = Some lx -> dget mb y = Some ly -> In y lx -> In x ly).
  { clear x y lx ly Hx Hy Dx Dy. intros x y lx ly Hx Hy Dx Dy I.
    destruct (H x Hx) as (l & Dl & Hl). rewrite Dx in Dl. inversion Dl; subst l. apply Hl in I.
    destruct (H y Hy) as (l & Dl' & Hl'). rewrite Dy in Dl'. inversion Dl'; subst l. apply Hl'.
    destruct I as [I|[I|(N & c & C1 & C2)]].
    - right. left. now apply (A y x Hy Hx).
    - left. now apply (A x y Hx Hy).
    - right. right. split; [congruence|]. exists c.
      assert (Hc : In c (bn_V bn)).
      { destruct (go_E _ G x Hx) as (cs & D & _ & Ic). destruct C1 as (cs' & D' & K). rewrite D in D'. inversion D'; subst. now apply Ic. }
      split; [now apply (A y c Hy Hc)|now apply (A x c Hx Hc)]. }
  split; eauto.
Qed.
Print Assumptions C26_symmetric.
Theorem C26_irreflexive : forall bn mb x l, graph_ok bn -> agree bn -> acyclic (bn_E bn) -> markov_blanket bn = Ok mb ->
  In x (bn_V bn) -> dget mb x = Some l -> ~ In x l.
Proof.
  intros bn mb x l G A Ac E Hx D I. destruct (C26_markov_blanket bn G) as (mb' & E' & H).
  rewrite E in E'. inversion E'; subst mb'. destruct (H x Hx) as (l' & Dl & Hl). rewrite D in Dl. inversion Dl; subst l'.
  apply Hl in I as [I|[I|(N & _)]]; [|now apply (Ac x), t_step|congruence].
  apply (Ac x), t_step. now apply (A x x Hx Hx).
Qed.
Print Assumptions C26_irreflexive.
Example C26_nonvacuous : graph_ok exV /\ agree exV /\ acyclic (bn_E exV) /\
  markov_blanket exV = Ok [(exA, [exC; exB]); (exB, [exC; exA]); (exC, [exA; exB])].
Proof. split; [now apply graph_okb_ok|]. split; [now apply agreeb_ok|]. split; [now apply acyclicb_ok|reflexivity]. Qed.

(** ** C29 *)
Theorem C29_edges_count : forall bn, graph_ok bn -> exists es, bn_edges bn = Ok es /\ bn_num_edges bn = Ok (length es) /\ NoDup es /\
  forall u v, In (u, v) es <-> In u (bn_V bn) /\ edge (bn_E bn) u v.
Proof.
  intros bn G. exists (edge_list bn). split; [now apply bn_edges_ok|]. split; [now apply bn_num_edges_ok|].
  split; [now apply NoDup_edge_list|]. intros u v. apply In_edge_list.
Qed.
Print Assumptions C29_edges_count.
Theorem C29_handshake : forall bn, graph_ok bn -> agree bn -> exists ds m, mapM (bn_degree bn) (bn_nodes bn) = Ok ds /\
  bn_num_edges bn = Ok m /\ nsum ds = 2 * m.
Proof.
  intros bn G A. exists (map (fun v => length (nparents bn v) + length (nchildren bn v)) (bn_V bn)), (length (edge_list bn)).
  split; [apply mapM_ok; intros v Hv; now apply bn_degree_ok|]. split; [now apply bn_num_edges_ok|]. now apply degree_sum.
Qed.
Print Assumptions C29_handshake.
Theorem C29_adj_list : forall bn, graph_ok bn -> exists adj, adj_list bn = Ok adj /\ length adj = length (bn_nodes bn) /\
  forall i u, nth_error (bn_nodes bn) i = Some u -> exists row cs, nth_error adj i = Some row /\ bn_children bn u = Ok cs /\
    map (fun j => nth_error (bn_nodes bn) j) row = map Some cs.
Proof.
  intros bn G. destruct (adj_list_ok bn G) as (adj & E & L & H). exists adj. split; [exact E|]. split; [exact L|].
  intros i u Hu. destruct (H i u Hu) as (row & R1 & R2). exists row, (nchildren bn u). split; [exact R1|].
  split; [|exact R2]. apply go_children; [exact G|]. now apply nth_error_In in Hu.
Qed.
Print Assumptions C29_adj_list.
(** has_edge answers membership in edges(); node_idx is the position in nodes(), -1 for a stranger *)
Theorem C29_has_edge : forall bn u v es, graph_ok bn -> bn_edges bn = Ok es ->
  (In u (bn_nodes bn) -> exists b, bn_has_edge bn u v = Ok b /\ (b = true <-> In (u, v) es)) /\
  (~ In u (dkeys (bn_E bn)) -> bn_has_edge bn u v = Raise KeyError).
Proof.
  intros bn u v es G E. destruct (C29_edges_count bn G) as (es' & E' & _ & _ & H). rewrite E in E'. inversion E'; subst es'. split.
  - intros Hu. pose proof (proj1 (go_children bn u G Hu)) as Ec. unfold bn_children in Ec. unfold bn_has_edge. rewrite Ec. cbn [bind].
    eexists. split; [reflexivity|]. rewrite mem_In, H. unfold edge.
    unfold getitem in Ec. destruct (dget (bn_E bn) u) as [l|] eqn:D; [|discriminate]. inversion Ec; subst.
    split; [intros K; split; [assumption|]; now exists (nchildren bn u)|intros (_ & l' & E1 & K); now inversion E1; subst].
  - intros N. unfold bn_has_edge, getitem. apply dget_None in N. now rewrite N.
Qed.
Print Assumptions C29_has_edge.
Theorem C29_node_idx : forall bn v, NoDup (bn_V bn) ->
  (forall i, bn_node_idx bn v = Z.of_nat i <-> nth_error (bn_nodes bn) i = Some v) /\
  (bn_node_idx bn v = (-1)%Z <-> bn_has_node bn v = false) /\
  (-1 <= bn_node_idx bn v < Z.of_nat (bn_num_nodes bn))%Z.
Proof.
  intros bn v ND. unfold bn_node_idx, bn_nodes, bn_has_node, bn_num_nodes. destruct (index_of v (bn_V bn)) as [j|] eqn:E.
  - pose proof (index_of_Some _ _ _ E) as N. pose proof (index_of_lt _ _ _ E) as L. split; [|split].
    + intros i. split.
      * intros K. apply Nat2Z.inj in K. now subst.
      * intros K. apply index_of_nth in K; [|assumption]. congruence.
    + split; [intros K; lia|]. intros K. apply mem_false in K. apply nth_error_In in N. contradiction.
    + lia.
  - apply index_of_None in E. split; [|split].
    + intros i. split; [intros K; lia|]. intros K. apply nth_error_In in K. contradiction.
    + split; [intros _; now apply mem_false|reflexivity].
    + lia.
Qed.
Print Assumptions C29_node_idx.
Theorem C29_scope_size : forall bn v, bn_scope_size bn v = (do s <- bn_scope bn v ;; Ok (length s)).
Proof. intros bn v. unfold bn_scope_size, bn_scope. destruct (bn_parents bn v); reflexivity. Qed.
Print Assumptions C29_scope_size.
Example C29_nonvacuous : graph_ok ex3 /\ agree ex3 /\ bn_num_edges ex3 = Ok 3 /\ mapM (bn_degree ex3) (bn_nodes ex3) = Ok [2; 2; 2] /\
  adj_list ex3 = Ok [[1; 2]; [2]; []].
Proof. split; [apply ex3_graph|]. split; [apply ex3_graph|]. split; [reflexivity|]. split; reflexivity. Qed.

(** ** C30 *)
Theorem C30_same_nodes_refuted : forall x y, graph_ok x -> graph_ok y -> bn_V x <> [] ->
  (forall v, In v (bn_V x) <-> In v (bn_V y)) -> are_class_equivalent x y = Raise TypeError.
Proof.
  intros x y Gx Gy NE S. unfold are_class_equivalent.
  assert (same_set (bn_V x) (bn_V y) = true) as ->.
  { unfold same_set. apply andb_true_intro. split; apply forallb_forall; intros v Hv; apply mem_In; now apply S. }
  simpl negb. cbn iota. destruct (bn_V x) as [|rv r] eqn:E; [congruence|].
  assert (Hx : In rv (bn_V x)) by (rewrite E; now left). assert (Hy : In rv (bn_V y)) by (apply S; now left).
  destruct (go_parents x rv Gx Hx) as [-> _]. destruct (go_children y rv Gy Hy) as [-> _]. reflexivity.
Qed.
Print Assumptions C30_same_nodes_refuted.
Theorem C30_not_reflexive : forall x, graph_ok x -> bn_V x <> [] -> are_class_equivalent x x = Raise TypeError.
Proof. intros x G N. apply C30_same_nodes_refuted; auto. tauto. Qed.
Print Assumptions C30_not_reflexive.
Theorem C30_different_nodes : forall x y v, In v (bn_V x) -> ~ In v (bn_V y) ->
  are_class_equivalent x y = Ok false /\ are_class_equivalent y x = Ok false.
Proof.
  intros x y v Hx Hy. unfold are_class_equivalent, same_set. apply mem_false in Hy.
  assert (F : forallb (fun x0 => mem x0 (bn_V y)) (bn_V x) = false).
  { destruct (forallb (fun x0 => mem x0 (bn_V y)) (bn_V x)) eqn:E; [|reflexivity]. rewrite forallb_forall in E. rewrite E in Hy by assumption. discriminate. }
  rewrite F. rewrite andb_false_r. split; reflexivity.
Qed.
Print Assumptions C30_different_nodes.
(** the only networks that compare equal are those without nodes *)
Theorem C30_true_iff_empty : forall x y, are_class_equivalent x y = Ok true <-> bn_V x = [] /\ bn_V y = [].
Proof.
  intros x y. unfold are_class_equivalent, same_set. split.
  - destruct (bn_V x) as [|rv r]; [|destruct (negb _); [discriminate|]; destruct (bn_parents x rv); cbn [bind]; [destruct (bn_children y rv); cbn [bind]|]; discriminate].
    destruct (bn_V y) as [|w l]; [auto|]. cbn. discriminate.
  - intros [-> ->]. reflexivity.
Qed.
Print Assumptions C30_true_iff_empty.
Example C30_nonvacuous : graph_ok ex3 /\ bn_V ex3 <> [] /\ In exB (bn_V ex3).
Proof. split; [apply ex3_graph|]. split; [discriminate|simpl; auto]. Qed.

(** ** C31, C32 *)
Theorem C31_dual : forall x y, missing_edges x y = extra_edges y x.
Proof. exact missing_extra. Qed.
Print Assumptions C31_dual.
Theorem C31_missing_counts : forall x y, graph_ok x -> graph_ok y -> incl (bn_V x) (bn_V y) ->
  exists D, missing_edges x y = Ok (length D) /\ NoDup D /\
    forall u v, In (u, v) D <-> In u (bn_V x) /\ edge (bn_E x) u v /\ ~ edge (bn_E y) u v.
Proof.
  intros x y Gx Gy I. exists (edges_not_in x y). split; [now apply missing_edges_ok|]. split.
  - apply NoDup_filter. now apply NoDup_edge_list.
  - intros u v. rewrite In_edges_not_in, !In_edge_list. split.
    + intros [[A B] C]. split; [exact A|]. split; [exact B|]. intros K. apply C. split; [now apply I|exact K].
    + intros (A & B & C). split; [tauto|]. tauto.
Qed.
Print Assumptions C31_missing_counts.
(** edges between two nodes that y does not have are counted twice *)
Theorem C31_missing_nodes_counted_twice : forall x y, graph_ok x -> agree x -> (forall v, In v (bn_V x) -> ~ In v (bn_V y)) ->
  exists m, bn_num_edges x = Ok m /\ missing_edges x y = Ok (2 * m).
Proof.
  intros x y Gx A D. exists (length (edge_list x)). split; [now apply bn_num_edges_ok|]. unfold missing_edges.
  rewrite (foldM_count _ (fun v => length (nparents x v) + length (nchildren x v))).
  - rewrite (degree_sum x Gx A). reflexivity.
  - intros n v Hv. unfold bn_has_node. assert (mem v (bn_V y) = false) as -> by (apply mem_false; auto). simpl negb. cbn iota.
    rewrite (bn_degree_ok x v Gx Hv). reflexivity.
Qed.
Print Assumptions C31_missing_nodes_counted_twice.
Definition same_nodes (x y : bayesnet) : Prop := forall v, In v (bn_V x) <-> In v (bn_V y).
Definition no_self_loop (x : bayesnet) : Prop := forall v, In v (bn_V x) -> ~ In v (nparents x v).
Theorem C31_hamming_symmetric : forall x y, graph_ok x -> graph_ok y -> same_nodes x y -> no_self_loop x -> no_self_loop y ->
  exists n, hamming x y = Ok n /\ hamming y x = Ok n.
Proof.
  intros x y Gx Gy S Nx Ny. exists (length (edges_not_in x y) + length (edges_not_in y x)).
  split; [now apply same_nodes_hamming|]. rewrite (Nat.add_comm (length (edges_not_in x y))). apply same_nodes_hamming; auto. intros v. now rewrite (S v).
Qed.
Print Assumptions C31_hamming_symmetric.
Theorem C31_hamming_zero : forall x y, graph_ok x -> graph_ok y -> same_nodes x y -> no_self_loop y ->
  (hamming x y = Ok 0 <-> forall u v, In u (bn_V x) -> (edge (bn_E x) u v <-> edge (bn_E y) u v)).
Proof.
  intros x y Gx Gy S Ny. rewrite (same_nodes_hamming x y Gx Gy S Ny). split.
  - intros H. assert (L1 : length (edges_not_in x y) = 0) by (inversion H; lia). assert (L2 : length (edges_not_in y x) = 0) by (inversion H; lia).
    apply length_zero_iff_nil in L1, L2. intros u v Hu. split; intros E.
    + destruct (edge_dec (bn_E y) u v) as [K|K]; [exact K|]. exfalso.
      assert (X : In (u, v) (edges_not_in x y)) by (apply In_edges_not_in; rewrite !In_edge_list; tauto). rewrite L1 in X. destruct X.
    + destruct (edge_dec (bn_E x) u v) as [K|K]; [exact K|]. exfalso.
      assert (X : In (u, v) (edges_not_in y x)) by (apply In_edges_not_in; rewrite !In_edge_list; split; [split; [now apply S|exact E]|tauto]). rewrite L2 in X. destruct X.
  - intros H. assert (edges_not_in x y = []) as ->.
    { destruct (edges_not_in x y) as [|[u v] r] eqn:E; [reflexivity|]. exfalso.
      assert (X : In (u, v) (edges_not_in x y)) by (rewrite E; now left). apply In_edges_not_in in X as [X1 X2].
      rewrite In_edge_list in X1. apply X2, In_edge_list. split; [now apply S|]. now apply H. }
    assert (edges_not_in y x = []) as ->; [|reflexivity].
    destruct (edges_not_in y x) as [|[u v] r] eqn:E; [reflexivity|]. exfalso.
    assert (X : In (u, v) (edges_not_in y x)) by (rewrite E; now left). apply In_edges_not_in in X as [X1 X2].
    rewrite In_edge_list in X1. apply X2, In_edge_list. split; [now apply S|]. apply H; [now apply S|tauto].
Qed.
Print Assumptions C31_hamming_zero.
Theorem C31_hamming_triangle : forall x y z, graph_ok x -> graph_ok y -> graph_ok z -> same_nodes x y -> same_nodes y z ->
  no_self_loop y -> no_self_loop z -> exists a b c, hamming x y = Ok a /\ hamming y z = Ok b /\ hamming x z = Ok c /\ c <= a + b.
Proof.
  intros x y z Gx Gy Gz Sxy Syz Ny Nz. eexists _, _, _. split; [now apply same_nodes_hamming|]. split; [now apply same_nodes_hamming|].
  split; [apply same_nodes_hamming; auto; intros v; now rewrite (Sxy v)|].
  pose proof (not_in_triangle x y z Gx). pose proof (not_in_triangle z y x Gz). lia.
Qed.
Print Assumptions C31_hamming_triangle.
(** hamming is the sum of its three parts, whatever the networks *)
Theorem C31_hamming_sum : forall x y n, hamming x y = Ok n <->
  exists a b c, missing_edges x y = Ok a /\ extra_edges x y = Ok b /\ incorrect_direction_edges x y = Ok c /\ n = a + b + c.
Proof.
  intros x y n. unfold hamming. split.
  - destruct (missing_edges x y) as [a|]; cbn [bind]; [|discriminate]. destruct (extra_edges x y) as [b|]; cbn [bind]; [|discriminate].
    destruct (incorrect_direction_edges x y) as [c|]; cbn [bind]; [|discriminate]. intros [= <-]. now exists a, b, c.
  - intros (a & b & c & -> & -> & -> & ->). reflexivity.
Qed.
Print Assumptions C31_hamming_sum.
Definition exW : bayesnet := mkBN [exC; exA; exB] [(exA, [exC]); (exB, [exA]); (exC, [])]
  [(exA, mkF [exB] [] []); (exB, mkF [] [] []); (exC, mkF [exA] [] [])].
Example C31_nonvacuous : graph_ok exV /\ graph_ok exW /\ agree exW /\ same_nodes exV exW /\ no_self_loop exV /\ no_self_loop exW /\ hamming exV exW = Ok 2.
Proof.
  split; [now apply graph_okb_ok|]. split; [now apply graph_okb_ok|]. split; [now apply agreeb_ok|].
  split; [intros v; simpl; tauto|]. split; [|split; [|reflexivity]]; intros v [<-|[<-|[<-|[]]]]; apply mem_false; reflexivity.
Qed.
Example C31_twice_nonvacuous : missing_edges exW (mkBN [] [] []) = Ok 4 /\ bn_num_edges exW = Ok 2.
Proof. split; reflexivity. Qed.
Theorem C32_always_zero_refuted : forall x y, graph_ok x -> graph_ok y -> incl (bn_V x) (bn_V y) -> no_self_loop y ->
  incorrect_direction_edges x y = Ok 0.
Proof. intros x y Gx Gy I N. now apply incorrect_zero. Qed.
Print Assumptions C32_always_zero_refuted.
(** although an edge really is reversed between these two *)
Definition exW2 : bayesnet := mkBN [exC; exA; exB] [(exA, [exC; exB]); (exB, []); (exC, [])]
  [(exA, mkF [] [] []); (exB, mkF [exA] [] []); (exC, mkF [exA] [] [])].
Example C32_nonvacuous : graph_ok exW /\ graph_ok exW2 /\ incl (bn_V exW) (bn_V exW2) /\ no_self_loop exW2 /\
  edge (bn_E exW) exB exA /\ edge (bn_E exW2) exA exB /\ incorrect_direction_edges exW exW2 = Ok 0.
Proof.
  split; [now apply graph_okb_ok|]. split; [now apply graph_okb_ok|]. split; [apply incl_refl|].
  split; [intros v [<-|[<-|[<-|[]]]]; apply mem_false; reflexivity|]. split; [apply edge_in_edge; reflexivity|]. split; [apply edge_in_edge; reflexivity|reflexivity].
Qed.

(** ** C33, C34 *)
Theorem C33_mst_tree : forall W, weighted_graph W -> 0 < length W -> exists T, mst W = Ok T /\
  dkeys T = map NInt (seq 0 (length W)) /\ NoDup (all_edges T) /\
  (forall u v, edge T u v -> weight W u v <> None) /\
  (forall u, ~ edge T u (NInt 0)) /\
  (forall u u' v, edge T u v -> edge T u' v -> u = u') /\
  acyclic T /\
  (forall v, reach T (NInt 0) v <-> wreach W (NInt 0) v) /\
  ((forall v, In v (dkeys W) -> wreach W (NInt 0) v) -> S (length (all_edges T)) = length W).
Proof. exact mst_tree. Qed.
Print Assumptions C33_mst_tree.
Theorem C34_mst_minimum : forall W S, weighted_graph W -> symmetric W -> spanning_tree W S ->
  exists T, mst W = Ok T /\ spanning_tree W (all_edges T) /\ (total_weight W (all_edges T) <= total_weight W S)%Qc.
Proof. exact mst_minimal. Qed.
Print Assumptions C34_mst_minimum.
Definition ex_w : dict (dict Qc) :=
  [(NInt 1, [(NInt 0, qq 3 1); (NInt 2, qq 1 1)]); (NInt 0, [(NInt 1, qq 3 1); (NInt 2, qq 2 1)]); (NInt 2, [(NInt 0, qq 2 1); (NInt 1, qq 1 1)])].
Example C33_nonvacuous : weighted_graph ex_w /\ 0 < length ex_w /\ symmetric ex_w /\ spanning_tree ex_w [(NInt 0, NInt 1); (NInt 0, NInt 2)] /\
  mst ex_w = Ok [(NInt 0, [NInt 2]); (NInt 1, []); (NInt 2, [NInt 1])].
Proof.
  split.
  - split; [simpl; apply perm_swap|]. intros u e H. apply dget_in_list in H. simpl in H.
    destruct H as [H|[H|[H|[]]]]; inversion H; subst; (split; [now apply nodupb_ok|now apply inclb_ok]).
  - split; [simpl; lia|]. split; [|split].
    + intros u v. unfold weight, ex_w. cbn [dget].
      destruct (name_eqb_spec u (NInt 1)) as [->|N1]; [|destruct (name_eqb_spec u (NInt 0)) as [->|N2]; [|destruct (name_eqb_spec u (NInt 2)) as [->|N3]]];
      (destruct (name_eqb_spec v (NInt 1)) as [->|M1]; [|destruct (name_eqb_spec v (NInt 0)) as [->|M2]; [|destruct (name_eqb_spec v (NInt 2)) as [->|M3]]]);
      cbn [dget]; rewrite ?name_eqb_refl; try reflexivity;
      repeat match goal with |- context [name_eqb ?a ?b] => destruct (name_eqb_spec a b); try congruence end; try reflexivity.
    + split; [|split; [reflexivity|]].
      * intros u v [H|[H|[]]]; inversion H; subst; discriminate.
      * assert (C0 : forall b, In b (dkeys ex_w) -> uconnected [(NInt 0, NInt 1); (NInt 0, NInt 2)] (NInt 0) b /\ uconnected [(NInt 0, NInt 1); (NInt 0, NInt 2)] b (NInt 0)).
        { intros b [<-|[<-|[<-|[]]]]; (split; [try apply rt_refl; apply rt_step; unfold uadj; simpl; tauto|try apply rt_refl; apply rt_step; unfold uadj; simpl; tauto]). }
        intros a b Ha Hb. apply rt_trans with (NInt 0); [now apply C0|now apply C0].
    + vm_compute. reflexivity.
Qed.

(** ** C35 *)
Definition has_cycle (R : name -> name -> Prop) : Prop := exists v, clos_trans _ R v v.
Theorem C35_add : forall E u v, acyclic E -> exists b, would_cause_cycle E u v false = Ok b /\
  (b = true <-> has_cycle (fun x y => edge E x y \/ (x = u /\ y = v))).
Proof.
  intros E u v A. destruct (would_cause_cycle_add E u v A) as (b & Eb & H). exists b. split; [exact Eb|]. split.
  - intros ->. unfold would_cause_cycle in Eb. cbn [bind] in Eb. inversion Eb as [Q]. apply nx_find_cycle_spec in Q as (w & _ & P).
    exists w. apply (clos_t_incl (edge (nx_add_edge E u v))); [|exact P]. intros x y. apply edge_nx_add.
  - intros (w & P). apply H. intros A'. apply (A' w). apply (clos_t_incl (fun x y => edge E x y \/ (x = u /\ y = v))); [|exact P].
    intros x y. apply edge_nx_add.
Qed.
Print Assumptions C35_add.
Theorem C35_reverse : forall E u v, acyclic E -> edge E v u -> exists b, would_cause_cycle E u v true = Ok b /\
  (b = true <-> has_cycle (fun x y => (edge E x y /\ ~ (x = v /\ y = u)) \/ (x = u /\ y = v))).
Proof.
  intros E u v A Hvu.
  assert (exists G, nx_remove_edge E v u = Ok G) as (G & EG).
  { unfold nx_remove_edge. assert (mem u (succs E v) = true) as -> by (apply mem_In; now apply In_succs). eauto. }
  pose proof (remove_acyclic _ _ _ _ EG A) as AG. destruct (edge_nx_remove _ _ _ _ EG) as [_ HG].
  destruct (C35_add G u v AG) as (b & Eb & H). exists b. split.
  - unfold would_cause_cycle in *. rewrite EG. exact Eb.
  - rewrite H. split; intros (w & P); exists w.
    + apply (clos_t_incl (fun x y => edge G x y \/ (x = u /\ y = v))); [|exact P]. intros x y. now rewrite HG.
    + apply (clos_t_incl (fun x y => (edge E x y /\ ~ (x = v /\ y = u)) \/ (x = u /\ y = v))); [|exact P]. intros x y. now rewrite HG.
Qed.
Print Assumptions C35_reverse.
Theorem C35_reverse_missing : forall E u v, ~ edge E v u -> would_cause_cycle E u v true = Raise NetworkXError.
Proof.
  intros E u v H. unfold would_cause_cycle, nx_remove_edge.
  assert (mem u (succs E v) = false) as -> by (apply mem_false; now rewrite In_succs). reflexivity.
Qed.
Print Assumptions C35_reverse_missing.
Example C35_nonvacuous : acyclic exDag /\ would_cause_cycle exDag exC exA false = Ok true /\ would_cause_cycle exDag exB exA false = Ok true /\
  edge exDag exA exC /\ would_cause_cycle exDag exC exA true = Ok true /\ would_cause_cycle exDag exC exB true = Ok false.
Proof.
  split; [now apply acyclicb_ok|]. split; [reflexivity|]. split; [reflexivity|]. split; [apply edge_in_edge; reflexivity|]. split; reflexivity.
Qed.

(** ** C60.  networkx's is_chordal is a parameter, assumed never to call a non-chordal graph chordal. *)
Theorem C60_make_chordal : forall nx_chordal o bn, (forall es, nx_chordal es = true -> chordal es) -> good o -> graph_ok bn ->
  exists m F, moralized_edges bn = Ok m /\ make_chordal nx_chordal o bn None = Ok F /\ incl m F /\ chordal F /\
    forall a b, uadj F a b -> exists c, uadj m a c.
Proof.
  intros nx o bn Snd Go G. destruct (moralized_edges_ok bn G) as (m & E & _). exists m. unfold make_chordal. rewrite E. cbn [bind].
  destruct (nx m) eqn:Nm.
  - exists m. split; [reflexivity|]. split; [reflexivity|]. split; [apply incl_refl|]. split; [now apply Snd|]. intros a b H. eauto.
  - eexists. split; [reflexivity|]. split; [reflexivity|].
    set (vs := sorted_by (edegree m) (ask (sub o 0) (evertices m))).
    assert (Pv : Permutation vs (evertices m)).
    { unfold vs. rewrite sorted_by_perm. apply good_ask. now apply good_sub. }
    destruct (eliminate_chordal (sub o 1) vs m) as (H1 & H2 & H3).
    + now apply good_sub.
    + intros a b H. apply (Permutation_in a (Permutation_sym Pv)). now apply (In_evertices m a b).
    + split; [exact H1|]. split; [exact H2|]. intros a b H. apply H3 in H as [H _].
      apply (Permutation_in a Pv) in H. unfold evertices in H. apply (proj1 (In_dedup _ _)) in H.
      apply in_flat_map in H as ([x y] & Hxy & [Hx|[Hy|[]]]); simpl in *; subst; [exists y; now left|exists x; now right].
Qed.
Print Assumptions C60_make_chordal.
Theorem C60_given_graph : forall nx_chordal o bn vs es m, good o -> moralized_edges bn = Ok m -> nx_chordal m = false ->
  vs <> [] -> es <> [] -> (forall a b, uadj es a b -> In a vs) ->
  exists F, make_chordal nx_chordal o bn (Some (vs, es)) = Ok F /\ incl es F /\ chordal F.
Proof.
  intros nx o bn vs es m Go E Nm Nv Ne H. unfold make_chordal. rewrite E. cbn [bind]. rewrite Nm.
  assert ((length vs =? 0) || (length es =? 0) = false) as ->.
  { destruct vs; [congruence|]. destruct es; [congruence|]. reflexivity. }
  eexists. split; [reflexivity|]. destruct (eliminate_chordal (sub o 1) vs es) as (H1 & H2 & _); auto. now apply good_sub.
Qed.
Print Assumptions C60_given_graph.
(** a supplied graph is ignored when the moral graph is already chordal *)
Theorem C60_given_graph_ignored : forall nx_chordal o bn ve m, moralized_edges bn = Ok m -> nx_chordal m = true ->
  make_chordal nx_chordal o bn ve = Ok m.
Proof. intros nx o bn ve m E Nm. unfold make_chordal. rewrite E. cbn [bind]. now rewrite Nm. Qed.
Print Assumptions C60_given_graph_ignored.
(** a 4-cycle A - B - D - C - A whose moral graph is itself: D's parents B and C are married, a 5-cycle stays open *)
Definition ex5 : bayesnet :=
  mkBN (map NInt [0;1;2;3;4]) [(NInt 0, [NInt 1; NInt 2]); (NInt 1, [NInt 3]); (NInt 2, [NInt 4]); (NInt 3, [NInt 4]); (NInt 4, [])]
    [(NInt 0, mkF [] [] []); (NInt 1, mkF [NInt 0] [] []); (NInt 2, mkF [NInt 0] [] []); (NInt 3, mkF [NInt 1] [] []); (NInt 4, mkF [NInt 3; NInt 2] [] [])].
Example C60_nonvacuous : graph_ok ex5 /\ (exists m, moralized_edges ex5 = Ok m /\ ~ chordal m) /\ (forall es, (fun _ => false) es = true -> chordal es).
Proof.
  split; [now apply graph_okb_ok|]. split; [|intros es H; discriminate].
  eexists. split; [vm_compute; reflexivity|]. intros C.
  destruct (C (map NInt [0;1;3;2])) as (i & j & Hi & Hj & Nij & N1 & N2 & A).
  - split; [simpl; lia|]. split; [now apply nodupb_ok|]. intros i. unfold cyc_nth.
    change (length (map NInt [0;1;3;2])) with 4. assert (B := Nat.mod_upper_bound i 4 ltac:(lia)).
    replace (S i mod 4) with (S (i mod 4) mod 4) by (rewrite <- (Nat.add_1_r i), <- (Nat.add_1_r (i mod 4)); apply Nat.add_mod_idemp_l; lia).
    destruct (i mod 4) as [|[|[|[|n]]]]; [| | | |lia]; unfold uadj; simpl; tauto.
  - simpl; lia.
  - change (length (map NInt [0;1;3;2])) with 4 in *.
    unfold cyc_nth in A. change (length (map NInt [0;1;3;2])) with 4 in *. rewrite !Nat.mod_small in A by lia.
    assert (exists p, p = (i, j)) as (p & Hp) by eauto.
    destruct i as [|[|[|[|i]]]]; try lia; destruct j as [|[|[|[|j]]]]; try lia; simpl in N1, N2; try lia;
      unfold uadj in A; simpl in A; destruct A as [A|A];
      repeat (destruct A as [A|A]; [discriminate A|]); destruct A.
Qed.

(** ** C64: flat_cpt *)
Theorem C64_flat_cpt : forall bn, wfnet bn -> flat_cpt bn = Ok (concat (map (ncpt bn) (bn_V bn))) /\
  flat_cpt_by_var bn = Ok (map (fun v => qsum (ncpt bn v)) (bn_V bn)).
Proof.
  intros bn W. unfold flat_cpt, flat_cpt_by_var. split.
  - rewrite (mapM_ok _ (ncpt bn)); [reflexivity|]. intros v Hv. now apply bn_cpt_ok.
  - apply mapM_ok. intros v Hv. now rewrite (bn_cpt_ok bn v W Hv).
Qed.
Print Assumptions C64_flat_cpt.
(** the sum of each row of every table, one row per parent configuration *)
Definition row_sums (bn : bayesnet) (v : name) : list Qc :=
  map (fun r => qsum (firstn (ncard bn v) (skipn (r * ncard bn v) (ncpt bn v)))) (seq 0 (length (ncpt bn v) / ncard bn v)).
Theorem C64_by_parents_roots : forall bn, wfnet bn -> (forall v, In v (bn_V bn) -> nparents bn v = []) ->
  flat_cpt_by_parents bn = Ok (concat (map (row_sums bn) (bn_V bn))).
Proof.
  intros bn W R. unfold flat_cpt_by_parents. rewrite (mapM_ok _ (row_sums bn)); [reflexivity|].
  intros v Hv. rewrite (bn_cpt_ok bn v W Hv), (bn_card_ok bn v W Hv). cbn [bind].
  assert (P : 0 < ncard bn v).
  { destruct (wn_vals _ W v Hv) as [_ N]. unfold ncard, nvalues in *. destruct (dget (bn_F bn) v); [|congruence]. destruct (f_values f); [congruence|simpl; lia]. }
  destruct (Nat.eqb_spec (ncard bn v) 0); [lia|]. f_equal. unfold row_sums. rewrite (wn_cpt _ W v Hv), (R v Hv). simpl nprod.
  rewrite Nat.mul_1_r, Nat.div_same by lia. reflexivity.
Qed.
Print Assumptions C64_by_parents_roots.
(** for every network: instead of the sums of the rows the sums of the first overlapping windows of the same width, one per row *)
Theorem C64_by_parents_windows : forall bn, wfnet bn ->
  flat_cpt_by_parents bn = Ok (concat (map (fun v => map (fun i => qsum (map (fun j => nth (i + j) (ncpt bn v) 0%Qc) (seq 0 (ncard bn v)))) (seq 0 (nprod (map (ncard bn) (nparents bn v))))) (bn_V bn))).
Proof.
  intros bn W. unfold flat_cpt_by_parents. erewrite mapM_ok; [reflexivity|].
  intros v Hv. rewrite (bn_cpt_ok bn v W Hv), (bn_card_ok bn v W Hv). cbn [bind].
  assert (P : 0 < ncard bn v).
  { destruct (wn_vals _ W v Hv) as [_ N]. unfold ncard, nvalues in *. destruct (dget (bn_F bn) v); [|congruence]. destruct (f_values f); [congruence|simpl; lia]. }
  destruct (Nat.eqb_spec (ncard bn v) 0); [lia|]. f_equal. assert (L := wn_cpt _ W v Hv). change (nprod (map (ncard bn) (v :: nparents bn v))) with (ncard bn v * nprod (map (ncard bn) (nparents bn v))) in L.
  set (rows := nprod (map (ncard bn) (nparents bn v))) in *. set (k := ncard bn v) in *.
  assert (Er : length (ncpt bn v) / k = rows) by (rewrite L, Nat.mul_comm; apply Nat.div_mul; lia). rewrite Er.
  apply map_ext_in. intros i Hi. apply in_seq in Hi. f_equal.
  assert (B : i + k <= length (ncpt bn v)) by (rewrite L; nia).
  apply (nth_ext _ _ 0%Qc 0%Qc); [rewrite firstn_length, skipn_length, map_length, seq_length; lia|].
  intros j Hj. rewrite firstn_length, skipn_length in Hj. rewrite (nth_indep (map (fun j => nth (i + j) (ncpt bn v) 0%Qc) (seq 0 k)) 0%Qc (nth (i + 0) (ncpt bn v) 0%Qc)) by (rewrite map_length, seq_length; lia).
  rewrite (map_nth (fun j => nth (i + j) (ncpt bn v) 0%Qc)), seq_nth by lia. cbn [plus].
  transitivity (nth j (skipn i (ncpt bn v)) 0%Qc).
  - clear - Hj. assert (J : j < k) by lia. clear Hj. revert j J. generalize (skipn i (ncpt bn v)) as l. generalize k as m. induction m as [|m IH]; intros l j J; [lia|]. destruct l as [|x l]; [reflexivity|]. destruct j; [reflexivity|]. cbn [firstn nth]. apply IH. lia.
  - generalize (ncpt bn v) as l. clear. induction i as [|i IH]; intros l; [reflexivity|]. destruct l as [|x l]; [destruct j; reflexivity|]. cbn [skipn plus nth]. apply IH.
Qed.
Print Assumptions C64_by_parents_windows.
Theorem C64_by_parents_refuted : exists bn, wfnet bn /\
  exists l, flat_cpt_by_parents bn = Ok l /\ l <> concat (map (row_sums bn) (bn_V bn)).
Proof.
  exists ex3. split; [exact ex3_wf|]. eexists. split; [vm_compute; reflexivity|]. intros H.
  apply (f_equal (fun l => this (nth 2 l 0%Qc))) in H. vm_compute in H. discriminate.
Qed.
Print Assumptions C64_by_parents_refuted.
Example C64_nonvacuous : wfnet (mkBN [exA] [] [(exA, mkF [] [nm "0"; nm "1"] [qq 1 3; qq 2 3])]).
Proof. now apply wfnetb_ok. Qed.
