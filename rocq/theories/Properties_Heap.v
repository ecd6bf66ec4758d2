(** Properties_Heap.v -- theorems C27, C28, C66: edits of network objects, with aliasing.
    Specification: SpecFactor.v, SpecGraph.v; [observe], [unshared], [caller_dicts] and
    [last_say] are in BayesNetHeap.v, HeapEdit.v and HeapBuild.v. *)
From Verif Require Import Py Num BayesNet SpecFactor Graph SpecGraph GraphTheory GraphTopsort GraphNet GraphFacts Examples GraphCheck
  BayesNetHeap HeapFrame HeapNet HeapEdit HeapBuild HeapSet Properties_Graph.
Open Scope nat_scope.

(** ** C27 *)
(** any history of add_edge / remove_edge between existing nodes, exceptions caught *)
Theorem C27_edge_history : forall h b bn es, observe h b = Some bn -> unshared h b -> graph_ok bn -> agree bn ->
  (forall e, In e es -> edge_edit b (bn_V bn) e) ->
  exists bn', observe (run h es) b = Some bn' /\ unshared (run h es) b /\ graph_ok bn' /\ agree bn' /\ bn_V bn' = bn_V bn /\
    (forall v, In v (bn_V bn) -> nvalues bn' v = nvalues bn v /\ ncpt bn' v = ncpt bn v) /\
    forall x y, edge (bn_E bn') x y <-> match last_say es x y with Some added => added = true | None => edge (bn_E bn) x y end.
Proof.
  intros h b bn es O U G A H. destruct (history_ok es h b bn O U G A H) as (bn' & H1 & H2 & _ & H3). exists bn'. auto.
Qed.
Print Assumptions C27_edge_history.

(** BayesNet(E, value_dict) establishes the hypotheses *)
Theorem C27_constructor : forall h e vd E vdv, caller_dicts h e vd E vdv -> closed_edges E -> acyclic E ->
  (forall u c, dget E u = Some c -> NoDup c) -> (forall d v, vdv = Some d -> In v (dkeys E) -> In v (dkeys d)) ->
  exists h' b bn, h_set_structure e vd h = (h', Ok b) /\ observe h' b = Some bn /\ set_structure E vdv = Ok bn /\
    unshared h' b /\ graph_ok bn /\ agree bn.
Proof.
  intros h e vd E vdv Hc C A ND Hv. destruct (C20_topsort_acyclic E C A) as (V & EV & P).
  destruct (set_structure_ok E vdv V C EV) as (bn & Eb & HV & HE & HF).
  { intros v Iv. destruct vdv as [d|]; [|exact Logic.I]. apply In_dget, (Hv d v eq_refl). now apply (Permutation_in v P). }
  destruct (set_structure_heap h e vd E vdv bn Hc C Eb) as (h' & b & H1 & H2 & H3 & _). exists h', b, bn.
  split; [assumption|]. split; [assumption|]. split; [assumption|]. split; [assumption|].
  assert (NV : NoDup V) by (apply (Permutation_NoDup (Permutation_sym P)); apply C).
  split.
  - constructor.
    + now rewrite HV.
    + intros v Iv. rewrite HV in *. destruct (In_dget E v) as (c & Dc); [now apply (Permutation_in v P)|]. exists c. rewrite HE.
      split; [assumption|]. split; [now apply (ND v)|]. intros w Hw. apply (Permutation_in w (Permutation_sym P)). apply (proj2 C v w). now exists c.
    + intros v Iv. rewrite HV in *. destruct (HF v Iv) as (d & D1 & D2 & _). exists d. split; [assumption|]. rewrite D2.
      split; [now apply NoDup_filter|]. intros w Hw. now apply filter_In in Hw.
  - intros u v Hu Hw. rewrite HV in *. destruct (HF v Hw) as (d & D1 & D2 & _). unfold nparents. rewrite D1, D2, HE, filter_In, edge_in_edge. tauto.
Qed.
Print Assumptions C27_constructor.

(** add_edge then remove_edge of an absent edge restores the network exactly *)
Theorem C27_remove_undoes_add : forall h b bn u v, observe h b = Some bn -> unshared h b -> graph_ok bn -> agree bn ->
  In u (bn_V bn) -> In v (bn_V bn) -> ~ edge (bn_E bn) u v ->
  observe (run h [EAddEdge b u v; ERemoveEdge b u v]) b = Some bn.
Proof.
  intros h b bn u v O U G A Hu Hv N. destruct (go_E _ G u Hu) as (c & Dc & NDc & Ic). destruct (go_F _ G v Hv) as (d & Dd & NDd & Id).
  assert (Nc : ~ In v c) by (intros K; apply N; now exists c).
  destruct (add_edge_ok h b bn u v c d O U Hu Hv Dc Dd) as (h1 & E1 & U1 & _ & O1).
  apply mem_false in Nc. rewrite Nc in O1. apply mem_false in Nc.
  simpl. unfold run1 at 2. simpl do_edit. rewrite E1. simpl fst.
  destruct (added_ok bn u v c d G A Hu Hv Dc Dd Nc) as (G1 & A1 & _).
  assert (D1 : dget (bn_E (edge_added bn u v)) u = Some (c ++ [v])) by (unfold edge_added; rewrite Dc, Dd; simpl; rewrite dget_dset; now rewrite name_eqb_refl).
  assert (D2 : dget (bn_F (edge_added bn u v)) v = Some (mkF (f_parents d ++ [u]) (f_values d) (f_cptl d))) by (unfold edge_added; rewrite Dc, Dd; simpl; rewrite dget_dset; now rewrite name_eqb_refl).
  destruct (remove_edge_ok h1 b _ u v _ _ O1 U1 D1 D2) as (h2 & E2 & U2 & _ & O2).
  { apply mem_In, in_or_app. right. now left. }
  { apply mem_In. simpl. apply in_or_app. right. now left. }
  unfold run1. simpl do_edit. rewrite E2. simpl fst. rewrite O2. f_equal. now apply (add_then_remove bn u v c d).
Qed.
Print Assumptions C27_remove_undoes_add.
(** removing an absent edge raises and changes nothing *)
Theorem C27_remove_absent : forall h b bn u v, observe h b = Some bn -> graph_ok bn -> In u (bn_V bn) -> ~ edge (bn_E bn) u v ->
  h_remove_edge b u v h = (h, Raise ValueError).
Proof.
  intros h b bn u v O G Hu N. destruct (go_E _ G u Hu) as (c & Dc & _). apply (remove_edge_absent h b bn u v c O Dc).
  apply mem_false. intros K. apply N. now exists c.
Qed.
Print Assumptions C27_remove_absent.

(** reverse_arc never updates the parents lists: agreement is lost on every edge *)
Theorem C27_reverse_arc_refuted : forall h b bn u v, observe h b = Some bn -> unshared h b -> graph_ok bn -> agree bn ->
  In u (bn_V bn) -> In v (bn_V bn) -> u <> v -> edge (bn_E bn) u v ->
  exists h' bn', h_reverse_arc b u v h = (h', Ok tt) /\ observe h' b = Some bn' /\
    ~ edge (bn_E bn') u v /\ edge (bn_E bn') v u /\ nparents bn' v = nparents bn v /\ nparents bn' u = nparents bn u /\ ~ agree bn'.
Proof.
  intros h b bn u v O U G A Hu Hv Nuv Huv. destruct Huv as (c & Dc & Iv). destruct (go_E _ G v Hv) as (cv & Dcv & _).
  destruct (go_E _ G u Hu) as (c' & Dc' & NDc & _). rewrite Dc in Dc'. inversion Dc'; subst c'.
  apply mem_In in Iv as M. unfold h_reverse_arc. unfold bindM at 1. rewrite (has_edge_ok h b bn u v c O Dc), M.
  destruct (children_ref h b bn u c O Dc) as (r & Er & Nr). unfold bindM at 1. rewrite Er. unfold bindM at 1. rewrite (remove_ok h r c v Nr M).
  pose proof (store_children h b bn u c r (remove1 v c) O U Dc Er) as O1. pose proof (st_unshared h r c (remove1 v c) Nr b U) as U1.
  assert (Dv1 : dget (bn_E (with_children bn u (remove1 v c))) v = Some cv).
  { simpl. rewrite dget_dset. destruct (name_eqb_spec v u); [congruence|assumption]. }
  destruct (children_ref _ b _ v cv O1 Dv1) as (s & Es & Ns). unfold bindM. rewrite Es. rewrite (append_ok _ s cv u Ns).
  pose proof (store_children _ b _ v cv s (cv ++ [u]) O1 U1 Dv1 Es) as O2.
  eexists. eexists. split; [reflexivity|]. split; [exact O2|].
  assert (E1 : ~ edge (dset (dset (bn_E bn) u (remove1 v c)) v (cv ++ [u])) u v).
  { intros (x & D & I). rewrite !dget_dset in D. destruct (name_eqb_spec u v); [congruence|]. rewrite name_eqb_refl in D. inversion D; subst.
    apply (In_remove1 v v c NDc) in I. tauto. }
  split; [exact E1|]. split; [|split; [reflexivity|split; [reflexivity|]]].
  - exists (cv ++ [u]). split; [simpl; rewrite dget_dset; now rewrite name_eqb_refl|]. apply in_or_app. right. now left.
  - intros A'. apply E1. apply (A' u v Hu Hv). change (In u (nparents bn v)). apply (A u v Hu Hv). now exists c.
Qed.
Print Assumptions C27_reverse_arc_refuted.

(** add_edge from a node that is not there raises KeyError, and the half-added node stays *)
Theorem C27_new_source_refuted : forall h b bn u v, observe h b = Some bn -> graph_ok bn -> ~ In u (bn_V bn) -> ~ In u (dkeys (bn_E bn)) ->
  In v (bn_V bn) -> exists h', h_add_edge b u v h = (h', Raise KeyError) /\ h_has_node b u h' = (h', Ok true).
Proof.
  intros h b bn u v O G Nu Ne Hv. destruct (observe_inv h b bn O) as (V & E & F & dE & dF & Hb & HV & HE & ME & HF & MF).
  apply mem_false in Nu. unfold h_add_edge. unfold bindM at 1. rewrite (has_node_ok h b bn u O), Nu.
  unfold bindM at 1. unfold h_add_node at 1.
  unfold bindM at 1. unfold net_V at 1, load_net at 1, bindM at 1 2, load at 1. rewrite Hb. unfold ret at 1 2. simpl fst.
  unfold bindM at 1. rewrite (append_ok h V _ u HV). set (h1 := upd_nth V (ONames (bn_V bn ++ [u])) h).
  assert (Hb1 : nth_error h1 b = Some (ONet V E F)) by now apply (st_other h V (bn_V bn)).
  assert (HF1 : nth_error h1 F = Some (ODict dF)) by now apply (st_other h V (bn_V bn)).
  assert (HE1 : nth_error h1 E = Some (ODict dE)) by now apply (st_other h V (bn_V bn)).
  unfold bindM at 1. unfold alloc at 1. set (h2 := h1 ++ [ODat dflt_cpt dflt_parents dflt_values]).
  assert (Hb2 : nth_error h2 b = Some (ONet V E F)) by now apply nth_app.
  assert (HF2 : nth_error h2 F = Some (ODict dF)) by now apply nth_app.
  assert (HE2 : nth_error h2 E = Some (ODict dE)) by now apply nth_app.
  unfold bindM at 1. unfold net_F at 1, load_net at 1, bindM at 1 2, load at 1. rewrite Hb2. unfold ret at 1 2. simpl snd.
  unfold setitem_ref at 1, bindM at 1. unfold load_dict at 1, bindM at 1, load at 1. rewrite HF2. unfold ret at 1.
  unfold store at 1. assert (LF : F < length h2) by (apply nth_error_Some; congruence). destruct (Nat.ltb_spec F (length h2)) as [_|]; [|lia].
  set (h3 := upd_nth F _ h2).
  assert (EF : E <> F).
  { intros ->. rewrite HE in HF. inversion HF; subst dF. destruct (go_E _ G v Hv) as (c & Dc & _).
    destruct dE as [|[k r] t]; [simpl in ME; inversion ME as [Q]; rewrite <- Q in Dc; discriminate|].
    simpl in ME, MF. unfold ent in ME at 1. unfold ent in MF at 1. simpl in *.
    destruct (get_names h r) eqn:Er; [|discriminate]. unfold get_names in Er. unfold get_data in MF. destruct (nth_error h r) as [[]|]; discriminate. }
  assert (N3 : forall y, y <> F -> nth_error h3 y = nth_error h2 y).
  { intros y Ny. unfold h3. rewrite nth_error_upd_nth. destruct (Nat.eqb_spec F y); [congruence|reflexivity]. }
  assert (Hb3 : nth_error h3 b = Some (ONet V E F)) by (rewrite N3; [assumption|intros ->; congruence]).
  assert (HV3 : get_names h3 V = Some (bn_V bn ++ [u])).
  { unfold get_names. rewrite N3; [|intros ->; unfold get_names in HV; rewrite HF in HV; discriminate]. unfold h2.
    assert (Q : nth_error h1 V = Some (ONames (bn_V bn ++ [u]))) by (unfold h1; rewrite (st_nth h V (bn_V bn)) by assumption; now rewrite Nat.eqb_refl).
    now rewrite (nth_app _ _ _ _ Q). }
  assert (Hn : forall w, In w (bn_V bn ++ [u]) -> h_has_node b w h3 = (h3, Ok true)).
  { intros w Hw. unfold h_has_node, net_V, load_net. unfold bindM at 1 2 3. unfold load at 1. rewrite Hb3. unfold ret at 1 2. simpl fst.
    unfold bindM. rewrite (load_names_ok h3 V _ HV3). unfold ret. f_equal. f_equal. now apply mem_In. }
  unfold bindM at 1. rewrite Hn by (apply in_or_app; now left). unfold bindM at 1. unfold ret at 1.
  assert (He : E_at b u h3 = (h3, Raise KeyError)).
  { rewrite (E_at_ok h3 b V E F dE u Hb3); [|now rewrite N3]. unfold getitem. destruct (dget dE u) as [r|] eqn:D; [|reflexivity].
    exfalso. apply Ne. apply dget_Some_In in D. now rewrite (mapO_keys _ _ _ ME). }
  unfold bindM at 1. unfold h_has_edge at 1. unfold bindM at 1. rewrite He. exists h3. split; [reflexivity|]. apply Hn, in_or_app. right. now left.
Qed.
Print Assumptions C27_new_source_refuted.

(** the observed network, for examples *)
Definition obs (h : heap) (b : ref) : bayesnet := match observe h b with Some bn => bn | None => mkBN [] [] [] end.
(** concrete objects: a caller's edge dict A -> B, A -> C, B -> C and value dict *)
Definition ex_heap : heap :=
  heap0 ++ [ONames [exC; exB]; ONames [exC]; ONames []; ODict [(exA, 3); (exB, 4); (exC, 5)];
            ONames [nm "0"; nm "1"]; ODict [(exA, 7); (exB, 7); (exC, 7)]].
Definition ex_h1 : heap := fst (h_set_structure 6 (Some 8) ex_heap).
Definition ex_b : ref := 20.
Example C27_nonvacuous : caller_dicts ex_heap 6 (Some 8) exDag (Some [(exA, [nm "0"; nm "1"]); (exB, [nm "0"; nm "1"]); (exC, [nm "0"; nm "1"])]) /\
  snd (h_set_structure 6 (Some 8) ex_heap) = Ok ex_b /\
  (do bn <- match observe (run ex_h1 [ERemoveEdge ex_b exA exC; EAddEdge ex_b exA exC; ERemoveEdge ex_b exA exB]) ex_b with Some bn => Ok bn | None => Raise RuntimeErr end ;;
   do p <- bn_parents bn exC ;; do q <- bn_parents bn exB ;; do c <- bn_children bn exA ;; Ok (p, q, c)) = Ok ([exB; exA], [], [exC]).
Proof.
  split; [|split; reflexivity]. exists [(exA, 3); (exB, 4); (exC, 5)]. split; [reflexivity|]. split; [reflexivity|]. split.
  - repeat (constructor; [simpl; intuition lia|]). constructor.
  - exists [(exA, 7); (exB, 7); (exC, 7)]. eexists. split; [reflexivity|]. split; [reflexivity|]. split; [reflexivity|]. simpl. intuition lia.
Qed.

(** Nodes added with default arguments share one parents list: D and G are added with omitted parents; C -> D makes C a parent of G too *)
Theorem C27_shared_defaults_refuted : exists bn bn',
  observe (run ex_h1 [EAddNode ex_b (nm "G") None None None; EAddNode ex_b (nm "D") None None None]) ex_b = Some bn /\
  observe (run ex_h1 [EAddNode ex_b (nm "G") None None None; EAddNode ex_b (nm "D") None None None; EAddEdge ex_b exC (nm "D")]) ex_b = Some bn' /\
  bn_parents bn (nm "G") = Ok [] /\ bn_parents bn' (nm "G") = Ok [exC] /\ bn_children bn' exC = Ok [nm "D"].
Proof.
  exists (obs (run ex_h1 [EAddNode ex_b (nm "G") None None None; EAddNode ex_b (nm "D") None None None]) ex_b).
  exists (obs (run ex_h1 [EAddNode ex_b (nm "G") None None None; EAddNode ex_b (nm "D") None None None; EAddEdge ex_b exC (nm "D")]) ex_b).
  split; [vm_compute; reflexivity|]. split; [vm_compute; reflexivity|]. split; [vm_compute; reflexivity|]. split; vm_compute; reflexivity.
Qed.
Print Assumptions C27_shared_defaults_refuted.

(** ** C28 *)
(** copy() succeeds and observes the same network: V, E, and parents/values/cpt of every node *)
Theorem C28_copy_same : forall h b bn, observe h b = Some bn -> (forall v, In v (bn_V bn) -> In v (dkeys (bn_F bn))) ->
  exists h1 c bn', h_copy b h = (h1, Ok c) /\ observe h1 c = Some bn' /\ bn_V bn' = bn_V bn /\ bn_E bn' = bn_E bn /\
    (forall v, In v (bn_V bn) -> dget (bn_F bn') v = dget (bn_F bn) v) /\ (forall v, In v (dkeys (bn_F bn')) <-> In v (bn_V bn)).
Proof. intros h b bn O H. exact (copy_ok h b bn O H). Qed.
Print Assumptions C28_copy_same.

(** a history of edits of b or c, none of which uses an omitted default argument *)
Fixpoint plain_history (b c : ref) (h : heap) (es : list edit) : Prop :=
  match es with
  | [] => True
  | e :: t => plain h e /\ (edited e = b \/ edited e = c) /\ plain_history b c (run1 h e) t
  end.
Lemma plain_history_apart b c : forall es h, apart h b c -> plain_history b c h es -> apart (run h es) b c.
Proof.
  induction es as [|e t IH]; intros h A H; [exact A|]. simpl in *. destruct H as (P & T & H). apply IH; [|exact H]. destruct T as [<-|<-].
  - now apply edit_apart.
  - apply apart_sym in A. apply apart_sym. now apply edit_apart.
Qed.
(** However copy and original were edited before, one more edit of one does not show in the other. *)
Theorem C28_copy_independent : forall h b h1 c es e, wfheap h -> b < length h -> h_copy b h = (h1, Ok c) ->
  plain_history b c h1 es -> plain (run h1 es) e ->
  observe h1 b = observe h b /\
  (edited e = b -> observe (run1 (run h1 es) e) c = observe (run h1 es) c) /\
  (edited e = c -> observe (run1 (run h1 es) e) b = observe (run h1 es) b).
Proof.
  intros h b h1 c es e W L E H P. destruct (copy_apart h b h1 c W L E) as [A O]. split; [exact O|].
  pose proof (plain_history_apart b c es h1 A H) as A'. split; intros <-.
  - now apply edit_apart.
  - apply apart_sym in A'. now apply edit_apart.
Qed.
Print Assumptions C28_copy_independent.
(** in particular: any history of edits of the copy leaves the original as it was, and vice versa *)
Theorem C28_copy_history : forall h b h1 c es, wfheap h -> b < length h -> h_copy b h = (h1, Ok c) -> plain_history b c h1 es ->
  ((forall e, In e es -> edited e = c) -> observe (run h1 es) b = observe h b) /\
  ((forall e, In e es -> edited e = b) -> observe (run h1 es) c = observe h1 c).
Proof.
  intros h b h1 c es W L E H. destruct (copy_apart h b h1 c W L E) as [A O]. rewrite <- O. clear E O W L h. split.
  - revert h1 A H. induction es as [|e t IH]; intros h1 A H Hc; [reflexivity|]. simpl in *. destruct H as (P & _ & H).
    assert (Ee : edited e = c) by (apply Hc; now left). subst c. apply apart_sym in A. destruct (edit_apart h1 e b P A) as [A1 O1].
    rewrite <- O1. apply IH; [now apply apart_sym|assumption|]. intros e' He'. apply Hc. now right.
  - revert h1 A H. induction es as [|e t IH]; intros h1 A H Hc; [reflexivity|]. simpl in *. destruct H as (P & _ & H).
    assert (Ee : edited e = b) by (apply Hc; now left). subst b. destruct (edit_apart h1 e c P A) as [A1 O1].
    rewrite <- O1. apply IH; [assumption|assumption|]. intros e' He'. apply Hc. now right.
Qed.
Print Assumptions C28_copy_history.
Definition wfheapb (h : heap) : bool := forallb (fun o => forallb (fun x => x <? length h) (refs o)) h.
Lemma wfheapb_ok h : wfheapb h = true -> wfheap h.
Proof.
  unfold wfheapb. rewrite forallb_forall. intros H r o x E I. apply nth_error_In in E. apply H in E. rewrite forallb_forall in E. apply E in I. now apply Nat.ltb_lt.
Qed.
Definition ex_h2 : heap := fst (h_copy ex_b ex_h1).
Definition ex_c : ref := 39.
Definition ex_edits : list edit := [EAddEdge ex_c exB exA; ERemoveEdge ex_b exA exB; ESetCpt ex_c exA [qq 1 2; qq 1 2]; EAddNode ex_b (nm "D") (Some []) (Some [exA]) (Some [])].
Example C28_nonvacuous : wfheap ex_h1 /\ ex_b < length ex_h1 /\ h_copy ex_b ex_h1 = (ex_h2, Ok ex_c) /\ plain_history ex_b ex_c ex_h2 ex_edits /\
  option_map bn_E (observe (run ex_h2 ex_edits) ex_b) = Some [(exA, [exC]); (exB, [exC]); (exC, [])] /\
  option_map bn_E (observe (run ex_h2 ex_edits) ex_c) = Some [(exA, [exC; exB]); (exB, [exC; exA]); (exC, [])].
Proof.
  split; [apply wfheapb_ok; vm_compute; reflexivity|]. split; [apply Nat.ltb_lt; vm_compute; reflexivity|]. split; [vm_compute; reflexivity|].
  split; [|split; vm_compute; reflexivity]. cbn [plain_history ex_edits]. split; [split; vm_compute; reflexivity|]. split; [right; reflexivity|].
  split; [exact Logic.I|]. split; [left; reflexivity|]. split; [exact Logic.I|]. split; [right; reflexivity|]. split; [simpl; split; [|split]; discriminate|]. split; [left; reflexivity|exact Logic.I].
Qed.
(** With omitted arguments the claim fails: the original got node G with the default parents
    list, the copy later gets a node D with the default parents list, and an edge into the
    copy's D shows up in the original's G. *)
Theorem C28_default_argument_refuted : exists h b h1 c es e bn bn',
  wfheap h /\ h_copy b h = (h1, Ok c) /\ edited e = c /\ (forall x, In x es -> edited x = c) /\
  observe (run h1 es) b = Some bn /\ observe (run1 (run h1 es) e) b = Some bn' /\ bn_parents bn (nm "G") = Ok [] /\ bn_parents bn' (nm "G") = Ok [exC].
Proof.
  set (h := run ex_h1 [EAddNode ex_b (nm "G") None None None]). set (h1 := fst (h_copy ex_b h)).
  exists h, ex_b, h1, 44, [EAddNode 44 (nm "D") None None None], (EAddEdge 44 exC (nm "D")).
  exists (obs (run h1 [EAddNode 44 (nm "D") None None None]) ex_b), (obs (run h1 [EAddNode 44 (nm "D") None None None; EAddEdge 44 exC (nm "D")]) ex_b).
  split; [apply wfheapb_ok; vm_compute; reflexivity|]. split; [vm_compute; reflexivity|]. split; [reflexivity|]. split; [intros x [<-|[]]; reflexivity|].
  split; [vm_compute; reflexivity|]. split; [vm_compute; reflexivity|]. split; vm_compute; reflexivity.
Qed.
Print Assumptions C28_default_argument_refuted.

(** ** C66: BayesNet(E) keeps the caller's dict *)
Theorem C66_caller_dict_is_the_network : forall h e vd E vdv, caller_dicts h e vd E vdv -> closed_edges E -> acyclic E ->
  (forall u c, dget E u = Some c -> NoDup c) -> (forall d v, vdv = Some d -> In v (dkeys E) -> In v (dkeys d)) ->
  exists h' b, h_set_structure e vd h = (h', Ok b) /\
  forall es, (forall x, In x es -> edge_edit b (dkeys E) x) ->
  exists E', get_dict (run h' es) (get_names (run h' es)) e = Some E' /\
    forall x y, edge E' x y <-> match last_say es x y with Some added => added = true | None => edge E x y end.
Proof.
  intros h e vd E vdv Hc C A ND Hv. destruct (C27_constructor h e vd E vdv Hc C A ND Hv) as (h' & b & bn & H1 & H2 & H3 & H4 & H5 & H6).
  exists h', b. split; [assumption|]. intros es Hes. destruct (C20_topsort_acyclic E C A) as (V & EV & P).
  destruct (set_structure_heap h e vd E vdv bn Hc C H3) as (h'' & b' & K1 & K2 & K3 & v & f & K4). rewrite H1 in K1. inversion K1; subst h'' b'.
  assert (BV : bn_V bn = V /\ bn_E bn = E).
  { unfold set_structure in H3. rewrite EV in H3. cbn [bind] in H3. match type of H3 with bind ?m _ = _ => destruct m; cbn [bind] in H3; [|discriminate] end.
    inversion H3. auto. }
  destruct BV as [BV BE].
  destruct (history_ok es h' b bn H2 H4 H5 H6) as (bn' & O & _ & Kp & _ & _ & _ & _ & EE).
  { intros x Hx. specialize (Hes x Hx). rewrite BV. destruct x; simpl in *; try contradiction;
      destruct Hes as (Q1 & Q2 & Q3); (split; [assumption|]); split; now apply (Permutation_in _ (Permutation_sym P)). }
  exists (bn_E bn'). rewrite BE in EE. split; [|exact EE].
  destruct (observe_inv _ b bn' O) as (V' & E' & F' & dE & dF & G1 & _ & G3 & G4 & _).
  rewrite (Kp b _ K4) in G1 by discriminate. inversion G1; subst V' E' F'. rewrite get_dict_ent, G3. exact G4.
Qed.
Print Assumptions C66_caller_dict_is_the_network.
Definition ex_h3 : heap := fst (h_set_structure 6 (Some 8) ex_h1).
Definition ex_bn3 : bayesnet := Eval vm_compute in obs ex_h3 32.
Definition ex_bn4 : bayesnet := Eval vm_compute in obs (run ex_h3 [ERemoveEdge ex_b exA exB]) 32.
(** two networks built from one dict: an edge added to the first makes the second inconsistent *)
Theorem C66_two_networks_refuted : exists h1 b1 h2 b2 bn bn',
  h_set_structure 6 (Some 8) ex_heap = (h1, Ok b1) /\ h_set_structure 6 (Some 8) h1 = (h2, Ok b2) /\
  observe h2 b2 = Some bn /\ agree bn /\
  observe (run h2 [ERemoveEdge b1 exA exB]) b2 = Some bn' /\ bn_parents bn' exB = Ok [exA] /\ bn_children bn' exA = Ok [exC] /\ ~ agree bn'.
Proof.
  exists ex_h1, ex_b, ex_h3, 32, ex_bn3, ex_bn4.
  split; [vm_compute; reflexivity|]. split; [vm_compute; reflexivity|]. split; [vm_compute; reflexivity|]. split; [apply agreeb_ok; vm_compute; reflexivity|].
  split; [vm_compute; reflexivity|]. split; [vm_compute; reflexivity|]. split; [vm_compute; reflexivity|].
  intros A. assert (H := A exA exB). destruct H as [H _]; [now left|right; right; now left|].
  assert (I : In exA (nparents ex_bn4 exB)) by (now left).
  apply H, edge_in_edge in I. vm_compute in I. discriminate.
Qed.
Print Assumptions C66_two_networks_refuted.

(** ** C67: set_cpt, set_parents, set_values replace one field of one node and nothing else *)
Theorem C67_setters : forall h b bn rv l ps vs d, observe h b = Some bn -> unshared h b -> dget (bn_F bn) rv = Some d ->
  (exists h', do_edit (ESetCpt b rv l) h = (h', Ok tt) /\ unshared h' b /\
     observe h' b = Some (mkBN (bn_V bn) (bn_E bn) (dset (bn_F bn) rv (mkF (f_parents d) (f_values d) l)))) /\
  (exists h', do_edit (ESetParents b rv ps) h = (h', Ok tt) /\ unshared h' b /\
     observe h' b = Some (mkBN (bn_V bn) (bn_E bn) (dset (bn_F bn) rv (mkF ps (f_values d) (f_cptl d))))) /\
  (exists h', do_edit (ESetValues b rv vs) h = (h', Ok tt) /\ unshared h' b /\
     observe h' b = Some (mkBN (bn_V bn) (bn_E bn) (dset (bn_F bn) rv (mkF (f_parents d) vs (f_cptl d))))).
Proof.
  intros h b bn rv l ps vs d O U D. split; [|split].
  - destruct (setter_ok h b bn (ESetCpt b rv l) (mkBN (bn_V bn) (bn_E bn) (dset (bn_F bn) rv (mkF (f_parents d) (f_values d) l))) O U eq_refl) as (h' & A & B & C); [|eauto].
    simpl. unfold bn_set_cpt, getitem. now rewrite D.
  - destruct (setter_ok h b bn (ESetParents b rv ps) (mkBN (bn_V bn) (bn_E bn) (dset (bn_F bn) rv (mkF ps (f_values d) (f_cptl d)))) O U eq_refl) as (h' & A & B & C); [|eauto].
    simpl. unfold bn_set_parents, getitem. now rewrite D.
  - destruct (setter_ok h b bn (ESetValues b rv vs) (mkBN (bn_V bn) (bn_E bn) (dset (bn_F bn) rv (mkF (f_parents d) vs (f_cptl d)))) O U eq_refl) as (h' & A & B & C); [|eauto].
    simpl. unfold bn_set_values, getitem. now rewrite D.
Qed.
Print Assumptions C67_setters.
(** the network built above meets the hypotheses *)
Example C67_nonvacuous : (exists bn, observe ex_h1 ex_b = Some bn /\ In exB (dkeys (bn_F bn))) /\
  option_map (fun bn => (bn_parents bn exB, bn_cpt bn exA)) (observe (run ex_h1 [ESetParents ex_b exB [exC]; ESetCpt ex_b exA []]) ex_b) = Some (Ok [exC], Ok []).
Proof.
  split; [|vm_compute; reflexivity]. exists (obs ex_h1 ex_b). split; [vm_compute; reflexivity|]. apply mem_In. vm_compute. reflexivity.
Qed.
