(** Properties_Defaults.v -- C142: nodes added with omitted arguments, and networks built from nothing, in whole
    programs (steps: BayesNetHeap.v and HeapDefaults.v; what can be observed: [observe] in BayesNetHeap.v). *)
From Verif Require Import Py Num BayesNet SpecFactor Graph SpecGraph GraphTheory BayesNetHeap HeapFrame HeapNet HeapEdit HeapBuild HeapDefaults Examples Properties_Heap.
Open Scope nat_scope.

(** the one list object that is the parents list of every node added with omitted parents *)
Definition shared_parents (h : heap) : list name := match get_names h dflt_parents with Some l => l | None => [] end.

Lemma mapO_kinds {A B} (f : A -> option B) l : (forall x, In x l -> f x <> None) -> mapO f l <> None.
Proof. intros H E. destruct (mapO_total f l H) as (l' & X). congruence. Qed.

(** the list of nodes of [b] is not at the same time one of its children, parents or values lists *)
Definition own_V (h : heap) (b : ref) : Prop := forall V E F dE dF, nth_error h b = Some (ONet V E F) -> nth_error h E = Some (ODict dE) -> nth_error h F = Some (ODict dF) ->
  ~ In V (map snd dE) /\ forall r c p w, In r (map snd dF) -> nth_error h r = Some (ODat c p w) -> V <> p /\ V <> w.
Definition E_not_F (h : heap) (b : ref) : Prop := forall V E F, nth_error h b = Some (ONet V E F) -> E <> F.
Lemma unshared_own_V h b : unshared h b -> own_V h b.
Proof.
  intros (V & E & F & dE & dF & Hb & HE & HF & ND & W) V' E' F' dE' dF' Hb' HE' HF'. rewrite Hb in Hb'. injection Hb' as <- <- <-. rewrite HE in HE'. injection HE' as <-. rewrite HF in HF'. injection HF' as <-.
  inversion ND as [|? ? N _]; subst. split; [intros X; apply N, in_or_app; now left|]. intros r c p w Hr Hd. split.
  - intros <-. apply N, in_or_app. right. apply in_map_iff. exists r. split; [unfold parent_ref; now rewrite Hd|exact Hr].
  - intros <-. apply (W r c p V Hr Hd). now left.
Qed.

Section AddNode.
  Variable h : heap. Variable b : ref. Variable bn : bayesnet. Variable rv : name. Variable rc rp rv' : ref.
  Variable cs : list Qc. Variable ps vs : list name.
  Hypothesis O : observe h b = Some bn.
  Hypothesis Hc : get_nums h rc = Some cs.
  Hypothesis Hp : get_names h rp = Some ps.
  Hypothesis Hv : get_names h rv' = Some vs.
  Lemma add_node_runs : exists V E F dE dF,
    nth_error h b = Some (ONet V E F) /\ get_names h V = Some (bn_V bn) /\ nth_error h E = Some (ODict dE) /\ nth_error h F = Some (ODict dF) /\
    mapO (ent (get_names h)) dE = Some (bn_E bn) /\ mapO (ent (get_data h)) dF = Some (bn_F bn) /\
    h_add_node b rv rc rp rv' h = (upd_nth F (ODict (dset dF rv (length h))) (upd_nth V (ONames (bn_V bn ++ [rv])) h ++ [ODat rc rp rv']), Ok tt).
  Proof.
    destruct (observe_inv h b bn O) as (V & E & F & dE & dF & Hb & HV & HE & ME & HF & MF). exists V, E, F, dE, dF.
    split; [exact Hb|]. split; [exact HV|]. split; [exact HE|]. split; [exact HF|]. split; [exact ME|]. split; [exact MF|].
    unfold h_add_node. unfold bindM at 1. unfold net_V at 1, load_net at 1, bindM at 1 2, load at 1. rewrite Hb. unfold ret at 1 2. cbn [fst].
    unfold bindM at 1. rewrite (append_ok h V _ rv HV). set (h1 := upd_nth V (ONames (bn_V bn ++ [rv])) h).
    assert (Hb1 : nth_error h1 b = Some (ONet V E F)) by now apply (st_other h V (bn_V bn)).
    assert (HF1 : nth_error h1 F = Some (ODict dF)) by now apply (st_other h V (bn_V bn)).
    assert (L1 : length h1 = length h) by apply upd_nth_length.
    unfold bindM at 1. unfold alloc at 1. rewrite L1. set (h2 := h1 ++ [ODat rc rp rv']).
    assert (Hb2 : nth_error h2 b = Some (ONet V E F)) by now apply nth_app.
    assert (HF2 : nth_error h2 F = Some (ODict dF)) by now apply nth_app.
    unfold bindM at 1. unfold net_F at 1, load_net at 1, bindM at 1 2, load at 1. rewrite Hb2. unfold ret at 1 2. cbn [snd].
    unfold setitem_ref, bindM at 1. unfold load_dict at 1, bindM at 1, load at 1. rewrite HF2. unfold ret at 1.
    unfold store. assert (LF : F < length h2) by (apply nth_error_Some; congruence). destruct (Nat.ltb_spec F (length h2)) as [_|]; [|lia]. reflexivity.
  Qed.

  (** the network as it can be observed afterwards *)
  Lemma add_node_ok : own_V h b -> E_not_F h b -> exists h', h_add_node b rv rc rp rv' h = (h', Ok tt) /\
    ((forall V E F, nth_error h b = Some (ONet V E F) -> rp <> V /\ rv' <> V) ->
     observe h' b = Some (mkBN (bn_V bn ++ [rv]) (bn_E bn) (dset (bn_F bn) rv (mkF ps vs cs)))).
  Proof.
    intros OV EF. destruct add_node_runs as (V & E & F & dE & dF & Hb & HV & HE & HF & ME & MF & R). eexists. split; [exact R|].
    intros NV. specialize (NV V E F Hb). destruct NV as [NVp NVv]. destruct (OV V E F dE dF Hb HE HF) as [OE OD]. specialize (EF V E F Hb).
    set (h1 := upd_nth V (ONames (bn_V bn ++ [rv])) h). set (h2 := h1 ++ [ODat rc rp rv']). set (h3 := upd_nth F (ODict (dset dF rv (length h))) h2).
    assert (L1 : length h1 = length h) by apply upd_nth_length.
    assert (S1 : forall y o, nth_error h y = Some o -> (forall m, o <> ONames m) -> nth_error h1 y = Some o) by (intros; now apply (st_other h V (bn_V bn))).
    assert (HF2 : nth_error h2 F = Some (ODict dF)) by (apply nth_app, S1; [exact HF|discriminate]).
    assert (S3 : forall y o, nth_error h2 y = Some o -> y <> F -> nth_error h3 y = Some o) by (intros y o Hy N; unfold h3; now rewrite upd_other).
    assert (HF3 : nth_error h3 F = Some (ODict (dset dF rv (length h)))) by (apply upd_get, nth_error_Some; congruence).
    assert (G1 : forall y l, get_names h y = Some l -> y <> V -> get_names h3 y = Some l).
    { intros y l Hy N. assert (X : get_names h1 y = Some l) by (unfold h1; rewrite (st_names h V (bn_V bn)) by exact HV; destruct (Nat.eqb_spec V y); [congruence|exact Hy]).
      apply (names_app h1 [ODat rc rp rv']) in X. fold h2 in X. unfold get_names in *. destruct (nth_error h2 y) as [o|] eqn:Ey; [|discriminate]. rewrite (S3 y o); [exact X|exact Ey|intros ->; rewrite HF2 in Ey; injection Ey as <-; discriminate]. }
    assert (G2 : forall y l, get_nums h y = Some l -> get_nums h3 y = Some l).
    { intros y l Hy. assert (X : get_nums h1 y = Some l) by (unfold h1; now rewrite (st_nums h V (bn_V bn))).
      apply (nums_app h1 [ODat rc rp rv']) in X. fold h2 in X. unfold get_nums in *. destruct (nth_error h2 y) as [o|] eqn:Ey; [|discriminate]. rewrite (S3 y o); [exact X|exact Ey|intros ->; rewrite HF2 in Ey; injection Ey as <-; discriminate]. }
    apply (observe_intro _ _ _ V E F dE (dset dF rv (length h))); cbn [bn_V bn_E bn_F].
    - apply S3; [apply nth_app, S1; [exact Hb|discriminate]|]. intros ->. congruence.
    - unfold get_names. rewrite (S3 V (ONames (bn_V bn ++ [rv]))); [reflexivity| |].
      + apply nth_app. unfold h1. rewrite (st_nth h V (bn_V bn)) by exact HV. now rewrite Nat.eqb_refl.
      + intros ->. unfold get_names in HV. rewrite HF in HV. discriminate.
    - apply S3; [apply nth_app, S1; [exact HE|discriminate]|exact EF].
    - apply (mapO_same _ _ dE (bn_E bn) ME). intros y Hy. assert (D := mapO_defined _ _ _ ME). apply in_map_iff in Hy as ([k y'] & E1 & Hy). cbn in E1. subst y'.
      specialize (D _ Hy). unfold ent in D. cbn [fst snd] in D. destruct (get_names h y) as [l|] eqn:Ey; [|congruence]. apply G1; [exact Ey|]. intros ->. apply OE, in_map_iff. now exists (k, V).
    - exact HF3.
    - apply (mapO_dset _ rv (length h) (mkF ps vs cs)).
      + apply (mapO_same _ _ dF (bn_F bn) MF). intros y Hy. assert (D := mapO_defined _ _ _ MF). apply in_map_iff in Hy as ([k y'] & E1 & Hy). cbn in E1. subst y'.
        specialize (D _ Hy). unfold ent in D. cbn [fst snd] in D. destruct (get_data h y) as [d|] eqn:Ey; [|congruence].
        destruct (get_data_inv h y d Ey) as (c & p & w & Q1 & Q2 & Q3 & Q4). destruct (OD y c p w) as [Np Nw]; [apply in_map_iff; now exists (k, y)|exact Q1|].
        apply (get_data_intro h3 y d c p w); [|apply G1; [exact Q2|congruence]|apply G1; [exact Q3|congruence]|now apply G2].
        apply S3; [apply nth_app, S1; [exact Q1|discriminate]|]. intros ->. congruence.
      + apply (get_data_intro h3 (length h) (mkF ps vs cs) rc rp rv'); cbn [f_parents f_values f_cptl]; [|apply G1; [exact Hp|exact NVp]|apply G1; [exact Hv|exact NVv]|now apply G2].
        apply S3; [unfold h2; rewrite <- L1; apply nth_new|]. intros X. assert (F < length h) by (apply nth_error_Some; congruence). lia.
  Qed.
End AddNode.

(** [b] is a network object with a list of nodes and a dict of node data *)
Definition netty (h : heap) (b : ref) : Prop := exists V E F l dF, nth_error h b = Some (ONet V E F) /\ get_names h V = Some l /\ nth_error h F = Some (ODict dF).
Lemma add_node_netty h b rv : dflt_inv h -> netty h b -> exists h', h_add_node b rv dflt_cpt dflt_parents dflt_values h = (h', Ok tt) /\ netty h' b /\ calm h h' /\ dflt_inv h'.
Proof.
  intros I (V & E & F & l & dF & Hb & HV & HF). assert (T := tri_add_node b rv dflt_cpt dflt_parents dflt_values h (or_introl eq_refl) I).
  assert (R : h_add_node b rv dflt_cpt dflt_parents dflt_values h =
    (upd_nth F (ODict (dset dF rv (length h))) (upd_nth V (ONames (l ++ [rv])) h ++ [ODat dflt_cpt dflt_parents dflt_values]), Ok tt)).
  { unfold h_add_node, net_V, net_F, load_net, bindM, load, ret. rewrite Hb. cbn [fst snd]. rewrite (append_ok h V _ rv HV). unfold alloc. rewrite upd_nth_length.
    set (h2 := upd_nth V (ONames (l ++ [rv])) h ++ [ODat dflt_cpt dflt_parents dflt_values]).
    assert (Hb2 : nth_error h2 b = Some (ONet V E F)) by (apply nth_app, (st_other h V l); [exact HV|exact Hb|discriminate]).
    assert (HF2 : nth_error h2 F = Some (ODict dF)) by (apply nth_app, (st_other h V l); [exact HV|exact HF|discriminate]).
    rewrite Hb2. cbn [snd]. unfold setitem_ref, load_dict, bindM, load, ret. rewrite HF2. unfold store.
    assert (LF : F < length h2) by (apply nth_error_Some; congruence). destruct (Nat.ltb_spec F (length h2)) as [_|]; [reflexivity|lia]. }
  rewrite R in *. destruct T as (I' & K & _). eexists. split; [reflexivity|]. split; [|split; [exact K|exact I']].
  exists V, E, F, (l ++ [rv]), (dset dF rv (length h)). split; [now apply K|]. split.
  - unfold get_names. rewrite upd_other; [|intros ->; unfold get_names in HV; rewrite HF in HV; discriminate].
    assert (Q : nth_error (upd_nth V (ONames (l ++ [rv])) h) V = Some (ONames (l ++ [rv]))) by (rewrite (st_nth h V l) by exact HV; now rewrite Nat.eqb_refl).
    now rewrite (nth_app _ _ _ _ Q).
  - apply upd_get, nth_error_Some. rewrite (nth_app _ _ F (ODict dF)); [discriminate|]. apply (st_other h V l); [exact HV|exact HF|discriminate].
Qed.
Lemma has_node_netty h b u : netty h b -> exists r, h_has_node b u h = (h, Ok r).
Proof. intros (V & E & F & l & dF & Hb & HV & HF). exists (mem u l). unfold h_has_node, net_V, load_net, bindM, load, ret. rewrite Hb. cbn. now rewrite (load_names_ok h V l HV). Qed.
Lemma no_edges_raises h b V E F u v : dflt_inv h -> netty h b -> nth_error h b = Some (ONet V E F) -> nth_error h E = Some (ODict []) -> snd (h_add_edge b u v h) = Raise KeyError.
Proof.
  intros I N Hb HE. unfold h_add_edge. unfold bindM at 1. destruct (has_node_netty h b u N) as (hu & ->).
  assert (S1 : exists h1, (if hu then ret tt else h_add_node b u dflt_cpt dflt_parents dflt_values) h = (h1, Ok tt) /\ netty h1 b /\ calm h h1 /\ dflt_inv h1).
  { destruct hu; [exists h; auto using calm_refl|now apply add_node_netty]. }
  destruct S1 as (h1 & R1 & N1 & K1 & I1). unfold bindM at 1. rewrite R1. unfold bindM at 1. destruct (has_node_netty h1 b v N1) as (hv & ->).
  assert (S2 : exists h2, (if hv then ret tt else h_add_node b v dflt_cpt dflt_parents dflt_values) h1 = (h2, Ok tt) /\ netty h2 b /\ calm h1 h2 /\ dflt_inv h2).
  { destruct hv; [exists h1; auto using calm_refl|now apply add_node_netty]. }
  destruct S2 as (h2 & R2 & N2 & K2 & I2). unfold bindM at 1. rewrite R2. assert (K := calm_trans _ _ _ K1 K2). destruct K as ((_ & KN & KE) & _ & _).
  unfold bindM at 1. unfold h_has_edge at 1. unfold bindM at 1. rewrite (E_at_ok h2 b V E F [] u (KN _ _ _ _ Hb) (KE _ _ _ _ _ Hb HE)). reflexivity.
Qed.
Lemma observe_netty h b bn : observe h b = Some bn -> netty h b.
Proof. intros O. destruct (observe_inv h b bn O) as (V & E & F & dE & dF & Hb & HV & HE & ME & HF & MF). exists V, E, F, (bn_V bn), dF. auto. Qed.
(** ** C142 *)
(** add_node(rv) in any program: the node gets an empty table and no values, and the shared list as its parents *)
Theorem C142_add_node_defaults : forall ss b bn rv, fair heap0 ss -> let h := run_steps heap0 ss in
  observe h b = Some bn -> own_V h b ->
  exists h', do_edit (EAddNode b rv None None None) h = (h', Ok tt) /\
    observe h' b = Some (mkBN (bn_V bn ++ [rv]) (bn_E bn) (dset (bn_F bn) rv (mkF (shared_parents h) [] []))) /\
    shared_parents h' = shared_parents h.
Proof.
  intros ss b bn rv Fs h O OV. destruct (steps_keep ss heap0 dflt_inv_0 Fs) as [I _]. fold h in I. destruct (di_par h I) as (l & Hl).
  assert (Gl : get_names h dflt_parents = Some l) by (unfold get_names; now rewrite Hl).
  assert (Sl : shared_parents h = l) by (unfold shared_parents; now rewrite Gl).
  destruct (add_node_ok h b bn rv dflt_cpt dflt_parents dflt_values [] l [] O) as (h' & R & Ob); [unfold get_nums; now rewrite (di_cpt h I)|exact Gl|unfold get_names; now rewrite (di_val h I)|exact OV| |].
  { intros V E F Hb. now apply (di_EF h I b V E F b V E F). }
  exists h'. split; [exact R|]. rewrite Sl. split.
  - apply Ob. intros V E F Hb. assert (X := di_net h I b V E F Hb). unfold dflt_parents, dflt_values. lia.
  - destruct (add_node_runs h b bn rv dflt_cpt dflt_parents dflt_values O) as (V & E & F & dE & dF & Hb & HV & HE & HF & ME & MF & R').
    rewrite R in R'. injection R' as ->. unfold shared_parents, get_names. assert (X := di_net h I b V E F Hb).
    rewrite upd_other by (unfold dflt_parents; lia). rewrite nth_old by (rewrite upd_nth_length; unfold dflt_parents; lia). rewrite upd_other by (unfold dflt_parents; lia). now rewrite Hl.
Qed.
Print Assumptions C142_add_node_defaults.

(** A network made by BayesNet() never gets an edge, whatever the program does: add_edge raises KeyError for every pair *)
Theorem C142_empty_network_stays_without_edges : forall ss ss' b bn u v, fair heap0 ss -> let h := run_steps heap0 ss in
  snd (do_step SNew h) = Ok (Some b) -> fair (run_step h SNew) ss' -> let h' := run_steps (run_step h SNew) ss' in
  observe h' b = Some bn -> bn_E bn = [] /\ snd (h_add_edge b u v h') = Raise KeyError.
Proof.
  intros ss ss' b bn u v Fs h Eb Fs' h' O. destruct (steps_keep ss heap0 dflt_inv_0 Fs) as [I _]. fold h in I.
  destruct (step_keeps h SNew I Logic.I) as [I1 _]. destruct (steps_keep ss' _ I1 Fs') as [I2 K2]. fold h' in I2, K2.
  assert (T := tri1_new h I). cbn [do_step] in Eb. unfold run_step in K2. cbn [do_step] in K2. unfold bindM in Eb, K2. destruct (new_net h) as [h1 [r|x]]; [|discriminate]. cbn in Eb, K2.
  injection Eb as ->. destruct T as (_ & _ & (V & E & F & Hb & HE) & _). destruct K2 as (_ & K2 & K3). assert (Hb2 := K2 _ _ _ _ Hb). assert (HE2 := K3 _ _ _ _ _ Hb HE).
  split.
  - destruct (observe_inv h' b bn O) as (V' & E' & F' & dE & dF & Hb' & _ & HE' & ME & _). rewrite Hb2 in Hb'. injection Hb' as <- <- <-. rewrite HE2 in HE'. injection HE' as <-. cbn in ME. congruence.
  - apply (no_edges_raises h' b V E F u v I2); [now apply (observe_netty h' b bn)|exact Hb2|exact HE2].
Qed.
Print Assumptions C142_empty_network_stays_without_edges.

(** A program that never passes an edge dict to BayesNet has no network with an edge *)
Theorem C142_no_edges_without_a_dict : forall ss b bn u v, fair heap0 ss -> (forall e vd, ~ In (SBuild e vd) ss) -> let h := run_steps heap0 ss in
  observe h b = Some bn -> bn_E bn = [] /\ snd (h_add_edge b u v h) = Raise KeyError.
Proof.
  intros ss b bn u v Fs NB h O. destruct (steps_keep ss heap0 dflt_inv_0 Fs) as [I _]. fold h in I.
  assert (A : forall b V E F, nth_error h b = Some (ONet V E F) -> nth_error h E = Some (ODict [])).
  { unfold h. assert (A0 : forall b V E F, nth_error heap0 b = Some (ONet V E F) -> nth_error heap0 E = Some (ODict [])) by (intros [|[|[|[|x]]]] ? ? ? H; discriminate H).
    revert Fs NB A0. clear. generalize dflt_inv_0. generalize heap0. induction ss as [|s ss IH]; intros h0 I Fs NB A0; [exact A0|]. destruct Fs as [F1 F2]. cbn [run_steps fold_left].
    destruct (step_keeps h0 s I F1) as [I1 K1]. apply (IH (run_step h0 s) I1 F2); [intros e vd X; apply (NB e vd); now right|]. intros b V E F Hb.
    assert (Q : nth_error h0 b = Some (ONet V E F) \/ nth_error (run_step h0 s) E = Some (ODict [])).
    { assert (C : forall m : M (option ref), tri m h0 (fun _ _ => True) -> forall V E F, nth_error (fst (m h0)) b = Some (ONet V E F) -> nth_error h0 b = Some (ONet V E F)).
      { intros m T V' E' F' X. specialize (T I). destruct (m h0) as [h' r]. cbn in X. destruct T as (_ & K & _). now apply K. }
      unfold run_step in Hb |- *. destruct s as [l|d| |e vd|c|e].
      - left. apply (C (do_step (SList l))); [|exact Hb]. cbn [do_step]. eapply tri_bind; [apply tri_alloc; exact Logic.I|]. intros. now apply tri_ret.
      - left. apply (C (do_step (SDict d))); [|exact Hb]. cbn [do_step]. eapply tri_bind; [apply tri_alloc|intros; now apply tri_ret]. intros x Hx. now apply F1.
      - cbn [do_step] in *. unfold bindM in *. assert (T := tri1_new h0 I). destruct (new_net h0) as [h' [r|x]]; cbn in *; destruct T as (_ & _ & T).
        + destruct T as ((V' & E' & F' & T1 & T2) & T3). destruct (T3 b V E F Hb) as [X| ->]; [now left|]. right. rewrite Hb in T1. injection T1 as -> -> ->. exact T2.
        + left. now apply T.
      - exfalso. apply (NB e vd). now left.
      - cbn [do_step] in *. unfold bindM in *. assert (T := tri1_copy c h0 I). destruct (h_copy c h0) as [h' [r|x]]; cbn in *; destruct T as (_ & _ & T).
        + destruct T as (T1 & (V1 & E1 & G1 & T2) & T3). destruct (T3 b V E F Hb) as [X| ->]; [now left|]. right. destruct (T1 V1 E1 G1 T2 (A0 _ _ _ _ T2)) as (V' & E' & F' & T4 & T5). rewrite Hb in T4. injection T4 as -> -> ->. exact T5.
        + left. now apply T.
      - left. apply (C (do_step (SEdit e))); [|exact Hb]. cbn [do_step]. eapply tri_bind; [apply tri_edit|]. intros. now apply tri_ret. }
    destruct Q as [Q|Q]; [|exact Q]. apply (proj2 (proj2 K1) b V E F); [exact Q|]. now apply (A0 b V E F). }
  destruct (observe_inv h b bn O) as (V & E & F & dE & dF & Hb & HV & HE & ME & HF & MF). assert (HE' := A b V E F Hb). split.
  - rewrite HE in HE'. injection HE' as ->. cbn in ME. congruence.
  - apply (no_edges_raises h b V E F u v I); [now apply (observe_netty h b bn)|exact Hb|exact HE'].
Qed.
Print Assumptions C142_no_edges_without_a_dict.

(** a program that meets the hypotheses: an edge dict A -> B, a network from it, two nodes D and G with omitted
    arguments and the edge A -> D, a network from nothing with a node, a copy of that; the shared list is then [A] *)
Definition ex_program : list step :=
  [SList [exB]; SList []; SDict [(exA, 3); (exB, 4)]; SBuild 5 None; SEdit (EAddNode 16 (nm "D") None None None);
   SEdit (EAddEdge 16 exA (nm "D")); SNew; SEdit (EAddNode 21 (nm "G") None None None); SCopy 21].
Example C142_nonvacuous : fair heap0 ex_program /\
  (do x <- match observe (run_steps heap0 ex_program) 16 with Some bn => Ok bn | None => Raise RuntimeErr end ;; Ok (bn_V x, bn_E x, nparents x (nm "D"))) = Ok ([exA; exB; nm "D"], [(exA, [exB; nm "D"]); (exB, [])], [exA]) /\
  (do x <- match observe (run_steps heap0 ex_program) 21 with Some bn => Ok bn | None => Raise RuntimeErr end ;; Ok (bn_V x, bn_E x, nparents x (nm "G"))) = Ok ([nm "G"], [], [exA]) /\
  own_V (run_steps heap0 ex_program) 16 /\ shared_parents (run_steps heap0 ex_program) = [exA] /\
  snd (h_add_edge 21 (nm "G") (nm "H") (run_steps heap0 ex_program)) = Raise KeyError.
Proof.
  split.
  - cbn [fair ex_program]. split; [exact Logic.I|]. split; [exact Logic.I|]. split; [|split; [|repeat split]].
    + cbn. intros r [<-|[<-|[]]]; lia.
    + intros b V E F H. vm_compute in H. destruct b as [|[|[|[|[|[|[|b]]]]]]]; discriminate H.
  - split; [vm_compute; reflexivity|]. split; [vm_compute; reflexivity|]. split; [|split; vm_compute; reflexivity].
    intros V E F dE dF H HE HF. vm_compute in H. injection H as <- <- <-. vm_compute in HE, HF. injection HE as <-. injection HF as <-. split; [intros [X|[X|[]]]; discriminate X|].
    intros r c p w [<-|[<-|[<-|[]]]] H; vm_compute in H; injection H as <- <- <-; split; discriminate.
Qed.
