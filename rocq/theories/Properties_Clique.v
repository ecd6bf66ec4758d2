(** Properties_Clique.v -- clique trees and belief propagation (C62, C63, C91 - C97).

    networkx is a parameter: [nx] decides chordality (sound: it says yes to chordal graphs only) and
    [mc] lists the maximal cliques of a chordal graph in some order (SpecClique.clique_list).
    [fun _ => false] and [CliqueRef.all_cliques] show that such functions exist. *)
From Verif Require Import Py Num BayesNet Factor SpecFactor SpecGraph SpecMst Radix SumOver FactorMul FactorOut FactorMore Factorization SpecInference VE VETotal GraphNet GraphFacts Graph Mst Chordal GraphCheck Dirac CliqueTree SpecClique CliqueFacts CliqueInit CliqueBuild CliqueSend CliqueBP CliqueMain CliqueExact Junction CliqueNet CliqueRef Properties_Graph Examples.
Open Scope nat_scope.

Definition exChain : bayesnet :=
  mkBN [exA; exB; exC] [(exA, [exB]); (exB, [exC]); (exC, [])]
       [(exA, mkF [] [nm "0"; nm "1"] [qq 2 5; qq 3 5]);
        (exB, mkF [exA] [nm "0"; nm "1"] [qq 1 5; qq 4 5; qq 1 2; qq 1 2]);
        (exC, mkF [exB] [nm "0"; nm "1"] [qq 1 10; qq 9 10; qq 3 10; qq 7 10])].
Definition never : list (name * name) -> bool := fun _ => false.
Definition tree_of (bn : bayesnet) : res ctree := clique_tree never all_cliques id_oracle bn.
Definition the_tree (bn : bayesnet) : ctree := match tree_of bn with Ok t => t | Raise _ => mkCT [] [] [] no_heap end.
Lemma never_sound : forall es, never es = true -> chordal es.
Proof. intros es H. discriminate. Qed.
Lemma exChain_wf : wfnet exChain. Proof. now apply wfnetb_ok. Qed.
Lemma exChain_graph : graph_ok exChain. Proof. now apply graph_okb_ok. Qed.

Lemma NoDup_app_l {A} (l m : list A) : NoDup (l ++ m) -> NoDup l.
Proof. induction l as [|x l IH]; intros H; [constructor|]. simpl in H. inversion H as [|? ? N H']; subst. constructor; [intros C; apply N; apply in_or_app; now left|now apply IH]. Qed.

Lemma mapM_total {A B} (f : A -> res B) l : (forall x, In x l -> exists y, f x = Ok y) -> exists ys, mapM f l = Ok ys.
Proof.
  induction l as [|x l IH]; intros H; [exists []; reflexivity|]. destruct (H x (or_introl eq_refl)) as (y & Ey). destruct IH as (ys & E); [intros z Hz; apply H; now right|].
  exists (y :: ys). cbn [mapM]. rewrite Ey. cbn [bind]. now rewrite E.
Qed.

(** the hypotheses of the theorems below hold for a real network *)
Example clique_nonvacuous : wfnet exChain /\ graph_ok exChain /\ good id_oracle /\ (forall es, never es = true -> chordal es) /\
  (forall es, chordal es -> clique_list es (all_cliques es)) /\ tree_of exChain = Ok (the_tree exChain) /\
  map c_scope (t_C (the_tree exChain)) = [[exB; exC]; [exA; exB]] /\ t_E (the_tree exChain) = [(NInt 0, [NInt 1]); (NInt 1, [])].
Proof.
  split; [exact exChain_wf|]. split; [exact exChain_graph|]. split; [apply good_id|]. split; [exact never_sound|]. split; [intros es _; apply all_cliques_ok|].
  split; [vm_compute; reflexivity|]. split; vm_compute; reflexivity.
Qed.

(** ** C62: the potential of a clique *)
(** which nodes a clique gets, and what its potential is *)
Theorem C62_potential : forall nx mc o bn t k c, wfnet bn -> good o -> clique_tree nx mc o bn = Ok t -> nth_error (t_C t) k = Some c ->
  exists nodes again p b f,
    (forall v, In v nodes <-> In v (bn_V bn) /\ fits bn v (c_scope c) /\ forall j, j < k -> ~ fits bn v (scope_at (t_C t) j)) /\
    NoDup nodes /\ doubled (table_size bn) nodes again /\
    c_psi c = Some p /\ c_belief c = Some b /\ c_msgs c = [] /\ p <> b /\
    fload (t_heap t) p = Ok f /\ fload (t_heap t) b = Ok f /\ wf (ncard bn) f /\
    (forall w, In w (f_scope f) <-> exists v, In v nodes /\ In w (v :: nparents bn v)) /\
    forall a, valid (ncard bn) (bn_V bn) a -> val f a = (weight_of bn nodes a * weight_of bn again a)%Qc.
Proof.
  intros nx mc o bn t k c W Go H Ec. destruct (clique_tree_inv _ _ _ _ _ H) as (es & _ & _ & _ & Eb).
  destruct (build_ok bn (sub o 1) (mc es) W (good_sub _ 1 Go)) as (asg & Ea & As & [[_ R]|(_ & h & cs & xs & R & Lv & Rd & Ms & Mc)]); [congruence|].
  rewrite R in Eb. injection Eb as Eh Ecs. subst h cs.
  destruct (Forall2_nth _ _ _ Rd k c Ec) as (x & Ex & Rx). destruct (ready_obj _ _ _ _ Rx) as (p & f & again & B1 & B2 & B3 & B4 & B5 & B6 & B7 & B8 & B9 & B10 & B11).
  assert (En : nth_error asg k = Some (snd x)) by (rewrite <- Ms; now apply map_nth_error).
  assert (Es : nth_error (mc es) k = Some (c_scope c)) by (rewrite <- Mc; now apply map_nth_error).
  set (order := ask (sub (sub o 1) 0) (bn_nodes bn)) in *.
  assert (P : Permutation order (bn_V bn)) by (apply good_ask, good_sub, good_sub; exact Go).
  assert (NDo : NoDup order) by (eapply Permutation_NoDup; [symmetry; exact P|apply W]).
  assert (Io : incl order (bn_V bn)) by (intros v Hv; now apply (Permutation_in _ P)).
  exists (snd x), again, p, (fst x), f. split.
  { intros v. rewrite (assign_first bn order W NDo Io (mc es) [] asg Ea k (c_scope c) (snd x) Es En v). split.
    - intros (A & _ & B & C). split; [now apply Io|]. split; [exact B|]. intros j Hj. rewrite scope_at_nth, Mc. apply (C j); [exact Hj|].
      destruct (nth_error (mc es) j) as [s|] eqn:E; [now rewrite (nth_error_nth _ _ [] E)|]. apply nth_error_None in E. assert (k < length (mc es)) by (apply nth_error_Some; congruence). lia.
    - intros (A & B & C). split; [now apply (Permutation_in _ (Permutation_sym P))|]. split; [intros []|]. split; [exact B|]. intros j s Hj E F. apply (C j Hj). rewrite scope_at_nth, Mc, (nth_error_nth _ _ [] E). exact F. }
  split. { destruct As as (F & _). clear - F Es En. revert k Es En. induction F as [|s ns l m [N _] _ IH]; intros [|k]; simpl; intros E1 E2; try discriminate; [injection E2 as <-; exact N|now apply (IH k)]. }
  split; [exact B10|]. split; [exact B1|]. split; [exact B2|]. split; [exact B3|]. split; [exact B7|]. split; [exact B5|]. split; [exact B4|]. split; [exact B8|]. split; [exact B9|].
  intros a Va. rewrite (B11 a Va). unfold potential, weight_of. ring.
Qed.
Print Assumptions C62_potential.

(** a clique with one node has the right potential *)
Theorem C62_one_node : forall nx mc o bn t k c v, wfnet bn -> good o -> clique_tree nx mc o bn = Ok t -> nth_error (t_C t) k = Some c ->
  (forall u, In u (bn_V bn) /\ fits bn u (c_scope c) /\ (forall j, j < k -> ~ fits bn u (scope_at (t_C t) j)) <-> u = v) ->
  exists p f, c_psi c = Some p /\ fload (t_heap t) p = Ok f /\ forall a, valid (ncard bn) (bn_V bn) a -> Some (val f a) = cond_prob bn v a.
Proof.
  intros nx mc o bn t k c v W Go H Ec Hv. destruct (C62_potential nx mc o bn t k c W Go H Ec) as (nodes & again & p & b & f & A1 & A2 & A3 & A4 & _ & _ & _ & A8 & _ & _ & _ & A12).
  assert (Hn : nodes = [v]).
  { assert (Hu : forall u, In u nodes <-> u = v) by (intros u; rewrite A1; apply Hv). destruct nodes as [|x l]; [destruct (proj2 (Hu v) eq_refl)|].
    assert (x = v) as -> by (apply Hu; now left). destruct l as [|y l]; [reflexivity|]. assert (y = v) as -> by (apply Hu; right; now left). inversion A2 as [|? ? N _]. exfalso. apply N. now left. }
  subst nodes. destruct A3 as [[_ ->]|(L & _)]; [|simpl in L; lia]. exists p, f. split; [exact A4|]. split; [exact A8|]. intros a Va. rewrite (A12 a Va). unfold weight_of. cbn [map].
  assert (Vv : In v (bn_V bn)) by (apply (Hv v); reflexivity).
  assert (exists q, cond_prob bn v a = Some q) as (q & ->).
  { destruct (cond_prob bn v a) as [q|] eqn:E; [eauto|]. exfalso. unfold cond_prob in E. apply nth_error_None in E.
    assert (R : radix (ncard bn) (v :: nparents bn v) a < nprod (map (ncard bn) (v :: nparents bn v))).
    { apply radix_lt. intros w [<-|Hw]; apply Va; [exact Vv|]. now apply (wn_par _ W v). }
    rewrite <- (wn_cpt _ W v Vv) in R. lia. }
  f_equal. cbn. ring.
Qed.
Print Assumptions C62_one_node.

(** ... but every network with at least one edge has a clique with two nodes or more, and there some of its tables
    count twice: at least the largest one *)
Theorem C62_doubled : forall nx mc o bn t, wfnet bn -> graph_ok bn -> (forall es, nx es = true -> chordal es) -> (forall es, chordal es -> clique_list es (mc es)) -> good o ->
  clique_tree nx mc o bn = Ok t -> (exists v, In v (bn_V bn) /\ nparents bn v <> []) ->
  exists k c nodes again p f, nth_error (t_C t) k = Some c /\ 2 <= length nodes /\ NoDup nodes /\ (forall v, In v nodes -> In v (bn_V bn) /\ fits bn v (c_scope c)) /\
    incl again nodes /\ NoDup again /\ (exists v, In v again /\ forall u, In u nodes -> table_size bn u <= table_size bn v) /\
    c_psi c = Some p /\ fload (t_heap t) p = Ok f /\
    forall a, valid (ncard bn) (bn_V bn) a -> val f a = (weight_of bn nodes a * weight_of bn again a)%Qc.
Proof.
  intros nx mc o bn t W G Snd Cls Go H Ed. destruct (built_facts nx mc o bn t W Go H) as (es & xs & Em & Mc & As & Lv & Rd & _).
  assert (Go0 := good_sub _ 0 Go).
  assert (Ch : chordal es).
  { destruct (C60_make_chordal nx (sub o 0) bn Snd Go0 G) as (m & F & _ & Ef & _ & Ch & _). rewrite Em in Ef. injection Ef as <-. exact Ch. }
  destruct (two_nodes nx (sub o 0) bn es (mc es) (map snd xs) W G Snd Go0 Em (Cls es Ch) As Ed) as (ns & Hn & L).
  apply in_map_iff in Hn as (x & <- & Hx). apply In_nth_error in Hx as (k & Ex).
  assert (exists c, nth_error (t_C t) k = Some c) as (c & Ec).
  { destruct (nth_error (t_C t) k) as [c|] eqn:E; [eauto|]. apply nth_error_None in E. assert (k < length xs) by (apply nth_error_Some; congruence).
    assert (length (t_C t) = length xs) by (clear - Rd; induction Rd; simpl; congruence). lia. }
  destruct (Forall2_nth _ _ _ Rd k c Ec) as (x' & Ex' & Rx). rewrite Ex in Ex'. injection Ex' as <-.
  destruct (ready_obj _ _ _ _ Rx) as (p & f & again & B1 & B2 & B3 & B4 & B5 & B6 & B7 & B8 & B9 & B10 & B11).
  assert (Fx : NoDup (snd x) /\ forall v, In v (snd x) -> In v (bn_V bn) /\ fits bn v (c_scope c)).
  { destruct As as (F & _). assert (E1 : nth_error (mc es) k = Some (c_scope c)) by (rewrite <- Mc; now apply map_nth_error). assert (E2 : nth_error (map snd xs) k = Some (snd x)) by now apply map_nth_error.
    destruct (Forall2_nth _ _ _ F k _ E1) as (y & Ey & Hy). rewrite E2 in Ey. injection Ey as <-. exact Hy. }
  exists k, c, (snd x), again, p, f. split; [exact Ec|]. split; [exact L|]. split; [apply Fx|]. split; [apply Fx|].
  destruct B10 as [[K _]|(_ & i & Fm & ->)]; [lia|].
  split; [intros v Hv; rewrite <- (firstn_skipn (S i) (snd x)); apply in_or_app; now left|].
  split. { destruct Fx as (N & _). rewrite <- (firstn_skipn (S i) (snd x)) in N. exact (NoDup_app_l _ _ N). }
  split.
  { destruct Fm as (Li & Mx). rewrite map_length in *. destruct (nth_error (snd x) i) as [v|] eqn:Ev; [|apply nth_error_None in Ev; lia].
    exists v. split.
    - apply nth_error_In with (n := i). clear - Ev. revert i Ev. generalize (snd x). induction l as [|y l IH]; intros [|i] E; simpl in *; try discriminate; [exact E|now apply IH].
    - intros u Hu. apply In_nth_error in Hu as (j & Ej). assert (Lj : j < length (snd x)) by (apply nth_error_Some; congruence). destruct (Mx j Lj) as [K _].
      rewrite (nth_error_nth _ _ 0 (map_nth_error (table_size bn) _ _ Ej)), (nth_error_nth _ _ 0 (map_nth_error (table_size bn) _ _ Ev)) in K. exact K. }
  split; [exact B1|]. split; [exact B5|]. intros a Va. rewrite (B11 a Va). unfold potential, weight_of. ring.
Qed.
Print Assumptions C62_doubled.

(** on the chain A -> B -> C the clique {A, B} holds the nodes A and B; its potential at A = 0, B = 0 is (2/5 * 1/5)^2, not 2/5 * 1/5 *)
Theorem C62_refuted : exists c p f, nth_error (t_C (the_tree exChain)) 1 = Some c /\ c_scope c = [exA; exB] /\ c_psi c = Some p /\ fload (t_heap (the_tree exChain)) p = Ok f /\
  val f (fun _ => 0) = qq 4 625 /\ weight_of exChain [exA; exB] (fun _ => 0) = qq 2 25 /\
  (forall v, In v (bn_V exChain) -> (v = exA \/ v = exB) <-> fits exChain v [exA; exB]).
Proof.
  eexists. eexists. eexists. split; [vm_compute; reflexivity|]. split; [reflexivity|]. split; [reflexivity|]. split; [vm_compute; reflexivity|].
  split; [apply Qc_is_canon; vm_compute; reflexivity|]. split; [apply Qc_is_canon; vm_compute; reflexivity|].
  intros v [<-|[<-|[<-|[]]]]; unfold fits.
  - split; [intros _; now apply inclb_ok|intros _; now left].
  - split; [intros _; now apply inclb_ok|intros _; now right].
  - split; [intros [K|K]; discriminate|]. intros K. destruct (K exC (or_introl eq_refl)) as [E|[E|[]]]; discriminate.
Qed.
Print Assumptions C62_refuted.

(** ** C63: the first message between two cliques of a new tree *)
(** the message itself is right: the sender's belief with the variables the receiver lacks summed out.  But the
    sender's belief and its potential lose these variables too while both keep their full tables. *)
Theorem C63_sender : forall nx mc o bn t o1 i j c d, wfnet bn -> good o -> good o1 -> clique_tree nx mc o bn = Ok t ->
  nth_error (t_C t) i = Some c -> nth_error (t_C t) j = Some d -> i <> j ->
  forall ws, NoDup ws -> (forall v, In v ws <-> In v (c_scope c) /\ ~ In v (c_scope d)) ->
  exists p b f, c_psi c = Some p /\ c_belief c = Some b /\ fload (t_heap t) b = Ok f /\ fload (t_heap t) p = Ok f /\ wf (ncard bn) f /\
  ((forall w, In w ws -> In w (f_scope f)) ->
   exists h' m fm, send_message o1 (t_heap t) (t_C t) i j = Ok (h', upd_nth j (add_msg d m) (t_C t)) /\ c_msgs (add_msg d m) = [m] /\
    fload h' m = Ok fm /\ repr (ncard bn) fm (sum_over (ncard bn) ws (val f)) /\ (forall v, In v (f_scope fm) <-> In v (f_scope f) /\ ~ In v ws) /\
    exists g, fload h' b = Ok g /\ fload h' p = Ok g /\ f_cpt g = f_cpt f /\ (forall v, In v (f_scope g) <-> In v (f_scope f) /\ ~ In v ws) /\
      ((exists w, In w ws /\ 2 <= ncard bn w) -> ~ wf (ncard bn) g)) /\
  ((exists w, In w ws /\ ~ In w (f_scope f)) -> send_message o1 (t_heap t) (t_C t) i j = Raise KeyError).
Proof.
  intros nx mc o bn t o1 i j c d W Go Go1 H Ec Ed Nij ws ND Hw. destruct (built_facts nx mc o bn t W Go H) as (es & xs & _ & _ & _ & Lv & Rd & _).
  destruct (Forall2_nth _ _ _ Rd i c Ec) as (x & Ex & Rx). destruct (ready_obj _ _ _ _ Rx) as (p & f & again & B1 & B2 & B3 & B4 & B5 & B6 & B7 & B8 & _).
  exists p, (fst x), f. split; [exact B1|]. split; [exact B2|]. split; [exact B4|]. split; [exact B5|]. split; [exact B8|].
  destruct (first_message bn o (t_heap t) (t_C t) xs o1 i j c d x W Go Go1 Lv Rd Ec Ed Ex Nij ws ND Hw p (fst x) f B1 B2 B4) as [M1 M2].
  split; [|exact M2]. intros Cov. destruct (M1 Cov) as (h' & m & fm & S1 & S2 & S3 & S4 & S5 & S6 & S7). exists h', m, fm. split; [exact S1|]. split; [exact S2|]. split; [exact S3|]. split; [exact S4|]. split; [exact S5|].
  exists (relabel f fm). split; [exact S6|]. split; [exact S7|]. split; [reflexivity|]. split; [exact S5|]. intros (w & Hws & Cw) Wg.
  assert (L1 := wf_len _ _ Wg). assert (L2 := wf_len _ _ B8). cbn [relabel f_cpt f_scope] in L1. rewrite L2 in L1.
  assert (Pm : Permutation (f_scope f) (ws ++ f_scope fm)).
  { apply perm_of_iff; [exact (wf_nodup _ _ B8)| |].
    - apply NoDup_app_intro; [exact ND|exact (wf_nodup _ _ (proj1 S4))|]. intros v V1 V2. apply S5 in V2. tauto.
    - intros v. rewrite in_app_iff, S5. destruct (in_dec name_eq_dec v ws) as [Y|N]; [|tauto]. specialize (Cov v Y). tauto. }
  rewrite (nprod_perm _ _ (Permutation_map (ncard bn) Pm)), map_app, nprod_app in L1.
  assert (P1 : 0 < nprod (map (ncard bn) (f_scope fm))).
  { apply nprod_pos. intros z Hz. apply in_map_iff in Hz as (v & <- & Hv). apply S5 in Hv. apply (wf_pos _ _ B8 v). tauto. }
  apply in_split in Hws as (l1 & l2 & ->). rewrite map_app, nprod_app in L1. cbn [map nprod] in L1.
  assert (P2 : forall l, incl l (f_scope f) -> 0 < nprod (map (ncard bn) l)).
  { intros l I. apply nprod_pos. intros z Hz. apply in_map_iff in Hz as (v & <- & Hv). apply (wf_pos _ _ B8 v). now apply I. }
  assert (Q1 : 0 < nprod (map (ncard bn) l1)) by (apply P2; intros v Hv; apply Cov; apply in_or_app; now left).
  assert (Q2 : 0 < nprod (map (ncard bn) l2)) by (apply P2; intros v Hv; apply Cov; apply in_or_app; right; now right).
  change (nprod (ncard bn w :: map (ncard bn) l2)) with (ncard bn w * nprod (map (ncard bn) l2)) in L1.
  revert L1 P1 Q1 Q2 Cw. clear. generalize (nprod (map (ncard bn) l1)), (nprod (map (ncard bn) l2)), (nprod (map (ncard bn) (f_scope fm))), (ncard bn w). intros a b e u E P1 Q1 Q2 Cw.
  assert (2 <= a * (u * b)) by (assert (2 <= u * b) by nia; nia).
  assert (2 * e <= a * (u * b) * e) by (apply Nat.mul_le_mono_r; assumption). lia.
Qed.
Print Assumptions C63_sender.

(** concrete: on the chain, after {A, B} sends to {B, C} the belief of {A, B} is a factor over B alone with four entries *)
Theorem C63_refuted : exists c b h' cs' f g, nth_error (t_C (the_tree exChain)) 1 = Some c /\ c_belief c = Some b /\
  fload (t_heap (the_tree exChain)) b = Ok f /\ Permutation (f_scope f) [exA; exB] /\ length (f_cpt f) = 4 /\
  send_message id_oracle (t_heap (the_tree exChain)) (t_C (the_tree exChain)) 1 0 = Ok (h', cs') /\
  fload h' b = Ok g /\ f_scope g = [exB] /\ length (f_cpt g) = 4 /\ ncard exChain exB = 2.
Proof.
  eexists. eexists. eexists. eexists. eexists. eexists. split; [vm_compute; reflexivity|]. split; [reflexivity|]. split; [vm_compute; reflexivity|].
  split; [apply perm_swap || apply Permutation_refl|]. split; [reflexivity|]. split; [vm_compute; reflexivity|]. split; [vm_compute; reflexivity|].
  split; [reflexivity|]. split; reflexivity.
Qed.
Print Assumptions C63_refuted.

(** ** C91: CliqueTree.parents *)
(** every vertex but the first has exactly one parent in the tree, a different vertex, but parents() answers with the vertex itself *)
Theorem C91_parents : forall nx mc o bn t k, wfnet bn -> good o -> clique_tree nx mc o bn = Ok t -> k < length (t_C t) ->
  ct_parents t (NInt k) = Ok (if k =? 0 then [] else [NInt k]) /\
  (forall u, ~ edge (t_E t) u (NInt 0)) /\
  (k <> 0 -> exists u, edge (t_E t) u (NInt k) /\ u <> NInt k /\ forall u', edge (t_E t) u' (NInt k) -> u' = u).
Proof.
  intros nx mc o bn t k W Go H Hk. destruct (built_facts nx mc o bn t W Go H) as (es & xs & _ & Mc & _ & _ & _ & _ & EV & RT & Em).
  assert (RT0 := RT). destruct RT0 as (K & Z & U & X).
  split; [now apply (tree_parents t (length (t_C t)) k)|]. split; [exact Z|]. intros Nk. destruct (X k ltac:(lia)) as (u & Hu). exists u. split; [exact Hu|].
  split; [|intros u' Hu'; now apply (U u' u (NInt k))]. intros ->.
  assert (Ln : 0 < length (sep_weights (mc es))) by (rewrite sep_length, <- Mc, map_length; lia).
  destruct (mst_tree (sep_weights (mc es)) (sep_graph (mc es)) Ln) as (T & E & _ & _ & _ & _ & _ & Ac & _). rewrite Em in E. injection E as <-.
  apply (Ac (NInt k)). now apply t_step.
Qed.
Print Assumptions C91_parents.
Theorem C91_refuted : edge (t_E (the_tree exChain)) (NInt 0) (NInt 1) /\ ct_parents (the_tree exChain) (NInt 1) = Ok [NInt 1].
Proof. split; [exists [NInt 1]; split; [vm_compute; reflexivity|now left]|vm_compute; reflexivity]. Qed.
Print Assumptions C91_refuted.

(** ** C92: every node with a parent or a child enters the potential of exactly one clique *)
Theorem C92_exactly_one : forall nx mc o bn t, wfnet bn -> graph_ok bn -> (forall es, nx es = true -> chordal es) -> (forall es, chordal es -> clique_list es (mc es)) -> good o ->
  clique_tree nx mc o bn = Ok t ->
  exists asg, length asg = length (t_C t) /\ NoDup (concat asg) /\
    (forall v, In v (concat asg) <-> In v (bn_V bn) /\ attached bn v) /\
    forall k c, nth_error (t_C t) k = Some c -> exists again p f, doubled (table_size bn) (nth k asg []) again /\ c_psi c = Some p /\ fload (t_heap t) p = Ok f /\
      (forall v, In v (nth k asg []) <-> In v (bn_V bn) /\ fits bn v (c_scope c) /\ forall j, j < k -> ~ fits bn v (scope_at (t_C t) j)) /\
      (forall w, In w (f_scope f) <-> exists v, In v (nth k asg []) /\ In w (v :: nparents bn v)) /\
      forall a, valid (ncard bn) (bn_V bn) a -> val f a = (weight_of bn (nth k asg []) a * weight_of bn again a)%Qc.
Proof.
  intros nx mc o bn t W G Snd Cls Go H. destruct (clique_tree_inv _ _ _ _ _ H) as (es & Em & _ & _ & Eb).
  destruct (build_ok bn (sub o 1) (mc es) W (good_sub _ 1 Go)) as (asg & Ea & As & [[_ R]|(_ & h & cs & xs & R & Lv & Rd & Ms & Mc)]); [congruence|].
  rewrite R in Eb. injection Eb as Eh Ecs. subst h cs. assert (Go0 := good_sub _ 0 Go).
  assert (Ch : chordal es).
  { destruct (C60_make_chordal nx (sub o 0) bn Snd Go0 G) as (m & F & _ & Ef & _ & Ch & _). rewrite Em in Ef. injection Ef as <-. exact Ch. }
  destruct (net_cliques nx (sub o 0) bn es (mc es) W G Snd Go0 Em (Cls es Ch)) as (_ & Is & Ft & At & _).
  assert (Lx : length (t_C t) = length xs) by (clear - Rd; induction Rd; simpl; congruence).
  exists asg. split; [rewrite <- Ms, map_length; now symmetry|]. assert (As0 := As). destruct As0 as (A1 & A2 & A3). split; [exact A2|]. split.
  { intros v. rewrite A3. split; intros [Hv A]; (split; [exact Hv|now apply Ft]). }
  intros k c Ec. destruct (Forall2_nth _ _ _ Rd k c Ec) as (x & Ex & Rx). destruct (ready_obj _ _ _ _ Rx) as (p & f & again & B1 & B2 & B3 & B4 & B5 & B6 & B7 & B8 & B9 & B10 & B11).
  assert (En : nth_error asg k = Some (snd x)) by (rewrite <- Ms; now apply map_nth_error). rewrite (nth_error_nth _ _ [] En).
  assert (Es : nth_error (mc es) k = Some (c_scope c)) by (rewrite <- Mc; now apply map_nth_error).
  set (order := ask (sub (sub o 1) 0) (bn_nodes bn)) in *.
  assert (P : Permutation order (bn_V bn)) by (apply good_ask, good_sub, good_sub; exact Go).
  assert (NDo : NoDup order) by (eapply Permutation_NoDup; [symmetry; exact P|apply W]).
  assert (Io : incl order (bn_V bn)) by (intros v Hv; now apply (Permutation_in _ P)).
  exists again, p, f. split; [exact B10|]. split; [exact B1|]. split; [exact B5|]. split.
  { intros v. rewrite (assign_first bn order W NDo Io (mc es) [] asg Ea k (c_scope c) (snd x) Es En v). split.
    - intros (A & _ & B & C). split; [now apply Io|]. split; [exact B|]. intros j Hj. rewrite scope_at_nth, Mc. apply (C j); [exact Hj|].
      destruct (nth_error (mc es) j) as [s|] eqn:E; [now rewrite (nth_error_nth _ _ [] E)|]. apply nth_error_None in E. assert (k < length (mc es)) by (apply nth_error_Some; congruence). lia.
    - intros (A & B & C). split; [now apply (Permutation_in _ (Permutation_sym P))|]. split; [intros []|]. split; [exact B|]. intros j s Hj E F. apply (C j Hj). rewrite scope_at_nth, Mc, (nth_error_nth _ _ [] E). exact F. }
  split; [exact B9|]. intros a Va. rewrite (B11 a Va). unfold potential, weight_of. ring.
Qed.
Print Assumptions C92_exactly_one.

(** ** C93: when CliqueTree(bn) fails *)
(** it fails exactly when some clique gets no node, because every node it could hold is in an earlier clique *)
Theorem C93_assertion : forall nx mc o bn, wfnet bn -> graph_ok bn -> (forall es, nx es = true -> chordal es) -> good o ->
  exists es, make_chordal nx (sub o 0) bn None = Ok es /\
  let idle := exists k s, nth_error (mc es) k = Some s /\ forall v, In v (bn_V bn) -> fits bn v s -> exists j s', j < k /\ nth_error (mc es) j = Some s' /\ fits bn v s' in
  (clique_tree nx mc o bn = Raise AssertionError /\ idle) \/ (exists t, clique_tree nx mc o bn = Ok t /\ map c_scope (t_C t) = mc es /\ ~ idle).
Proof.
  intros nx mc o bn W G Snd Go. destruct (C60_make_chordal nx (sub o 0) bn Snd (good_sub _ 0 Go) G) as (m & F & _ & Ef & _).
  exists F. split; [exact Ef|]. set (es := F) in *. cbn zeta.
  unfold clique_tree. destruct (mapM_total (factor_init bn) (bn_nodes bn)) as (fs & E0).
  { intros v Hv. destruct (init_ok bn v W Hv) as (f & E & _). eauto. }
  rewrite E0. cbn [bind]. rewrite Ef. cbn [bind]. destruct (sep_mst (mc es)) as (T & -> & _). cbn [bind].
  destruct (build_ok bn (sub o 1) (mc es) W (good_sub _ 1 Go)) as (asg & Ea & As & Hb).
  set (order := ask (sub (sub o 1) 0) (bn_nodes bn)) in *.
  assert (P : Permutation order (bn_V bn)) by (apply good_ask, good_sub, good_sub; exact Go).
  assert (NDo : NoDup order) by (eapply Permutation_NoDup; [symmetry; exact P|apply W]).
  assert (Io : incl order (bn_V bn)) by (intros v Hv; now apply (Permutation_in _ P)).
  assert (Ff := assign_first bn order W NDo Io (mc es) [] asg Ea).
  assert (La : length (mc es) = length asg) by (destruct As as (A & _); clear - A; induction A; simpl; congruence).
  assert (Eq : In [] asg <-> exists k s, nth_error (mc es) k = Some s /\ forall v, In v (bn_V bn) -> fits bn v s -> exists j s', j < k /\ nth_error (mc es) j = Some s' /\ fits bn v s').
  { split.
    - intros Hn. apply In_nth_error in Hn as (k & Ek). destruct (nth_error (mc es) k) as [s|] eqn:Es; [|apply nth_error_None in Es; assert (k < length asg) by (apply nth_error_Some; congruence); lia].
      exists k, s. split; [exact Es|]. intros v Hv Fv.
      destruct (Exists_dec (fun s' => fits bn v s') (firstn k (mc es))) as [Y|N].
      { intros s'. unfold fits. destruct (inclb (v :: nparents bn v) s') eqn:I; [left; now apply inclb_ok|right; intros C]. unfold inclb in I. apply Bool.not_true_iff_false in I. apply I. apply forallb_forall. intros x Hx. apply mem_In. now apply C. }
      + apply Exists_exists in Y as (s' & Hs' & F'). apply In_nth_error in Hs' as (j & Ej). assert (Lj : j < length (firstn k (mc es))) by (apply nth_error_Some; congruence). rewrite firstn_length in Lj.
        exists j, s'. split; [lia|]. split; [|exact F']. rewrite <- Ej. symmetry. rewrite <- (firstn_skipn k (mc es)) at 2. symmetry. apply nth_error_app1. rewrite firstn_length. lia.
      + exfalso. apply (Ff k s [] Es Ek v). split; [now apply (Permutation_in _ (Permutation_sym P))|]. split; [intros []|]. split; [exact Fv|]. intros j s' Hj Ej F'. apply N. apply Exists_exists. exists s'. split; [|exact F'].
        apply nth_error_In with (n := j). rewrite <- Ej. symmetry. rewrite <- (firstn_skipn k (mc es)) at 1. apply nth_error_app1. rewrite firstn_length. assert (j < length (mc es)) by (apply nth_error_Some; congruence). lia.
    - intros (k & s & Es & Hk). destruct (nth_error asg k) as [ns|] eqn:Ek; [|apply nth_error_None in Ek; assert (k < length (mc es)) by (apply nth_error_Some; congruence); lia].
      destruct ns as [|v ns]; [now apply nth_error_In in Ek|exfalso]. destruct (proj1 (Ff k s _ Es Ek v) (or_introl eq_refl)) as (A & _ & B & C).
      destruct (Hk v (Io v A) B) as (j & s' & Hj & Ej & F'). exact (C j s' Hj Ej F'). }
  destruct Hb as [[Hn ->]|(Hn & h & cs & xs & -> & _ & _ & _ & Mc)]; cbn [bind fst snd].
  - left. split; [reflexivity|]. now apply Eq.
  - right. eexists. split; [reflexivity|]. cbn [t_C]. split; [exact Mc|]. intros I. apply Hn. now apply Eq.
Qed.
Print Assumptions C93_assertion.
(** three causes A, B, C with a common effect for each pair: the clique {A, B, C} holds nothing *)
Definition exMarried : bayesnet :=
  let b := [nm "0"; nm "1"] in let h := qq 1 2 in let x := nm "X" in let y := nm "Y" in let z := nm "Z" in
  let t := mkF [] b [h;h] in let e := [h;h;h;h;h;h;h;h] in
  mkBN [exA; exB; exC; x; y; z] [(exA, [x; z]); (exB, [x; y]); (exC, [y; z]); (x, []); (y, []); (z, [])]
    [(exA, t); (exB, t); (exC, t); (x, mkF [exA; exB] b e); (y, mkF [exB; exC] b e); (z, mkF [exC; exA] b e)].
Theorem C93_refuted : wfnet exMarried /\ graph_ok exMarried /\ tree_of exMarried = Raise AssertionError.
Proof. split; [now apply wfnetb_ok|]. split; [now apply graph_okb_ok|vm_compute; reflexivity]. Qed.
Print Assumptions C93_refuted.

(** ** C94: belief propagation along CliqueTree.parents *)
(** exact_bp stops with NameError.  With the missing import added, messages go from every clique to itself, so the answer
    comes from the potential of the first clique that contains the target and from nothing else; that potential is
    squared when this clique is not the first one. *)
Theorem C94_root_only : forall nx mc o bn t post o2 target r c, wfnet bn -> good o -> good o2 -> clique_tree nx mc o bn = Ok t ->
  (forall root, Permutation (post (t_E t) root) (t_V t)) ->
  nth_error (t_C t) r = Some c -> In target (c_scope c) -> (forall k, k < r -> ~ In target (scope_at (t_C t) k)) ->
  exists nodes again, incl nodes (bn_V bn) /\ doubled (table_size bn) nodes again /\
    (forall v, In v nodes -> fits bn v (c_scope c)) /\
    let phi := fun a => if r =? 0 then potential bn nodes again a else (potential bn nodes again a * potential bn nodes again a)%Qc in
    ((exists v, In v nodes /\ In target (v :: nparents bn v)) ->
     exists f, exact_bp_on post o2 t target = Ok f /\ f_scope f = [target] /\
       forall others, NoDup others -> (forall w, In w others <-> w <> target /\ exists v, In v nodes /\ In w (v :: nparents bn v)) ->
         f_cpt f = map (fun x => sum_over (ncard bn) others phi (upd (fun _ => 0) target x)) (seq 0 (ncard bn target))).
Proof. exact exact_on. Qed.
Print Assumptions C94_root_only.
(** P(B) = (38/100, 62/100) on the chain, but the answer is (1, 1); for A it is (464/390625, ...), not (2/5, 3/5) *)
Theorem C94_refuted : exists f g,
  exact_bp_on (fun _ _ => [NInt 1; NInt 0]) id_oracle (the_tree exChain) exB = Ok f /\ f_scope f = [exB] /\ f_cpt f = [1%Qc; 1%Qc] /\
  map (marginal exChain exB []) [0; 1] = [qq 38 100; qq 62 100] /\
  exact_bp_on (fun _ _ => [NInt 1; NInt 0]) id_oracle (the_tree exChain) exA = Ok g /\ f_scope g = [exA] /\ f_cpt g = [qq 4112 390625; qq 162 10000] /\
  map (marginal exChain exA []) [0; 1] = [qq 2 5; qq 3 5].
Proof.
  eexists. eexists. split; [vm_compute; reflexivity|]. split; [reflexivity|].
  assert (Q : forall x y u v : Qc, (x == u)%Q -> (y == v)%Q -> [x; y] = [u; v]) by (intros x y u v H1 H2; apply Qc_is_canon in H1, H2; now subst).
  split; [apply Q; vm_compute; reflexivity|]. split; [apply Q; vm_compute; reflexivity|]. split; [vm_compute; reflexivity|]. split; [reflexivity|].
  split; apply Q; vm_compute; reflexivity.
Qed.
Print Assumptions C94_refuted.

(** ** C95: messages sent along the edges of the tree *)
(** A user who sends one message from every clique but the root, along the edges of the spanning tree and in any order
    in which no clique receives after it has sent, gets at the root: the product of all tables (with the double ones)
    summed over the variables outside the root.  This needs that the spanning tree has the running intersection
    property, that no clique is asked for a variable it lacks, and that the corrupted objects of C63 are never read again. *)
Theorem C95_upward : forall nx mc o bn t, wfnet bn -> graph_ok bn -> (forall es, nx es = true -> chordal es) -> (forall es, chordal es -> clique_list es (mc es)) -> good o ->
  clique_tree nx mc o bn = Ok t ->
  exists asg agains, asg = map (first_fit bn (ask (sub (sub o 1) 0) (bn_V bn)) (map c_scope (t_C t))) (seq 0 (length (t_C t))) /\
    NoDup (concat asg) /\ Forall2 (doubled (table_size bn)) asg agains /\
  (forall v, In v (concat asg) <-> In v (bn_V bn) /\ attached bn v) /\
  forall root, root < length (t_C t) ->
    (exists ss, sends root (seq 0 (length (t_C t))) ss /\ along (t_E t) ss) /\
    forall ss o1 o2, sends root (seq 0 (length (t_C t))) ss -> along (t_E t) ss -> good o1 -> good o2 ->
    exists h1 cs1 c h2 c2 b f, upward o1 (t_heap t) (t_C t) ss = Ok (h1, cs1) /\ nth_error cs1 root = Some c /\ collect_beliefs o2 h1 c = Ok (h2, c2) /\
      c_belief c2 = Some b /\ fload h2 b = Ok f /\ (forall v, In v (f_scope f) <-> In v (scope_at (t_C t) root)) /\
      forall rest, NoDup rest -> (forall v, In v rest <-> In v (bn_V bn) /\ attached bn v /\ ~ In v (scope_at (t_C t) root)) ->
        repr (ncard bn) f (sum_over (ncard bn) rest (weight_of bn (concat asg ++ concat agains))).
Proof.
  intros nx mc o bn t W G Snd Cls Go Ht. destruct (tree_pass nx mc o bn t W G Snd Cls Go Ht) as (asg & agains & A0 & A1 & A2 & A3 & _ & A5). exists asg, agains. split; [exact A0|]. split; [apply A1|]. auto.
Qed.
Print Assumptions C95_upward.
(** the marginals are exact when the tables that count twice are 0/1 and no node is isolated; [order] is the iteration
    order of the dict v_a *)
Theorem C95_exact : forall nx mc o bn t root target ss o1 o2, wfnet bn -> graph_ok bn -> (forall es, nx es = true -> chordal es) -> (forall es, chordal es -> clique_list es (mc es)) -> good o ->
  clique_tree nx mc o bn = Ok t -> (forall v, In v (bn_V bn) -> attached bn v) ->
  (forall k again, k < length (t_C t) -> let order := ask (sub (sub o 1) 0) (bn_V bn) in
     doubled (table_size bn) (first_fit bn order (map c_scope (t_C t)) k) again -> forall v, In v again -> deterministic bn v) ->
  sends root (seq 0 (length (t_C t))) ss -> along (t_E t) ss -> good o1 -> good o2 -> In target (scope_at (t_C t) root) ->
  exists h1 cs1 c h2 c2 g, upward o1 (t_heap t) (t_C t) ss = Ok (h1, cs1) /\ nth_error cs1 root = Some c /\ collect_beliefs o2 h1 c = Ok (h2, c2) /\
    marginalize_over h2 c2 target = Ok g /\ f_scope g = [target] /\ f_cpt g = map (marginal bn target []) (seq 0 (ncard bn target)).
Proof.
  intros nx mc o bn t root target ss o1 o2 W G Snd Cls Go Ht Att Det Sn Al G1 G2 Hin.
  destruct (tree_pass nx mc o bn t W G Snd Cls Go Ht) as (asg & agains & A0 & A1 & A2 & A3 & A4 & A5).
  assert (Hr : root < length (t_C t)).
  { unfold scope_at in Hin. destruct (nth_error (t_C t) root) as [c|] eqn:E; [apply nth_error_Some; congruence|destruct Hin]. }
  destruct (A5 root Hr) as (_ & Run). destruct (Run ss o1 o2 Sn Al G1 G2) as (h1 & cs1 & c & h2 & c2 & b & f & R1 & R2 & R3 & R4 & R5 & R6 & R7).
  exists h1, cs1, c, h2, c2.
  assert (Hroot : forall v, In v (scope_at (t_C t) root) -> In v (bn_V bn)).
  { intros v Hv. apply A4. unfold scope_at in Hv. destruct (nth_error (t_C t) root) as [d|] eqn:E; [|destruct Hv]. apply in_concat. exists (c_scope d). split; [|exact Hv]. apply in_map. eapply nth_error_In; eassumption. }
  destruct (tree_exact bn asg agains (scope_at (t_C t) root) f h2 c2 b target W) as (g & E1 & E2 & E3).
  - apply A1.
  - intros v. rewrite A3. split; [tauto|]. intros Hv. split; [exact Hv|now apply Att].
  - exact A2.
  - intros v Hv. apply in_concat in Hv as (ag & Hag & Hv). apply In_nth_error in Hag as (k & Ek).
    assert (L2 : length asg = length agains) by (clear - A2; induction A2; simpl; congruence).
    assert (Hk : k < length asg) by (rewrite L2; apply nth_error_Some; congruence).
    destruct (nth_error asg k) as [ns|] eqn:En; [|apply nth_error_None in En; lia].
    destruct (Forall2_nth _ _ _ A2 k ns En) as (ag' & Eg & D). rewrite Ek in Eg. injection Eg as <-.
    assert (Hk' : k < length (t_C t)) by (rewrite A0, map_length, seq_length in Hk; exact Hk).
    apply (Det k ag Hk'); [|exact Hv]. rewrite A0, nth_error_map in En. rewrite (nth_error_nth' _ 0) in En by (rewrite seq_length; exact Hk'). rewrite seq_nth in En by exact Hk'. cbn [option_map plus] in En. injection En as En. rewrite En. exact D.
  - exact R4.
  - exact R5.
  - exact R6.
  - exact Hroot.
  - exact Hin.
  - intros rest ND Hrest. apply R7; [exact ND|]. intros v. rewrite Hrest. split; [intros [A B]; auto|tauto].
  - exists g. auto 10.
Qed.
Print Assumptions C95_exact.
(** A -> B -> C where B is the negation of A; B comes first in V, so only its table counts twice in the clique {A, B} *)
Definition exDet : bayesnet :=
  mkBN [exB; exA; exC] [(exB, [exC]); (exA, [exB]); (exC, [])]
       [(exA, mkF [] [nm "0"; nm "1"] [qq 2 5; qq 3 5]);
        (exB, mkF [exA] [nm "0"; nm "1"] [0%Qc;1%Qc;1%Qc;0%Qc]);
        (exC, mkF [exB] [nm "0"; nm "1"] [qq 1 10; qq 9 10; qq 3 10; qq 7 10])].
Example C95_nonvacuous : wfnet exDet /\ graph_ok exDet /\ (forall v, In v (bn_V exDet) -> attached exDet v) /\
  exists t, tree_of exDet = Ok t /\ length (t_C t) = 2 /\ sends 0 (seq 0 (length (t_C t))) [(1, 0)] /\ along (t_E t) [(1, 0)] /\ In exC (scope_at (t_C t) 0) /\
  first_fit exDet (ask (sub (sub id_oracle 1) 0) (bn_V exDet)) (map c_scope (t_C t)) 1 = [exB; exA] /\
  forall k again, k < length (t_C t) -> let order := ask (sub (sub id_oracle 1) 0) (bn_V exDet) in
     doubled (table_size exDet) (first_fit exDet order (map c_scope (t_C t)) k) again -> forall v, In v again -> deterministic exDet v.
Proof.
  split; [now apply wfnetb_ok|]. split; [now apply graph_okb_ok|].
  split. { intros v [<-|[<-|[<-|[]]]]; [left; discriminate| |left; discriminate]. right. exists exB. split; [now left|now left]. }
  eexists. split; [vm_compute; reflexivity|]. cbn [t_C t_E length]. split; [reflexivity|].
  split. { apply (snd_send 0 1 0 [0; 1] [0] []); [apply perm_swap|now left|discriminate|simpl; lia|constructor]. }
  split. { intros i j [E|[]]. injection E as <- <-. right. exists [NInt 1]. split; [reflexivity|now left]. }
  split; [right; now left|]. split; [reflexivity|].
  intros k again Hk. cbn zeta. intros D v Hv. destruct k as [|[|k]]; [| |simpl in Hk; lia]; cbn in D.
  - destruct D as [[_ ->]|(L & _)]; [destruct Hv|simpl in L; lia].
  - destruct D as [[L _]|(_ & i & (Li & Fm) & ->)]; [discriminate|]. simpl in Li. destruct i as [|[|i]]; [| |lia].
    + destruct Hv as [<-|[]]. intros x Hx. cbn in Hx. destruct Hx as [<-|[<-|[<-|[<-|[]]]]]; auto.
    + exfalso. destruct (Fm 0 ltac:(simpl; lia)) as [K _]. simpl in K. unfold table_size in K. simpl in K. lia.
Qed.

(** ** C96: isolated nodes *)
(** a node without parents and children is in no clique *)
Theorem C96_isolated : forall nx mc o bn t, wfnet bn -> graph_ok bn -> (forall es, nx es = true -> chordal es) -> (forall es, chordal es -> clique_list es (mc es)) -> good o ->
  clique_tree nx mc o bn = Ok t -> forall v, In v (bn_V bn) -> ((exists c, In c (t_C t) /\ In v (c_scope c)) <-> attached bn v).
Proof.
  intros nx mc o bn t W G Snd Cls Go Ht v Hv. destruct (tree_pass nx mc o bn t W G Snd Cls Go Ht) as (asg & agains & _ & _ & _ & _ & A4 & _).
  specialize (A4 v). rewrite in_concat in A4. split.
  - intros (c & Hc & Hvc). apply A4. exists (c_scope c). split; [now apply in_map|exact Hvc].
  - intros A. destruct (proj2 A4 (conj Hv A)) as (s & Hs & Hvs). apply in_map_iff in Hs as (c & <- & Hc). eauto.
Qed.
Print Assumptions C96_isolated.
(** A -> B and C alone: the tree has one clique; exact_bp (with the import added) answers KeyError for C *)
Definition exAlone : bayesnet :=
  mkBN [exA; exB; exC] [(exA, [exB]); (exB, []); (exC, [])]
       [(exA, mkF [] [nm "0"; nm "1"] [qq 2 5; qq 3 5]);
        (exB, mkF [exA] [nm "0"; nm "1"] [qq 1 5; qq 4 5; qq 1 2; qq 1 2]);
        (exC, mkF [] [nm "0"; nm "1"] [qq 1 10; qq 9 10])].
Theorem C96_refuted : wfnet exAlone /\ graph_ok exAlone /\ (exists t, tree_of exAlone = Ok t /\ map c_scope (t_C t) = [[exA; exB]] /\
  exact_bp_on (fun _ _ => [NInt 0]) id_oracle t exC = Raise KeyError).
Proof.
  split; [now apply wfnetb_ok|]. split; [now apply graph_okb_ok|]. eexists. split; [vm_compute; reflexivity|]. split; [reflexivity|]. vm_compute. reflexivity.
Qed.
Print Assumptions C96_refuted.

(** ** C97: the tree is a junction tree *)
(** cliques that share a variable are connected in the tree through cliques that contain it *)
Theorem C97_running_intersection : forall nx mc o bn t v i j, wfnet bn -> graph_ok bn -> (forall es, nx es = true -> chordal es) -> (forall es, chordal es -> clique_list es (mc es)) -> good o ->
  clique_tree nx mc o bn = Ok t -> In v (scope_at (t_C t) i) -> In v (scope_at (t_C t) j) ->
  clos_refl_trans _ (fun a b => (edge (t_E t) (NInt a) (NInt b) \/ edge (t_E t) (NInt b) (NInt a)) /\ In v (scope_at (t_C t) a) /\ In v (scope_at (t_C t) b)) i j.
Proof.
  intros nx mc o bn t v i j W G Snd Cls Go Ht Vi Vj. destruct (built_facts nx mc o bn t W Go Ht) as (es & xs & Em & Mc & _ & _ & _ & _ & _ & _ & Et).
  assert (Ch : chordal es).
  { destruct (C60_make_chordal nx (sub o 0) bn Snd (good_sub _ 0 Go) G) as (m & F & _ & Ef & _ & Ch & _). rewrite Em in Ef. injection Ef as <-. exact Ch. }
  assert (Lt : forall k, In v (scope_at (t_C t) k) -> k < length (mc es)).
  { intros k Hk. rewrite <- Mc, map_length. unfold scope_at in Hk. destruct (nth_error (t_C t) k) eqn:E; [apply nth_error_Some; congruence|destruct Hk]. }
  destruct (along_exists (mc es) (t_E t) i Et (Lt i Vi)) as (ss & Sn & Al).
  assert (Sc := along_schedule es (mc es) (t_E t) i ss Ch (Cls es Ch) Et Sn Al).
  assert (Es : forall k, scope_at (t_C t) k = nth k (mc es) []) by (intros k; rewrite scope_at_nth, Mc; reflexivity).
  assert (C := schedule_connected _ (t_E t) i _ ss v Sc Al i j).
  rewrite Es in Vi, Vj. 
  assert (Inc : forall x y, clos_refl_trans _ (fun a b => (edge (t_E t) (NInt a) (NInt b) \/ edge (t_E t) (NInt b) (NInt a)) /\ In v (nth a (mc es) []) /\ In v (nth b (mc es) [])) x y ->
    clos_refl_trans _ (fun a b => (edge (t_E t) (NInt a) (NInt b) \/ edge (t_E t) (NInt b) (NInt a)) /\ In v (scope_at (t_C t) a) /\ In v (scope_at (t_C t) b)) x y).
  { intros x y H. induction H as [x y H|x|x y z _ IH1 _ IH2]; [apply rt_step; rewrite !Es; exact H|apply rt_refl|eapply rt_trans; eassumption]. }
  apply Inc. apply C; [| |exact Vi|exact Vj].
  - apply in_seq. specialize (Lt i). rewrite Es in Lt. lia || (specialize (Lt Vi); lia).
  - apply in_seq. assert (L := Lt j). rewrite Es in L. specialize (L Vj). lia.
Qed.
Print Assumptions C97_running_intersection.
