(** CliqueBuild.v -- which factors and potentials the cliques of a new tree get. *)
From Verif Require Import Py Num BayesNet Factor SpecFactor Radix SumOver FactorMul FactorOut FactorMore Factorization VE GraphNet Graph CliqueTree SpecClique CliqueFacts CliqueInit.
Open Scope nat_scope.

Lemma Forall2_in {A B} (R Q : A -> B -> Prop) l m : (forall a b, In a l -> In b m -> R a b -> Q a b) -> Forall2 R l m -> Forall2 Q l m.
Proof.
  intros H F. induction F as [|a b l m Rab _ IH]; constructor; [apply H; [now left|now left|assumption]|]. apply IH. intros x y Hx Hy. apply H; now right.
Qed.
Lemma NoDup_app_disjoint {A} (l m : list A) x : NoDup (l ++ m) -> In x l -> In x m -> False.
Proof.
  induction l as [|y l IH]; [intros _ []|]. simpl. intros ND [<-|H1] H2; inversion ND as [|? ? N ND']; subst; [apply N; apply in_or_app; now right|now apply IH].
Qed.

(** the clique [s] contains [v] and its parents *)

Lemma bn_scope_wf bn v : wfnet bn -> In v (bn_V bn) -> bn_scope bn v = Ok (v :: nparents bn v).
Proof.
  intros W Hv. destruct (wn_F _ W v Hv) as [d Hd]. unfold bn_scope, bn_parents, nparents, getitem. rewrite Hd. reflexivity.
Qed.

Lemma assign_ok bn order : wfnet bn -> NoDup order -> incl order (bn_V bn) -> forall scopes taken,
  exists asg, assign_factors bn order taken scopes = Ok asg /\
    Forall2 (fun s ns => NoDup ns /\ forall v, In v ns -> In v order /\ ~ In v taken /\ fits bn v s) scopes asg /\
    NoDup (concat asg) /\
    forall v, In v (concat asg) <-> In v order /\ ~ In v taken /\ exists s, In s scopes /\ fits bn v s.
Proof.
  intros W ND I. induction scopes as [|s r IH]; intros taken.
  - exists []. split; [reflexivity|]. split; [constructor|]. split; [constructor|]. intros v. simpl. split; [intros []|intros (_ & _ & s & [] & _)].
  - cbn [assign_factors].
    set (pick := fun v => negb (mem v taken) && forallb (fun w => mem w s) (v :: nparents bn v)).
    rewrite (mapM_ok _ (fun v => if pick v then [v] else [])).
    2: { intros v Hv. rewrite bn_scope_wf by auto. reflexivity. }
    cbn [bind]. set (mine := concat _).
    assert (Em : mine = filter pick order).
    { unfold mine. clear. induction order as [|v l IHl]; [reflexivity|]. simpl. rewrite IHl. unfold pick at 1 3. simpl. destruct (negb (mem v taken) && _); reflexivity. }
    assert (Pk : forall v, pick v = true <-> ~ In v taken /\ fits bn v s).
    { intros v. unfold pick. rewrite andb_true_iff, negb_true_iff, mem_false, forallb_forall. unfold fits, incl. split; intros [A B]; (split; [exact A|]).
      - intros x Hx. apply mem_In. now apply B.
      - intros x Hx. apply mem_In. now apply B. }
    assert (Hm : forall v, In v mine <-> In v order /\ ~ In v taken /\ fits bn v s) by (intros v; rewrite Em, filter_In, Pk; tauto).
    destruct (IH (taken ++ mine)) as (asg & E & F & N & C). rewrite E. cbn [bind]. exists (mine :: asg). split; [reflexivity|]. split.
    { constructor; [split; [rewrite Em; now apply NoDup_filter|intros v; apply Hm]|]. eapply Forall2_in; [|exact F]. intros s' ns _ _ [A B]. split; [exact A|].
      intros v Hv. destruct (B v Hv) as (B1 & B2 & B3). split; [exact B1|]. split; [|exact B3]. intros K. apply B2. apply in_or_app. now left. }
    split.
    { simpl. apply NoDup_app_intro; [rewrite Em; now apply NoDup_filter|exact N|]. intros v H1 H2. apply C in H2 as (_ & H2 & _). apply H2. apply in_or_app. now right. }
    intros v. simpl. rewrite in_app_iff, Hm, C. split.
    + intros [(A1 & A2 & A3)|(A1 & A2 & s' & Hs & A3)]; [split; [exact A1|split; [exact A2|exists s; split; [now left|exact A3]]]|].
      split; [exact A1|]. split; [intros K; apply A2; apply in_or_app; now left|]. exists s'. split; [now right|exact A3].
    + intros (A1 & A2 & s' & [<-|Hs] & A3); [left; auto|]. destruct (in_dec name_eq_dec v mine) as [Hv|Hv]; [left; now apply Hm|].
      right. split; [exact A1|]. split; [|exists s'; auto]. intros K. apply in_app_or in K as [K|K]; contradiction.
Qed.

(** ** phase one: new Factor objects *)
Definition loaded (bn : bayesnet) (h : fheap) (c : clique) (nodes : list name) : Prop :=
  exists gs, holds (ncard bn) h (c_F c) gs /\ Forall2 (node_factor bn) nodes gs /\ c_psi c = None /\ c_belief c = None /\ c_msgs c = [].

Lemma phase_one bn : wfnet bn -> forall scopes asg h cs0 asg0, length scopes = length asg -> (forall ns, In ns asg -> incl ns (bn_V bn)) ->
  live h (concat (map c_F cs0)) -> Forall2 (loaded bn h) cs0 asg0 ->
  exists h' cs, foldM (fun st sn => do p <- alloc_factors bn (fst st) (snd sn) ;; Ok (fst p, snd st ++ [mkC (fst sn) (snd p) None None []])) (combine scopes asg) (h, cs0) = Ok (h', cs) /\
    live h' (concat (map c_F cs)) /\ Forall2 (loaded bn h') cs (asg0 ++ asg) /\ map c_scope cs = map c_scope cs0 ++ scopes.
Proof.
  intros W. induction scopes as [|s scopes IH]; intros [|ns asg] h cs0 asg0 Len I Lv F; simpl in Len; try discriminate.
  - exists h, cs0. rewrite !app_nil_r. auto.
  - cbn [combine foldM fst snd].
    destruct (alloc_factors_ok bn ns h _ W Lv (I ns (or_introl eq_refl))) as (h1 & fs & gs & E1 & L1 & H1 & N1 & O1 & G1 & W1). rewrite E1. cbn [bind fst snd].
    set (c := mkC s fs None None []).
    destruct (IH asg h1 (cs0 ++ [c]) (asg0 ++ [ns])) as (h' & cs & E & L' & F' & M).
    + lia.
    + intros x Hx. apply I. now right.
    + eapply live_perm; [|exact L1]. rewrite map_app, concat_app. simpl. rewrite app_nil_r. apply Permutation_app_comm.
    + apply Forall2_app.
      * eapply Forall2_in; [|exact F]. intros c' ns' _ _ (gs' & A & B). exists gs'. split; [|exact B].
        clear - A G1. unfold holds in *. eapply Forall2_in; [|exact A]. intros a f _ _ [Ea Wf]. split; [now apply G1|exact Wf].
      * constructor; [|constructor]. exists gs. cbn [c c_F c_psi c_belief c_msgs]. auto.
    + exists h', cs. split; [exact E|]. split; [exact L'|]. rewrite <- app_assoc in F'. split; [exact F'|]. rewrite M, map_app, <- app_assoc. reflexivity.
Qed.

(** ** phase two: potentials *)

(** a clique that has its potential and no messages; [x] is its belief object and its nodes *)
Definition ready (bn : bayesnet) (h : fheap) (c : clique) (x : nat * list name) : Prop :=
  exists p f again, c_psi c = Some p /\ c_belief c = Some (fst x) /\ c_msgs c = [] /\
    p <> fst x /\ nth_error (h_obj h) p = nth_error (h_obj h) (fst x) /\ fload h (fst x) = Ok f /\ wf (ncard bn) f /\
    (forall w, In w (f_scope f) <-> exists v, In v (snd x) /\ In w (v :: nparents bn v)) /\
    doubled (table_size bn) (snd x) again /\
    forall a, valid (ncard bn) (bn_V bn) a -> val f a = potential bn (snd x) again a.

Lemma doubled_nodes bn nodes gs es : wfnet bn -> incl nodes (bn_V bn) -> Forall2 (node_factor bn) nodes gs ->
  doubled (fun g => length (f_cpt g)) gs es ->
  exists again, doubled (table_size bn) nodes again /\ Forall2 (node_factor bn) again es /\ incl again nodes.
Proof.
  intros W I H D. assert (Len : length nodes = length gs) by (clear - H; induction H; simpl; congruence).
  assert (Em : map (table_size bn) nodes = map (fun g => length (f_cpt g)) gs).
  { clear D Len. induction H as [|v g nodes gs E _ IH]; [reflexivity|]. simpl. rewrite IH by (intros x Hx; apply I; now right). f_equal.
    destruct (init_ok bn v W (I v (or_introl eq_refl))) as (f & E' & _ & _ & _ & C & _). unfold node_factor in E. rewrite E in E'. injection E' as <-. unfold table_size. now rewrite C. }
  destruct D as [[D ->]|(D & i & Fm & ->)].
  - exists []. split; [left; split; [congruence|reflexivity]|]. split; [constructor|intros x []].
  - exists (firstn (S i) nodes). split; [right; split; [lia|]; exists i; split; [now rewrite Em|reflexivity]|]. split.
    + clear - H. revert nodes gs H. induction (S i) as [|n IH]; intros nodes gs H; simpl; [constructor|]. destruct H; constructor; auto.
    + intros x Hx. rewrite <- (firstn_skipn (S i) nodes). apply in_or_app. now left.
Qed.

Lemma ready_frame bn h h' c x : ready bn h c x -> fload h' (fst x) = fload h (fst x) ->
  (forall p, c_psi c = Some p -> nth_error (h_obj h') p = nth_error (h_obj h') (fst x)) -> ready bn h' c x.
Proof.
  intros (p & f & ag & A1 & A2 & A3 & A4 & A5 & A6 & A7 & A8 & A9 & A10) E O. exists p, f, ag.
  split; [exact A1|]. split; [exact A2|]. split; [exact A3|]. split; [exact A4|]. split; [now apply O|]. split; [now rewrite E|]. auto.
Qed.

Lemma phase_two bn o : wfnet bn -> (forall n, good (o n)) -> forall cs asg h done xs,
  (forall ns, In ns asg -> incl ns (bn_V bn)) ->
  live h (map fst xs ++ concat (map c_F cs)) -> Forall2 (loaded bn h) cs asg -> Forall2 (ready bn h) done xs ->
  let r := foldM (fun acc c => do p <- initialize_psi (o (length (snd acc))) (fst acc) c ;; Ok (fst p, snd acc ++ [snd p])) cs (h, done) in
  (In [] asg /\ r = Raise AssertionError) \/
  (~ In [] asg /\ exists h' cs' xs', r = Ok (h', cs') /\ live h' (map fst xs') /\ Forall2 (ready bn h') cs' xs' /\
     map snd xs' = map snd xs ++ asg /\ map c_scope cs' = map c_scope done ++ map c_scope cs).
Proof.
  intros W Go. induction cs as [|c cs IH]; intros asg h done xs I Lv F R; cbn zeta.
  - inversion F; subst. right. split; [intros []|]. exists h, done, xs. simpl in Lv. rewrite app_nil_r in Lv. split; [reflexivity|]. split; [exact Lv|]. split; [exact R|]. simpl. now rewrite !app_nil_r.
  - inversion F as [|? ns ? asg' (gs & H & N & P & B & M) F']; subst. cbn [foldM fst snd].
    destruct ns as [|n0 nr].
    + left. split; [now left|]. inversion N; subst. inversion H as [Hc|]; subst. unfold initialize_psi. rewrite <- Hc. reflexivity.
    + set (ns := n0 :: nr) in *. assert (In1 : incl ns (bn_V bn)) by (apply I; now left).
      assert (Ne : c_F c <> []).
      { intros K. rewrite K in H. inversion H; subst. inversion N. }
      simpl in Lv. assert (Lv1 : live h (c_F c ++ (map fst xs ++ concat (map c_F cs)))).
      { eapply live_perm; [|exact Lv]. rewrite !app_assoc. apply Permutation_app_tail. apply Permutation_app_comm. }
      destruct (initialize_psi_ok (ncard bn) (o (length done)) h c gs _ (Go _) Ne Lv1 H) as (h1 & p & b & f & es & E1 & L1 & Npb & Ob & Fb & Wf & Sc & D & V & K & O & _).
      rewrite E1. cbn [bind fst snd].
      destruct (doubled_nodes bn ns gs es W In1 N D) as (again & Da & Na & Ia).
      set (c1 := mkC (c_scope c) (c_F c) (Some p) (Some b) (c_msgs c)) in *.
      assert (Rc : ready bn h1 c1 (b, ns)).
      { exists p, f, again. cbn [c1 c_psi c_belief c_msgs fst snd]. split; [reflexivity|]. split; [reflexivity|]. split; [exact M|]. split; [exact Npb|]. split; [exact Ob|]. split; [exact Fb|].
        split; [exact Wf|]. split; [intros w; rewrite Sc; now apply node_scopes|]. split; [exact Da|]. intros a Va. rewrite V.
        - unfold potential. rewrite (node_prod bn ns gs W In1 N a Va). rewrite (node_prod bn again es W (incl_tran Ia In1) Na a Va). reflexivity.
        - intros w Hw. apply (node_scopes bn ns gs W In1 N) in Hw as (v & Hv & [<-|Hw]); [now apply Va, In1|]. apply Va. apply (wn_par _ W v); [now apply In1|assumption]. }
      assert (Rd : Forall2 (ready bn h1) done xs).
      { eapply Forall2_in; [|exact R].
        intros d x _ Hx Rx. assert (Hb : In (fst x) (map fst xs)) by (now apply in_map).
        assert (HbL : In (fst x) (map fst xs ++ concat (map c_F cs))) by (apply in_or_app; now left).
        apply (ready_frame bn h h1); [exact Rx|now apply K|]. intros p' Ep. destruct Rx as (p2 & f2 & ag2 & A1 & A2 & A3 & A4 & A5 & _).
        rewrite Ep in A1. injection A1 as <-.
        pose proof (lv_nodup _ _ Lv1) as ND.
        destruct (lv_obj _ _ Lv1 (fst x)) as (ob & Eob & Wob); [apply in_or_app; now right|].
        assert (Nb : ~ In (fst x) (c_F c)). { intros C. exact (NoDup_app_disjoint _ _ (fst x) ND C HbL). }
        assert (Np : ~ In p' (c_F c)).
        { intros C. rewrite Eob in A5. assert (Ap := lv_apart _ _ Lv1 p' (fst x) ob ob). destruct Ap as (Q & _); auto; [apply in_or_app; now left|apply in_or_app; now right]. }
        rewrite Eob in A5. rewrite (O _ _ Np A5), (O _ _ Nb Eob). reflexivity. }
      destruct (IH asg' h1 (done ++ [c1]) (xs ++ [(b, ns)])) as [[Hin Er]|(Nin & h' & cs' & xs' & Er & L' & F2 & Ms & Mc)].
      * intros x Hx. apply I. now right.
      * eapply live_perm; [|exact L1]. rewrite map_app. simpl. rewrite <- app_assoc. simpl. symmetry. apply Permutation_sym. apply Permutation_middle.
      * eapply Forall2_in; [|exact F']. intros c' ns' Hc _ (gs' & A & A'). exists gs'. split; [|exact A']. eapply holds_frame; [|exact A].
        intros a Ha. apply K. apply in_or_app. right. apply in_concat. exists (c_F c'). split; [now apply in_map|assumption].
      * apply Forall2_app; [exact Rd|]. constructor; [exact Rc|constructor].
      * left. split; [now right|exact Er].
      * right. split; [intros [C|C]; [discriminate|contradiction]|]. exists h', cs', xs'. split; [exact Er|]. split; [exact L'|]. split; [exact F2|].
        rewrite Ms, Mc, !map_app. simpl. rewrite <- !app_assoc. split; reflexivity.
Qed.

(** ** all of it *)

Lemma build_ok bn o scopes : wfnet bn -> good o ->
  exists asg, assign_factors bn (ask (sub o 0) (bn_nodes bn)) [] scopes = Ok asg /\ assignment bn scopes asg /\
    ((In [] asg /\ build_cliques o bn scopes = Raise AssertionError) \/
     (~ In [] asg /\ exists h cs xs, build_cliques o bn scopes = Ok (h, cs) /\ live h (map fst xs) /\ Forall2 (ready bn h) cs xs /\
        map snd xs = asg /\ map c_scope cs = scopes)).
Proof.
  intros W Go. unfold build_cliques. set (order := ask (sub o 0) (bn_nodes bn)).
  assert (P : Permutation order (bn_V bn)) by (apply good_ask; now apply good_sub).
  destruct (assign_ok bn order W) with (scopes := scopes) (taken := @nil name) as (asg & E & F & N & C).
  { eapply Permutation_NoDup; [symmetry; exact P|apply W]. }
  { intros x Hx. now apply (Permutation_in _ P). }
  exists asg. split; [exact E|]. rewrite E. cbn [bind].
  assert (A : assignment bn scopes asg).
  { split; [|split; [exact N|]].
    - eapply Forall2_in; [|exact F]. intros s ns _ _ [A B]. split; [exact A|]. intros v Hv. destruct (B v Hv) as (B1 & _ & B3). split; [now apply (Permutation_in _ P)|exact B3].
    - intros v. rewrite C. split.
      + intros (A1 & _ & A2). split; [now apply (Permutation_in _ P)|exact A2].
      + intros (A1 & A2). split; [now apply (Permutation_in _ (Permutation_sym P))|]. split; [intros []|exact A2]. }
  split; [exact A|].
  assert (I : forall ns, In ns asg -> incl ns (bn_V bn)).
  { intros ns Hn v Hv. apply (proj2 (proj2 A)). apply in_concat. exists ns. auto. }
  assert (Len : length scopes = length asg) by (clear - F; induction F; simpl; congruence).
  destruct (phase_one bn W scopes asg no_heap [] [] Len I) as (h1 & cs & E1 & L1 & F1 & M1).
  { simpl. constructor; [constructor|intros a []|intros a b x y []]. }
  { constructor. }
  rewrite E1. cbn [bind fst snd]. simpl in M1.
  destruct (phase_two bn (fun n => sub (sub o 1) n) W (fun n => good_sub _ n (good_sub _ 1 Go)) cs asg h1 [] [] I) as [[H R]|(H & h' & cs' & xs' & R & L' & F' & Ms & Mc)].
  - simpl. exact L1.
  - exact F1.
  - constructor.
  - left. split; [exact H|exact R].
  - right. split; [exact H|]. exists h', cs', xs'. split; [exact R|]. split; [exact L'|]. split; [exact F'|]. split; [exact Ms|]. rewrite Mc. exact M1.
Qed.
