(** CliqueNet.v -- the clique tree of a network: families fit, running intersection, and the upward pass. *)
From Verif Require Import Py Num BayesNet Factor SpecFactor SpecGraph SpecMst Radix SumOver FactorMul FactorOut FactorMore Factorization SpecInference VE VETotal GraphNet GraphFacts Graph Mst Chordal Dirac CliqueTree SpecClique CliqueFacts CliqueInit CliqueBuild CliqueSend CliqueBP CliqueMain CliqueExact Junction Properties_Graph.
Open Scope nat_scope.

Lemma is_clique_extend es s : is_clique es s -> exists t, maximal_clique es t /\ incl s t.
Proof.
  intros (Ne & P & V). destruct (extend_clique es (evertices es) s Ne) as (q & Mq & Iq).
  - intros a Ha. destruct (V a Ha) as (b & Hb). now apply (In_evertices es a b).
  - intros a b Ha Hb Nab. split; [now apply P|exact Nab].
  - exists q. split; [now apply mc_maximal|exact Iq].
Qed.

Lemma net_cliques nx o bn es scopes : wfnet bn -> graph_ok bn -> (forall es, nx es = true -> chordal es) -> good o ->
  make_chordal nx o bn None = Ok es -> clique_list es scopes ->
  chordal es /\ (forall s, In s scopes -> incl s (bn_V bn)) /\
  (forall v, In v (bn_V bn) -> (attached bn v <-> exists s, In s scopes /\ fits bn v s)) /\
  (forall s v, In s scopes -> In v s -> attached bn v) /\
  (forall v, In v (evertices es) <-> In v (bn_V bn) /\ attached bn v) /\
  forall v p, In v (bn_V bn) -> In p (nparents bn v) -> uadj es p v /\ p <> v.
Proof.
  intros W G Snd Go Em (C1 & C2 & C3). destruct (C60_make_chordal nx o bn Snd Go G) as (m & F & Ec & Ef & Im & Ch & Hm). rewrite Em in Ef. injection Ef as <-.
  destruct (moralized_edges_ok bn G) as (m' & Ec' & _ & M1 & M2 & M3). rewrite Ec in Ec'. injection Ec' as <-.
  assert (Up : forall a b, uadj m a b -> uadj es a b) by (intros a b [K|K]; [left|right]; now apply Im).
  assert (Att : forall a b, uadj es a b -> In a (bn_V bn) /\ attached bn a).
  { intros a b H. apply Hm in H as (c & [H|H]); destruct (M1 _ _ H) as [[K1 K2]|(K0 & d & K1 & K2 & K3)].
    - split; [now apply (wn_par _ W c)|]. right. eauto.
    - split; [now apply (wn_par _ W d)|]. right. eauto.
    - split; [exact K1|]. left. intros C. rewrite C in K2. destruct K2.
    - split; [now apply (wn_par _ W d)|]. right. eauto. }
  assert (Sc : forall s v, In s scopes -> In v s -> In v (bn_V bn) /\ attached bn v).
  { intros s v Hs Hv. destruct (C1 s Hs) as (_ & (_ & _ & V) & _). destruct (V v Hv) as (b & Hb). now apply (Att v b). }
  assert (Ev : forall v, In v (bn_V bn) -> attached bn v -> exists b, uadj es v b).
  { intros v Hv [Np|(c & Hc & Hp)].
    - destruct (nparents bn v) as [|p ps] eqn:E; [congruence|]. exists p. apply Up. right. apply M2; [exact Hv|rewrite E; now left].
    - exists c. apply Up. left. now apply M2. }
  assert (Pv : forall v p, In v (bn_V bn) -> In p (nparents bn v) -> uadj es p v /\ p <> v).
  { intros v p Hv Hp. split; [apply Up; left; now apply M2|]. intros ->. pose proof (wn_scope _ W v Hv) as ND. inversion ND; contradiction. }
  split; [exact Ch|]. split; [intros s Hs v Hv; now apply (Sc s)|]. split; [|split; [intros s v Hs Hv; now apply (Sc s)|split; [|exact Pv]]].
  - intros v Hv. split.
    + intros A. assert (Cq : is_clique es (v :: nparents bn v)).
      { split; [discriminate|]. split.
        - intros a b [<-|Ha] [<-|Hb] Nab; [congruence| | |].
          + apply Up. right. now apply M2.
          + apply Up. left. now apply M2.
          + apply Up. apply M3. split; [exact Nab|]. exists v. auto.
        - intros a [<-|Ha]; [now apply Ev|]. exists v. apply Up. left. now apply M2. }
      destruct (is_clique_extend es _ Cq) as (t & Mt & It). destruct (C2 t Mt) as (s & Hs & Ss). exists s. split; [exact Hs|]. intros x Hx. apply Ss. now apply It.
    + intros (s & Hs & F). apply (Sc s v Hs). apply F. now left.
  - intros v. split; [intros H; apply evertices_uadj in H as (b & Hb); now apply (Att v b)|]. intros [Hv A]. destruct (Ev v Hv A) as (b & Hb). now apply (In_evertices es v b).
Qed.

(** a network with an edge always has a clique that holds two nodes *)
Lemma two_nodes nx o bn es scopes asg : wfnet bn -> graph_ok bn -> (forall es, nx es = true -> chordal es) -> good o ->
  make_chordal nx o bn None = Ok es -> clique_list es scopes -> assignment bn scopes asg ->
  (exists v, In v (bn_V bn) /\ nparents bn v <> []) -> exists ns, In ns asg /\ 2 <= length ns.
Proof.
  intros W G Snd Go Em Cl (A1 & A2 & A3) (v & Hv & Np). destruct (net_cliques nx o bn es scopes W G Snd Go Em Cl) as (Ch & Is & Ft & At & Ev & Pv).
  destruct (Exists_dec (fun ns => 2 <= length ns) asg) as [Y|N]; [intros ns; apply le_dec|apply Exists_exists in Y; exact Y|exfalso].
  assert (Ne : scopes <> []).
  { destruct (proj1 (Ft v Hv)) as (s & Hs & _); [left; exact Np|]. intros ->. destruct Hs. }
  destruct (cliques_schedule es scopes Ch Cl Ne) as (_ & Lt & _).
  assert (L1 : length scopes < length (evertices es)).
  { apply Lt. destruct (nparents bn v) as [|p ps] eqn:E; [congruence|]. exists p, v. apply Pv; [exact Hv|rewrite E; now left]. }
  assert (L2 : length (evertices es) <= length (concat asg)).
  { apply NoDup_incl_length; [apply NoDup_dedup|]. intros x Hx. apply Ev in Hx as [Hx Ax]. apply A3. split; [exact Hx|]. now apply Ft. }
  assert (L3 : length (concat asg) <= length asg).
  { clear - N. induction asg as [|ns asg IH]; [auto|]. simpl. rewrite app_length. assert (length ns <= 1) by (destruct (Nat.le_gt_cases (length ns) 1) as [K|K]; [exact K|]; exfalso; apply N; now left).
    assert (length (concat asg) <= length asg) by (apply IH; intros C; apply N; now right). lia. }
  assert (L4 : length scopes = length asg) by (clear - A1; induction A1; simpl; congruence). lia.
Qed.

(** each clique takes the nodes whose family it contains and no earlier clique contains *)
Lemma assign_first bn order : wfnet bn -> NoDup order -> incl order (bn_V bn) -> forall scopes taken asg, assign_factors bn order taken scopes = Ok asg ->
  forall k s ns, nth_error scopes k = Some s -> nth_error asg k = Some ns ->
  forall v, In v ns <-> In v order /\ ~ In v taken /\ fits bn v s /\ forall j s', j < k -> nth_error scopes j = Some s' -> ~ fits bn v s'.
Proof.
  intros W ND I. induction scopes as [|s0 r IH]; intros taken asg E k s ns Ek En v; [destruct k; discriminate|].
  cbn [assign_factors] in E. set (pick := fun v => negb (mem v taken) && forallb (fun w => mem w s0) (v :: nparents bn v)) in *.
  rewrite (mapM_ok _ (fun v => if pick v then [v] else [])) in E.
  2: { intros w Hw. rewrite bn_scope_wf by auto. reflexivity. }
  cbn [bind] in E. set (mine := concat _) in *.
  assert (Em : mine = filter pick order).
  { unfold mine. clear. induction order as [|w l IHl]; [reflexivity|]. simpl. rewrite IHl. unfold pick at 1 3. simpl. destruct (negb (mem w taken) && _); reflexivity. }
  assert (Hm : forall v, In v mine <-> In v order /\ ~ In v taken /\ fits bn v s0).
  { intros w. rewrite Em, filter_In. unfold pick. rewrite andb_true_iff, negb_true_iff, mem_false, forallb_forall. unfold fits, incl. split; intros (A & B & C); (split; [exact A|]); (split; [exact B|]); intros x Hx; apply mem_In; now apply C. }
  apply bind_Ok in E as (rest & Er & E). injection E as <-. destruct k as [|k]; simpl in Ek, En.
  - injection Ek as <-. injection En as <-. rewrite Hm. split; [|tauto]. intros (A & B & C). split; [exact A|]. split; [exact B|]. split; [exact C|]. intros j s' Hj. lia.
  - rewrite (IH _ _ Er k s ns Ek En v). rewrite in_app_iff, Hm. split.
    + intros (A & B & C & D). split; [exact A|]. split; [tauto|]. split; [exact C|]. intros [|j] s' Hj Es; simpl in Es; [injection Es as <-; tauto|]. apply (D j s'); [lia|exact Es].
    + intros (A & B & C & D). split; [exact A|]. split; [|split; [exact C|]].
      * intros [K|(_ & _ & K)]; [contradiction|]. now apply (D 0 s0); [lia|reflexivity|].
      * intros j s' Hj Es. apply (D (S j) s'); [lia|exact Es].
Qed.

Lemma fitsb_ok bn v s : fitsb bn v s = true <-> fits bn v s.
Proof. unfold fitsb, fits, incl. rewrite forallb_forall. split; intros H x Hx; apply mem_In; now apply H. Qed.
Lemma assign_filter bn order : wfnet bn -> incl order (bn_V bn) -> forall scopes taken asg, assign_factors bn order taken scopes = Ok asg ->
  forall k ns, nth_error asg k = Some ns -> exists p, ns = filter p order.
Proof.
  intros W I. induction scopes as [|s0 r IH]; intros taken asg E k ns En; [injection E as <-; destruct k; discriminate|].
  cbn [assign_factors] in E. set (pick := fun v => negb (mem v taken) && forallb (fun w => mem w s0) (v :: nparents bn v)) in *.
  rewrite (mapM_ok _ (fun v => if pick v then [v] else [])) in E.
  2: { intros w Hw. rewrite bn_scope_wf by auto. reflexivity. }
  cbn [bind] in E. set (mine := concat _) in *.
  assert (Em : mine = filter pick order).
  { unfold mine. clear. induction order as [|w l IHl]; [reflexivity|]. simpl. rewrite IHl. unfold pick at 1 3. simpl. destruct (negb (mem w taken) && _); reflexivity. }
  apply bind_Ok in E as (rest & Er & E). injection E as <-. destruct k as [|k]; simpl in En.
  - injection En as <-. eauto.
  - exact (IH _ _ Er k ns En).
Qed.
Lemma nth_error_ext {A} : forall l m : list A, (forall k, nth_error l k = nth_error m k) -> l = m.
Proof.
  induction l as [|x l IH]; intros [|y m] H; [reflexivity|specialize (H 0); discriminate|specialize (H 0); discriminate|].
  assert (H0 := H 0). injection H0 as ->. f_equal. apply IH. intros k. exact (H (S k)).
Qed.
Lemma assign_first_fit bn order scopes asg : wfnet bn -> NoDup order -> incl order (bn_V bn) -> assign_factors bn order [] scopes = Ok asg ->
  length asg = length scopes -> asg = map (first_fit bn order scopes) (seq 0 (length scopes)).
Proof.
  intros W ND I E L. apply nth_error_ext. intros k. destruct (nth_error asg k) as [ns|] eqn:En.
  - assert (Hk : k < length scopes) by (rewrite <- L; apply nth_error_Some; congruence).
    rewrite nth_error_map. rewrite (nth_error_nth' _ 0) by (rewrite seq_length; exact Hk). rewrite seq_nth by exact Hk. cbn [option_map plus]. f_equal.
    destruct (assign_filter bn order W I scopes [] asg E k ns En) as (p & Ep). destruct (nth_error scopes k) as [s|] eqn:Es; [|apply nth_error_None in Es; lia].
    assert (Sp := assign_first bn order W ND I scopes [] asg E k s ns Es En). rewrite Ep. unfold first_fit. apply filter_ext_in. intros v Hv.
    assert (Hp : p v = true <-> In v ns) by (rewrite Ep, filter_In; tauto). rewrite Sp in Hp. rewrite (nth_error_nth _ _ [] Es).
    assert (Hq : fitsb bn v s && forallb (fun s' => negb (fitsb bn v s')) (firstn k scopes) = true <-> fits bn v s /\ forall j s', j < k -> nth_error scopes j = Some s' -> ~ fits bn v s').
    { rewrite andb_true_iff, fitsb_ok, forallb_forall. split; intros [A B]; (split; [exact A|]).
      - intros j s' Hj Ej F. assert (Hs : In s' (firstn k scopes)).
        { apply nth_error_In with (n := j). rewrite <- Ej. symmetry. rewrite <- (firstn_skipn k scopes) at 1. apply nth_error_app1. rewrite firstn_length. lia. }
        specialize (B s' Hs). apply fitsb_ok in F. rewrite F in B. discriminate.
      - intros s' Hs. apply negb_true_iff. destruct (fitsb bn v s') eqn:F; [|reflexivity]. exfalso. apply fitsb_ok in F. apply In_nth_error in Hs as (j & Ej).
        assert (Lj : j < length (firstn k scopes)) by (apply nth_error_Some; congruence). rewrite firstn_length in Lj. apply (B j s'); [lia| |exact F].
        rewrite <- Ej. rewrite <- (firstn_skipn k scopes) at 1. apply nth_error_app1. rewrite firstn_length. lia. }
    destruct (p v), (fitsb bn v s && forallb _ _); try reflexivity; exfalso.
    + destruct (proj1 Hp eq_refl) as (_ & _ & X). apply Hq in X. discriminate.
    + assert (false = true); [|discriminate]. apply Hp. split; [exact Hv|]. split; [intros []|]. now apply Hq.
  - symmetry. apply nth_error_None. rewrite map_length, seq_length, <- L. now apply nth_error_None.
Qed.

(** ** the upward pass along the tree *)
Lemma tree_pass nx mc o bn t : wfnet bn -> graph_ok bn -> (forall es, nx es = true -> chordal es) -> (forall es, chordal es -> clique_list es (mc es)) -> good o ->
  clique_tree nx mc o bn = Ok t ->
  exists asg agains, asg = map (first_fit bn (ask (sub (sub o 1) 0) (bn_V bn)) (map c_scope (t_C t))) (seq 0 (length (t_C t))) /\
  assignment bn (map c_scope (t_C t)) asg /\ Forall2 (doubled (table_size bn)) asg agains /\
  (forall v, In v (concat asg) <-> In v (bn_V bn) /\ attached bn v) /\
  (forall v, In v (concat (map c_scope (t_C t))) <-> In v (bn_V bn) /\ attached bn v) /\
  forall root, root < length (t_C t) ->
    (exists ss, sends root (seq 0 (length (t_C t))) ss /\ along (t_E t) ss) /\
    forall ss o1 o2, sends root (seq 0 (length (t_C t))) ss -> along (t_E t) ss -> good o1 -> good o2 ->
    exists h1 cs1 c h2 c2 b f, upward o1 (t_heap t) (t_C t) ss = Ok (h1, cs1) /\ nth_error cs1 root = Some c /\ collect_beliefs o2 h1 c = Ok (h2, c2) /\
      c_belief c2 = Some b /\ fload h2 b = Ok f /\ (forall v, In v (f_scope f) <-> In v (scope_at (t_C t) root)) /\
      forall rest, NoDup rest -> (forall v, In v rest <-> In v (bn_V bn) /\ attached bn v /\ ~ In v (scope_at (t_C t) root)) ->
        repr (ncard bn) f (sum_over (ncard bn) rest (weight_of bn (concat asg ++ concat agains))).
Proof.
  intros W G Snd Cls Go Ht. destruct (clique_tree_inv _ _ _ _ _ Ht) as (es & Ec & Em & EV & Eb).
  assert (Go0 := good_sub _ 0 Go). assert (Go1 := good_sub _ 1 Go).
  assert (Ch : chordal es).
  { destruct (C60_make_chordal nx (sub o 0) bn Snd Go0 G) as (m & F & _ & Ef & _ & Ch & _). rewrite Ec in Ef. injection Ef as <-. exact Ch. }
  assert (Cl := Cls es Ch). destruct (net_cliques nx (sub o 0) bn es (mc es) W G Snd Go0 Ec Cl) as (_ & Is & Ft & At & Ev & Pv).
  destruct (upward_main bn (sub o 1) (mc es) (t_heap t) (t_C t) W Go1 Eb Is) as (asg & agains & Ea & As & Db & Run).
  { intros s v Hs Hv. apply Ft; [now apply (Is s)|now apply (At s)]. }
  destruct (build_ok bn (sub o 1) (mc es) W Go1) as (asg' & _ & _ & [[_ R]|(_ & h & cs & xs & R & _ & _ & _ & Mc)]); [congruence|].
  rewrite R in Eb. injection Eb as Eh Ecs. subst h cs.
  assert (Ln : length (t_C t) = length (mc es)) by (rewrite <- Mc; symmetry; apply map_length).
  assert (Es : forall k, scope_at (t_C t) k = nth k (mc es) []) by (intros k; rewrite scope_at_nth, Mc; reflexivity).
  assert (Hc : forall v, In v (concat (mc es)) <-> In v (bn_V bn) /\ attached bn v).
  { intros v. rewrite in_concat. split; [intros (s & Hs & Hv); split; [now apply (Is s)|now apply (At s)]|]. intros [Hv A]. apply Ft in A as (s & Hs & F); [|exact Hv]. exists s. split; [exact Hs|]. apply F. now left. }
  assert (P : Permutation (ask (sub (sub o 1) 0) (bn_V bn)) (bn_V bn)) by (apply good_ask, good_sub, good_sub; exact Go).
  exists asg, agains. rewrite Mc. split.
  { rewrite Ln. apply (assign_first_fit bn _ (mc es) asg W); [eapply Permutation_NoDup; [symmetry; exact P|apply W]|intros x Hx; now apply (Permutation_in _ P)|exact Ea|].
    destruct As as (A & _). clear - A. induction A; simpl; congruence. }
  split; [exact As|]. split; [exact Db|]. split; [|split; [exact Hc|]].
  - intros v. destruct As as (_ & _ & A3). rewrite A3. split; intros [Hv A]; (split; [exact Hv|now apply Ft]).
  - rewrite Ln. intros root Hr. split; [now apply along_exists|].
    intros ss o1 o2 Sn Al G1 G2. assert (Sch := along_schedule es (mc es) (t_E t) root ss Ch Cl Em Sn Al).
    destruct (Run o1 o2 root ss G1 G2 Sch) as (h1 & cs1 & c & h2 & c2 & b & f & R1 & R2 & R3 & R4 & R5 & R6 & R7).
    exists h1, cs1, c, h2, c2, b, f. split; [exact R1|]. split; [exact R2|]. split; [exact R3|]. split; [exact R4|]. split; [exact R5|]. rewrite Es. split; [exact R6|].
    intros rest ND Hrest. apply R7; [exact ND|]. intros v. rewrite Hrest, Hc. tauto.
Qed.

Lemma weight_det bn nodes again a : incl again nodes -> (forall v, In v again -> deterministic bn v) -> weight_of bn (nodes ++ again) a = weight_of bn nodes a.
Proof.
  intros I D. unfold weight_of. rewrite map_app, qprod_app. induction again as [|v again IH]; [cbn; ring|].
  assert (Q : getq (cond_prob bn v a) = 0%Qc \/ getq (cond_prob bn v a) = 1%Qc).
  { unfold cond_prob. destruct (nth_error (ncpt bn v) _) as [x|] eqn:E; [|now left]. apply (D v); [now left|]. eapply nth_error_In; eassumption. }
  cbn [map]. change (qprod (getq (cond_prob bn v a) :: map (fun w => getq (cond_prob bn w a)) again)) with (getq (cond_prob bn v a) * qprod (map (fun w => getq (cond_prob bn w a)) again))%Qc.
  assert (IH' := IH (fun x Hx => I x (or_intror Hx)) (fun w Hw => D w (or_intror Hw))). clear IH. destruct Q as [Q|Q]; rewrite Q.
  - assert (Z : qprod (map (fun w => getq (cond_prob bn w a)) nodes) = 0%Qc).
    { assert (Hv : In v nodes) by (apply I; now left). apply in_split in Hv as (p & q & ->). rewrite map_app, qprod_app. cbn [map].
      change (qprod (getq (cond_prob bn v a) :: map (fun w => getq (cond_prob bn w a)) q)) with (getq (cond_prob bn v a) * qprod (map (fun w => getq (cond_prob bn w a)) q))%Qc. rewrite Q. ring. }
    rewrite Z. ring.
  - rewrite <- IH' at 2. ring.
Qed.

Lemma tree_exact bn asg agains root_scope f h c b target : wfnet bn -> NoDup (concat asg) -> (forall v, In v (concat asg) <-> In v (bn_V bn)) ->
  Forall2 (doubled (table_size bn)) asg agains -> (forall v, In v (concat agains) -> deterministic bn v) ->
  c_belief c = Some b -> fload h b = Ok f -> (forall v, In v (f_scope f) <-> In v root_scope) -> incl root_scope (bn_V bn) -> In target root_scope ->
  (forall rest, NoDup rest -> (forall v, In v rest <-> In v (bn_V bn) /\ ~ In v root_scope) -> repr (ncard bn) f (sum_over (ncard bn) rest (weight_of bn (concat asg ++ concat agains)))) ->
  exists g, marginalize_over h c target = Ok g /\ f_scope g = [target] /\ f_cpt g = map (marginal bn target []) (seq 0 (ncard bn target)).
Proof.
  intros W NDa Ha Db Det Eb Ef Sf Ir Ht Rp. set (rest := filter (fun v => negb (mem v root_scope)) (bn_V bn)).
  assert (NDr : NoDup rest) by (apply NoDup_filter, W).
  assert (Hr : forall v, In v rest <-> In v (bn_V bn) /\ ~ In v root_scope).
  { intros v. unfold rest. rewrite filter_In, negb_true_iff, mem_false. tauto. }
  specialize (Rp rest NDr Hr).
  assert (Iag : incl (concat agains) (concat asg)).
  { clear - Db. intros v Hv. induction Db as [|ns ag asg agains D _ IH]; [destruct Hv|]. simpl in *. apply in_app_or in Hv as [Hv|Hv]; [|apply in_or_app; right; now apply IH].
    apply in_or_app. left. destruct D as [[_ ->]|(_ & i & _ & ->)]; [destruct Hv|]. rewrite <- (firstn_skipn (S i) ns). apply in_or_app. now left. }
  assert (Pj : forall a, weight_of bn (concat asg ++ concat agains) a = joint bn a).
  { intros a. rewrite weight_det by assumption. unfold weight_of, joint. apply qprod_perm. apply Permutation_map. apply NoDup_Permutation; [exact NDa|apply W|exact Ha]. }
  unfold marginalize_over. rewrite Eb, Ef. cbn [bind]. assert (Htf : In target (f_scope f)) by now apply Sf.
  destruct (sumover_ok (ncard bn) f _ target Rp Htf) as (g & Eg & Rg & Sg & _). exists g. split; [exact Eg|]. split; [exact Sg|].
  rewrite (single_cpt (ncard bn) g target (proj1 Rg)).
  2: { rewrite Sg. intros w. simpl. split; [intros [<-|[]]; reflexivity|intros ->; now left]. }
  apply map_ext_in. intros z Hz. apply in_seq in Hz. rewrite <- (repr_to_val _ _ _ Rg).
  2: { rewrite Sg. intros w [<-|[]]. rewrite upd_same. lia. }
  assert (HtV : In target (bn_V bn)) by now apply Ir.
  assert (NDf : NoDup (f_scope f)) by exact (wf_nodup _ _ (proj1 Rp)).
  unfold marginal, prob_of, agrees. cbn [forallb].
  transitivity (sum_over (ncard bn) (bn_V bn) (fun a => if a target =? z then joint bn a else 0%Qc) (fun _ => 0)).
  2: { apply sum_over_congr. intros a _ _. now rewrite andb_true_r. }
  assert (Ej : ext (joint bn)) by (intros a a' H; unfold joint; apply qprod_map_ext; intros v _; f_equal; apply cond_prob_ext; auto).
  rewrite (sum_indicator (ncard bn) (bn_V bn) target z (joint bn)); [|apply W|exact HtV|lia|exact Ej].
  rewrite <- (sum_over_app (ncard bn) (remove1 target (f_scope f)) rest).
  rewrite (sum_over_perm (ncard bn) (remove1 target (f_scope f) ++ rest) (remove1 target (bn_V bn))).
  - apply sum_over_congr. intros a _ _. apply Pj.
  - apply weight_ext.
  - apply NoDup_app_intro; [now apply NoDup_remove1|exact NDr|]. intros v Hv C. apply In_remove1 in Hv; [|exact NDf]. apply Hr in C. apply (proj2 C). apply Sf. tauto.
  - apply perm_of_iff.
    + apply NoDup_app_intro; [now apply NoDup_remove1|exact NDr|]. intros v Hv C. apply In_remove1 in Hv; [|exact NDf]. apply Hr in C. apply (proj2 C). apply Sf. tauto.
    + apply NoDup_remove1, W.
    + intros v. rewrite in_app_iff, !In_remove1 by (try exact NDf; apply W). rewrite Sf, Hr.
      assert (K1 : In v root_scope -> In v (bn_V bn)) by apply Ir. assert (K2 : v = target -> In v root_scope) by (intros ->; exact Ht).
      destruct (in_dec name_eq_dec v root_scope) as [Y|N]; tauto.
Qed.

(** ** one message between two cliques of a new tree *)
Lemma fsumout_all_keyerror cd : forall vs o h s L f phi, live h (s :: L) -> fload h s = Ok f -> repr cd f phi -> NoDup vs -> (exists v, In v vs /\ ~ In v (f_scope f)) ->
  fsumout_all o h s vs = Raise KeyError.
Proof.
  induction vs as [|v vs IH]; intros o h s L f phi Lv Es Rs ND (w & Hw & Nw); [destruct Hw|]. cbn [fsumout_all]. inversion ND as [|? ? Nv ND']; subst.
  destruct (in_dec name_eq_dec v (f_scope f)) as [Y|N].
  - destruct (fsumout_ok cd (sub o 0) h s L f phi v Lv Es Rs Y) as (h' & f' & E & Lv' & Es' & R' & S' & _). rewrite E. cbn [bind].
    apply (IH (sub o 1) h' s L f' _ Lv' Es' R' ND'). destruct Hw as [->|Hw]; [contradiction|]. exists w. split; [exact Hw|]. rewrite S'. intros C. apply In_remove1 in C; [tauto|]. exact (wf_nodup _ _ (proj1 Rs)).
  - unfold fsumout. rewrite Es. cbn [bind]. rewrite sumout_keyerror; [reflexivity|]. intros C. apply N. apply (Permutation_in _ (wf_ckeys _ _ (proj1 Rs))). exact C.
Qed.

Lemma ready_obj bn h c x : ready bn h c x -> exists p f again, c_psi c = Some p /\ c_belief c = Some (fst x) /\ c_msgs c = [] /\ fload h (fst x) = Ok f /\ fload h p = Ok f /\ nth_error (h_obj h) p = nth_error (h_obj h) (fst x) /\ p <> fst x /\
  wf (ncard bn) f /\ (forall w, In w (f_scope f) <-> exists v, In v (snd x) /\ In w (v :: nparents bn v)) /\ doubled (table_size bn) (snd x) again /\
  forall a, valid (ncard bn) (bn_V bn) a -> val f a = potential bn (snd x) again a.
Proof.
  intros (p & f & again & A1 & A2 & A3 & A4 & A5 & A6 & A7 & A8 & A9 & A10). exists p, f, again. split; [exact A1|]. split; [exact A2|]. split; [exact A3|]. split; [exact A6|]. split; [unfold fload, cell in *; now rewrite A5|]. auto 10.
Qed.

Lemma first_message bn o1 h cs xs o i j c d x : wfnet bn -> good o1 -> good o -> live h (map fst xs) -> Forall2 (ready bn h) cs xs ->
  nth_error cs i = Some c -> nth_error cs j = Some d -> nth_error xs i = Some x -> i <> j ->
  forall ws, NoDup ws -> (forall v, In v ws <-> In v (c_scope c) /\ ~ In v (c_scope d)) ->
  forall p b f, c_psi c = Some p -> c_belief c = Some b -> fload h b = Ok f ->
  ((forall w, In w ws -> In w (f_scope f)) ->
   exists h' m fm, send_message o h cs i j = Ok (h', upd_nth j (add_msg d m) cs) /\ c_msgs (add_msg d m) = [m] /\
    fload h' m = Ok fm /\ repr (ncard bn) fm (sum_over (ncard bn) ws (val f)) /\ (forall v, In v (f_scope fm) <-> In v (f_scope f) /\ ~ In v ws) /\
    fload h' b = Ok (relabel f fm) /\ fload h' p = Ok (relabel f fm)) /\
  ((exists w, In w ws /\ ~ In w (f_scope f)) -> send_message o h cs i j = Raise KeyError).
Proof.
  intros W Go1 Go Lv Rd Ec Ed Ex Nij ws NDw Hw p b f Ep Eb Ef.
  destruct (Forall2_nth _ _ _ Rd i c Ec) as (x' & Ex' & Rx). rewrite Ex in Ex'. injection Ex' as <-.
  destruct (Forall2_nth _ _ _ Rd j d Ed) as (y & Ey & Ry). destruct (ready_obj _ _ _ _ Ry) as (_ & _ & _ & _ & _ & Md & _).
  destruct (ready_obj _ _ _ _ Rx) as (p' & f' & again & B1 & B2 & B3 & B4 & B5 & B6 & B7 & B8 & B9 & B10 & B11).
  rewrite Ep in B1. injection B1 as <-. rewrite Eb in B2. injection B2 as ->. rewrite Ef in B4. injection B4 as <-.
  assert (Lb : live h [fst x]).
  { assert (Hin : In (fst x) (map fst xs)) by (apply in_map; eapply nth_error_In; eassumption). constructor.
    - constructor; [intros []|constructor].
    - intros a [<-|[]]. now apply (lv_obj _ _ Lv).
    - intros a b0 u v [<-|[]] [<-|[]] N; congruence. }
  split.
  - intros Cov. destruct (send_ok (ncard bn) o h cs i j c d (fst x) [] f [] ws Go Nij Ec Ed Eb) as (h' & m & fm & ff & S1 & S2 & S3 & S4 & S5 & S6 & S7 & S8 & S9 & S10 & S11 & S12).
    + rewrite B3. exact Lb.
    + exact Ef.
    + exact B8.
    + rewrite B3. constructor.
    + exact NDw.
    + exact Hw.
    + intros v Hv. left. now apply Cov.
    + exists h', m, fm. split; [exact S1|]. split; [unfold add_msg; cbn [c_msgs]; now rewrite Md|]. split; [exact S3|].
      assert (Ev : forall a, prodval [f] a = val f a) by (intros a; unfold prodval; cbn; ring).
      split; [eapply repr_congr; [exact S4|]; intros a _; apply sum_over_congr; intros a' _ _; apply Ev|].
      split; [intros v; rewrite S5; split; intros [A B]; (split; [|exact B]); [destruct A as (g & [<-|[]] & Hg); exact Hg|exists f; split; [now left|exact A]]|].
      rewrite (S11 B3) in S12. split; [exact S12|]. rewrite <- S12. unfold fload, cell.
      assert (Lx : nth_error (h_obj h) (fst x) <> None) by (destruct (lv_obj _ _ Lb (fst x) (or_introl eq_refl)) as (ob & E & _); congruence).
      destruct (nth_error (h_obj h) (fst x)) as [ob|] eqn:Eob; [|congruence].
      assert (E1 : nth_error (h_obj h') p = Some ob) by (apply S8; [exact B7|exact B6]).
      (* the sender's belief object itself is not replaced when there are no messages *)
      assert (E2 : nth_error (h_obj h') (fst x) = Some ob).
      { clear - S1 B3 Ec Ed Eb Ef Eob Lb Hw NDw Go Cov B8 Lb Nij. unfold send_message in S1. rewrite (cell_Some _ _ _ Ec) in S1. cbn [bind] in S1. unfold ensure_belief in S1. rewrite Eb in S1. cbn [bind fst snd] in S1. rewrite B3 in S1. cbn [fmul_all bind] in S1.
        destruct (fcopy_ok h (fst x) [] f Lb Ef) as (h2 & E2 & L2 & F2 & N2 & K2 & O2 & _). rewrite E2 in S1. cbn [bind fst snd] in S1. rewrite (cell_Some _ _ _ Ed) in S1. cbn [bind] in S1.
        match type of S1 with bind ?e _ = _ => destruct e as [h3|] eqn:E3; [|discriminate] end. cbn [bind] in S1. apply bind_Ok in S1 as (d1 & _ & S1). injection S1 as -> _.
        assert (Oth : forall vs o h s h', fsumout_all o h s vs = Ok h' -> forall a x, a <> s -> nth_error (h_obj h) a = Some x -> nth_error (h_obj h') a = Some x).
        { clear. induction vs as [|v vs IH]; intros o h s h' E a x Na Ex; [injection E as <-; exact Ex|]. cbn [fsumout_all] in E. apply bind_Ok in E as (h1 & E1 & E). apply (IH _ _ _ _ E a x Na). unfold fsumout in E1.
          apply bind_Ok in E1 as (g & _ & E1). apply bind_Ok in E1 as (g' & _ & E1). apply bind_Ok in E1 as (os & _ & E1). injection E1 as <-. cbn [h_obj]. rewrite nth_error_upd_other by congruence. exact Ex. }
        apply (Oth _ _ _ _ _ E3 (fst x) ob); [|now apply O2]. assert (fst x < length (h_obj h)) by (apply nth_error_Some; congruence). lia. }
      now rewrite E1, E2.
  - intros (w & Hws & Nw). unfold send_message. rewrite (cell_Some _ _ _ Ec). cbn [bind]. unfold ensure_belief. rewrite Eb. cbn [bind fst snd]. rewrite B3. cbn [fmul_all bind].
    destruct (fcopy_ok h (fst x) [] f Lb Ef) as (h2 & E2 & L2 & F2 & _). rewrite E2. cbn [bind fst snd]. rewrite (cell_Some _ _ _ Ed). cbn [bind].
    set (vs := ask (sub o 2) _).
    assert (Pd : Permutation vs (set_diff (c_scope c) (set_inter (c_scope c) (c_scope d)))) by (apply good_ask; now apply good_sub).
    rewrite (fsumout_all_keyerror (ncard bn) vs (sub o 1) h2 (length (h_obj h)) [] f (val f)); [reflexivity|exact L2|exact F2|now apply repr_val| |].
    + eapply Permutation_NoDup; [symmetry; exact Pd|]. apply NoDup_set_diff.
    + exists w. split; [|exact Nw]. apply (Permutation_in _ (Permutation_sym Pd)). apply Hw in Hws as [A B]. apply In_set_diff. split; [exact A|]. intros C. apply In_set_inter in C. tauto.
Qed.

(** ** cliques that share a variable are connected through cliques that contain it *)
Lemma schedule_connected sc T root rem es v : schedule sc root rem es -> along T es ->
  forall i j, In i rem -> In j rem -> In v (sc i) -> In v (sc j) ->
  clos_refl_trans _ (fun a b => (edge T (NInt a) (NInt b) \/ edge T (NInt b) (NInt a)) /\ In v (sc a) /\ In v (sc b)) i j.
Proof.
  intros H. induction H as [|i j rem rem' es P Hj Ni Rip Sc IH]; intros Al a b Ha Hb Va Vb.
  - destruct Ha as [<-|[]]. destruct Hb as [<-|[]]. apply rt_refl.
  - assert (Al' : along T es) by (intros x y Hxy; apply Al; now right). specialize (IH Al').
    assert (Eij : edge T (NInt i) (NInt j) \/ edge T (NInt j) (NInt i)) by (apply Al; now left).
    apply (Permutation_in _ P) in Ha. apply (Permutation_in _ P) in Hb. destruct Ha as [<-|Ha], Hb as [<-|Hb].
    + apply rt_refl.
    + assert (Vj : In v (sc j)) by now apply (Rip b v). eapply rt_trans; [apply rt_step; split; [exact Eij|split; [exact Va|exact Vj]]|]. now apply IH.
    + assert (Vj : In v (sc j)) by now apply (Rip a v). eapply rt_trans; [apply (IH a j); auto|]. apply rt_step. split; [tauto|split; [exact Vj|exact Vb]].
    + now apply IH.
Qed.
