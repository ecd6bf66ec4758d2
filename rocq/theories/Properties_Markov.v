(** Properties_Markov.v -- C134 to C136: the graph tells which observations matter.  Specification: SpecMarkov.v. *)
From Verif Require Import Py Num BayesNet Factor SpecFactor Radix SumOver Rounding Factorization SpecInference VE VEShape VETotal Graph SpecGraph Sampling SpecSample SpecLaw
  SpecMarkov MarkovFacts MarkovSep GraphCheck Examples Properties_Inference Properties_Graph Properties_Law.
From Verif Require Properties_LearnInfer.
Open Scope nat_scope.

(** ** C134: separated observations do not matter *)
Theorem C134_d_separation : forall bn t ev ev', wfnet bn -> normalised bn -> acyclic_net bn -> In t (bn_V bn) ->
  good_evidence bn (ev ++ ev') -> ~ In t (map fst ev) ->
  (forall w, In w (map fst ev') -> d_separated bn (map fst ev) t w) -> irrelevant bn t ev ev'.
Proof. exact dsep_irrelevant. Qed.
Print Assumptions C134_d_separation.

(** in the moral graph: neither normalised tables nor an acyclic graph are needed *)
Theorem C134_moral_graph : forall bn t ev ev' es, wfnet bn -> graph_ok bn -> In t (bn_V bn) -> good_evidence bn (ev ++ ev') -> ~ In t (map fst ev) ->
  moralized_edges bn = Ok es ->
  (forall w, In w (map fst ev') -> ~ clos_refl_trans _ (fun a b => ~ In b (map fst ev) /\ uadj es a b) t w) -> irrelevant bn t ev ev'.
Proof.
  intros bn t ev ev' es W G Ht GE Nt E C. apply cut_all_irrelevant; auto. intros w Hw P. apply (C w Hw).
  destruct (C25_moral_graph bn G) as (es' & E' & _ & M & _). rewrite E in E'. injection E' as <-.
  clear -P M. induction P as [a b (N & c & Hc & Ha & Hb)|a|a b c P1 IH1 P2 IH2]; [|apply rt_refl|eapply rt_trans; eauto].
  destruct (name_eqb_spec a b) as [-> |Ne]; [apply rt_refl|]. apply rt_step. split; [exact N|]. apply M. unfold parent_of.
  destruct Ha as [->|Ha], Hb as [->|Hb]; [congruence|now (right; left)|now left|]. right. right. split; [exact Ne|]. exists c. auto.
Qed.
Print Assumptions C134_moral_graph.

(** what markov_blanket lists for the target makes everything else irrelevant *)
Theorem C134_markov_blanket : forall bn t ev ev' mb l, wfnet bn -> graph_ok bn -> agree bn -> In t (bn_V bn) -> good_evidence bn (ev ++ ev') ->
  ~ In t (map fst (ev ++ ev')) -> markov_blanket bn = Ok mb -> dget mb t = Some l -> incl l (map fst ev) -> irrelevant bn t ev ev'.
Proof.
  intros bn t ev ev' mb l W G Ag Ht GE Nt E D L. rewrite map_app, in_app_iff in Nt. apply cut_all_irrelevant; auto.
  intros w Hw P. destruct (C26_markov_blanket bn G) as (mb' & E' & M). rewrite E in E'. injection E' as <-.
  destruct (M t Ht) as (l' & D' & ML). rewrite D in D'. injection D' as <-.
  assert (Q : w = t). { apply clos_rt_rt1n in P. clear Hw Nt. induction P as [|a b w (N & c & Hc & Ha & Hb) P IH]; [reflexivity|].
    destruct (name_eqb_spec b a) as [-> |Ne]; [auto|]. exfalso. apply N, L, ML.
    destruct Ha as [->|Ha], Hb as [->|Hb]; [congruence|now left| |].
    - right. left. now apply (Ag a b Ht Hc).
    - right. right. split; [exact Ne|]. exists c. split; [now apply (Ag a c Ht Hc)|exact Hb]. }
  subst w. tauto.
Qed.
Print Assumptions C134_markov_blanket.

(** the answers of marginal_ve_e with and without the irrelevant observations: the same vector, scaled by the
    probability of the observations (C15) and rounded *)
Theorem C134_answers : forall bn t ev ev' o o' r r', wfnet bn -> In t (bn_V bn) -> good o -> good o' -> good_evidence bn (ev ++ ev') -> ~ In t (map fst (ev ++ ev')) ->
  evidence_prob bn ev <> 0%Qc -> irrelevant bn t ev ev' ->
  marginal_ve_e o bn t ev = Ok r -> marginal_ve_e o' bn t (ev ++ ev') = Ok r' ->
  exists p, length p = ncard bn t /\ r = map (fun q => np_round 4 (q * evidence_prob bn ev)%Qc) p /\
    r' = map (fun q => np_round 4 (q * evidence_prob bn (ev ++ ev'))%Qc) p.
Proof.
  intros bn t ev ev' o o' r r' W Ht Go Go' GE Nt Z Irr E E'.
  assert (GE0 : good_evidence bn ev). { destruct GE as [ND H]. rewrite map_app in ND. split; [now apply nodup_app_l in ND|]. intros v x I. apply H. apply in_or_app. auto. }
  assert (Nt0 : ~ In t (map fst ev)) by (intros I; apply Nt; rewrite map_app; apply in_or_app; auto).
  assert (V : forall o ev r, good o -> good_evidence bn ev -> ~ In t (map fst ev) -> marginal_ve_e o bn t ev = Ok r -> r = map (fun x => np_round 4 (marginal bn t ev x)) (seq 0 (ncard bn t))).
  { clear - W Ht. intros o ev r Go GE Nt E. destruct (marginal_result bn t ev o W Ht GE Nt Go) as [(_ & f & F & Ef)|[_ F]]; unfold marginal_ve_e in E; rewrite F in E; cbn [bind] in E; [|discriminate].
    rewrite Ef, map_map in E. congruence. }
  rewrite (V o ev r Go GE0 Nt0 E), (V o' _ r' Go' GE Nt E'). exists (map (fun x => marginal bn t ev x / evidence_prob bn ev)%Qc (seq 0 (ncard bn t))).
  split; [now rewrite map_length, seq_length|]. rewrite !map_map. split.
  - apply map_ext_in. intros x _. f_equal. field. exact Z.
  - apply map_ext_in. intros x Hx. f_equal. apply in_seq in Hx. assert (J := Irr x ltac:(lia)).
    transitivity (marginal bn t (ev ++ ev') x * evidence_prob bn ev / evidence_prob bn ev)%Qc; [field; exact Z|]. rewrite J. field. exact Z.
Qed.
Print Assumptions C134_answers.

(** ... and lw_sample converges to the same conditional probability, with the rate of C112 *)
Theorem C134_lw_sample : forall bn ev ev' M d o n v x t, wfnet bn -> nonneg_net bn -> normalised bn -> nodes_topological bn -> denominator bn M -> positions d ->
  good_evidence bn (ev ++ ev') -> (0 < evidence_prob bn (ev ++ ev'))%Qc -> evidence_prob bn ev <> 0%Qc -> 0 < n -> In v (bn_V bn) -> x < ncard bn v -> (0 < t)%Qc ->
  ~ In v (map fst ev) -> (forall w, In w (map fst ev') -> d_separated bn (map fst ev) v w) ->
  let E := evidence_prob bn (ev ++ ev') in
  let q := (marginal bn v ev x / evidence_prob bn ev)%Qc in
  (fraction (cells M n (length (bn_V bn)))
     (fun c => misses (lw_sample o bn (ev ++ ev') (draws M d c) n) v (nth x (nvalues bn v) (NInt 0)) (t + Q2Qc (1 # 20000)) q)
   <= Q2Qc 4 * (1 + q * (1 - q) / (t * t)) / (nQc n * E))%Qc.
Proof.
  intros bn ev ev' M d o n v x t W NN N Top Den D GE HE Z Hn Hv Hx Ht Nv DS E q.
  assert (Irr := C134_d_separation bn v ev ev' W N (Properties_LearnInfer.topological_acyclic bn Top) Hv GE Nv DS x Hx).
  assert (EZ : E <> 0%Qc) by (intros K; unfold E in K; rewrite K in HE; discriminate).
  assert (Q : q = (marginal bn v (ev ++ ev') x / E)%Qc).
  { unfold q. transitivity (marginal bn v ev x * E / (evidence_prob bn ev * E))%Qc; [field; now split|]. unfold E. rewrite <- Irr. field. now split. }
  rewrite Q. now apply C112_lw_converges.
Qed.
Print Assumptions C134_lw_sample.

(** although the observed parents settle the answer, marginal_ve_e refuses every such query *)
Theorem C134_parents_observed_raises : forall bn t ev o, wfnet bn -> In t (bn_V bn) -> good_evidence bn ev -> ~ In t (map fst ev) -> good o ->
  incl (nparents bn t) (map fst ev) -> 2 <= length (bn_V bn) -> marginal_ve_e o bn t ev = Raise NameError.
Proof. intros. apply C14_name_error; auto. now apply observed_parents_cut. Qed.
Print Assumptions C134_parents_observed_raises.

(** T <- U -> C <- M -> W: the observation of W is irrelevant for T until C is observed *)
Definition exT := nm "T". Definition exU := nm "U". Definition exM := nm "M". Definition exW := nm "W".
Definition exCol : bayesnet :=
  mkBN [exU; exM; exT; exC; exW]
       [(exU, [exT; exC]); (exM, [exC; exW]); (exT, []); (exC, []); (exW, [])]
       [(exU, mkF [] [nm "0"; nm "1"] [qq 2 5; qq 3 5]);
        (exM, mkF [] [nm "0"; nm "1"] [qq 1 4; qq 3 4]);
        (exT, mkF [exU] [nm "0"; nm "1"] [qq 1 5; qq 4 5; qq 7 10; qq 3 10]);
        (exC, mkF [exU; exM] [nm "0"; nm "1"] [qq 1 10; qq 9 10; qq 2 10; qq 8 10; qq 3 10; qq 7 10; qq 4 10; qq 6 10]);
        (exW, mkF [exM] [nm "0"; nm "1"] [qq 1 2; qq 1 2; qq 1 10; qq 9 10])].
Lemma exCol_ok : wfnet exCol /\ graph_ok exCol /\ agree exCol /\ nonneg_net exCol /\ normalised exCol /\ nodes_topological exCol.
Proof.
  split; [now apply wfnetb_ok|]. split; [now apply graph_okb_ok|]. split; [now apply agreeb_ok|]. split; [|split].
  - intros v x [<-|[<-|[<-|[<-|[<-|[]]]]]] Hx; vm_compute in Hx; repeat (destruct Hx as [<-|Hx]; [discriminate|]); destruct Hx.
  - intros v a Hv V. assert (HU : a exU < 2) by (apply (V exU); simpl; auto). assert (HM : a exM < 2) by (apply (V exM); simpl; auto).
    destruct Hv as [<-|[<-|[<-|[<-|[<-|[]]]]]]; unfold cond_prob, radix, nparents; simpl; unfold upd; simpl;
      try (apply Qc_eq_Q; vm_compute; reflexivity);
      (destruct (a exU) as [|[|k]]; [| |lia]); (destruct (a exM) as [|[|j]]; [| |lia]); apply Qc_eq_Q; vm_compute; reflexivity.
  - intros p v q E. destruct p as [|p1 [|p2 [|p3 [|p4 [|p5 p]]]]]; cbn in E; inversion E; subst; try (destruct p; discriminate);
      intros w Hw; vm_compute in Hw; simpl; intuition.
Qed.
Lemma exCol_parent u v : is_parent exCol u v -> (v = exT /\ u = exU) \/ (v = exC /\ (u = exU \/ u = exM)) \/ (v = exW /\ u = exM).
Proof. intros [[<-|[<-|[<-|[<-|[<-|[]]]]]] H]; vm_compute in H; repeat (destruct H as [<-|H]); try destruct H; auto 10. Qed.
Example C134_nonvacuous : good_evidence exCol ([] ++ [(exW, nm "0")]) /\ (forall w, In w (map fst [(exW, nm "0")]) -> d_separated exCol (map fst (@nil (name * name))) exT w) /\
  connected exCol [exT] /\ connected exCol (exT :: map fst ([] ++ [(exW, nm "0")])) /\ evidence_prob exCol [] <> 0%Qc /\
  ~ irrelevant exCol exT [(exC, nm "0")] [(exW, nm "0")].
Proof.
  split. { split; [constructor; [intros []|constructor]|]. intros rv x [H|[]]. inversion H; subst. simpl. auto 10. }
  split.
  { intros w [<-|[]] d A. cbn [fst] in A. assert (G : forall v d, active exCol (map fst (@nil (name * name))) exT v d -> (v = exT \/ v = exU \/ (v = exC /\ d = Down))).
    { clear. induction 1 as [|v p A IH N P|v c A IH N P|v c A IH N P|v p s A IH An Hs P]; [now left| | | |destruct Hs];
      apply exCol_parent in P; destruct IH as [->|[->|(-> & Hd)]]; try discriminate Hd; intuition (try discriminate). }
    destruct (G _ _ A) as [H|[H|[H _]]]; discriminate. }
  assert (K : forall fixed, ~ In exU fixed -> ~ In exM fixed -> connected exCol fixed).
  { intros fixed NU NM u w Hu Hw.
    assert (ToC : forall u, In u (bn_V exCol) -> linked exCol fixed u exC /\ linked exCol fixed exC u).
    { clear u w Hu Hw. intros u Hu. assert (X : exists x, ~ In x fixed /\ In x (u :: nparents exCol u) /\ In x (exC :: nparents exCol exC)).
      { destruct Hu as [<-|[<-|[<-|[<-|[<-|[]]]]]]; [exists exU|exists exM|exists exU|exists exU|exists exM]; split; (assumption || (split; vm_compute; auto)). }
      destruct X as (x & X1 & X2 & X3). split; (split; [|split]; [| |exists x; auto]); assumption || (simpl; auto 10). }
    eapply rt_trans; apply rt_step; [exact (proj1 (ToC u Hu))|exact (proj2 (ToC w Hw))]. }
  split; [apply K; simpl; intuition discriminate|]. split; [apply K; simpl; intuition discriminate|]. split.
  { intros H. apply (f_equal (fun q : Qc => Qeq_bool q 0)) in H. vm_compute in H. discriminate. }
  intros H. specialize (H 0 ltac:(vm_compute; lia)). apply (f_equal (fun q : Qc => this q)) in H. vm_compute in H. discriminate.
Qed.

(** ** C135: only the ancestors of the target and of the evidence matter *)
Theorem C135_only_ancestors : forall bn bn' A t ev x, wfnet bn -> normalised bn -> acyclic_net bn -> wfnet bn' -> normalised bn' -> acyclic_net bn' ->
  ancestral_set bn A -> incl A (bn_V bn') -> (forall v, In v A -> same_table bn bn' v) -> In t A -> incl (map fst ev) A ->
  marginal bn t ev x = marginal bn' t ev x.
Proof. intros. now apply (same_marginal bn bn' A). Qed.
Print Assumptions C135_only_ancestors.
Theorem C135_answers : forall bn bn' A t ev o o' r r', wfnet bn -> normalised bn -> acyclic_net bn -> wfnet bn' -> normalised bn' -> acyclic_net bn' ->
  ancestral_set bn A -> incl A (bn_V bn') -> (forall v, In v A -> same_table bn bn' v) -> In t A -> incl (map fst ev) A ->
  good_evidence bn ev -> ~ In t (map fst ev) -> good o -> good o' ->
  marginal_ve_e o bn t ev = Ok r -> marginal_ve_e o' bn' t ev = Ok r' -> r = r'.
Proof.
  intros bn bn' A t ev o o' r r' W N Ac W' N' Ac' HA IA' ST Ht He GE Nt Go Go' E E'.
  assert (Ht1 : In t (bn_V bn)) by (now apply HA). assert (Ht2 : In t (bn_V bn')) by auto.
  assert (GE' : good_evidence bn' ev). { destruct GE as [ND H]. split; [exact ND|]. intros v y I. assert (Iv : In v A) by (apply He; apply in_map_iff; exists (v, y); auto). split; [auto|]. destruct (ST v Iv) as (_ & <- & _). now apply (H v y). }
  destruct (marginal_result bn t ev o W Ht1 GE Nt Go) as [(_ & f & F & Ef)|[_ F]]; unfold marginal_ve_e in E; rewrite F in E; cbn [bind] in E; [|discriminate].
  destruct (marginal_result bn' t ev o' W' Ht2 GE' Nt Go') as [(_ & f' & F' & Ef')|[_ F']]; unfold marginal_ve_e in E'; rewrite F' in E'; cbn [bind] in E'; [|discriminate].
  rewrite Ef, map_map in E. rewrite Ef', map_map in E'. injection E as <-. injection E' as <-. rewrite (same_ncard bn bn' t (ST t Ht)).
  apply map_ext. intros x. f_equal. now apply (C135_only_ancestors bn bn' A).
Qed.
Print Assumptions C135_answers.
(** the same network without C, and with other tables for W *)
Definition exCut : bayesnet :=
  mkBN [exU; exT] [(exU, [exT]); (exT, [])]
       [(exU, mkF [] [nm "0"; nm "1"] [qq 2 5; qq 3 5]); (exT, mkF [exU] [nm "0"; nm "1"] [qq 1 5; qq 4 5; qq 7 10; qq 3 10])].
Example C135_nonvacuous : wfnet exCut /\ normalised exCut /\ acyclic_net exCut /\ ancestral_set exCol [exU; exT] /\ incl [exU; exT] (bn_V exCut) /\
  (forall v, In v [exU; exT] -> same_table exCol exCut v) /\ connected exCut [exT] /\ connected exCol [exT].
Proof.
  split; [now apply wfnetb_ok|]. split.
  { intros v a Hv V. assert (HU : a exU < 2) by (apply (V exU); simpl; auto).
    destruct Hv as [<-|[<-|[]]]; unfold cond_prob, radix, nparents; simpl; unfold upd; simpl;
      try (apply Qc_eq_Q; vm_compute; reflexivity); (destruct (a exU) as [|[|k]]; [| |lia]); apply Qc_eq_Q; vm_compute; reflexivity. }
  split. { exists [exU; exT]. split; [reflexivity|]. intros p v q E. destruct p as [|p1 [|p2 p]]; cbn in E; inversion E; subst; try (destruct p; discriminate); intros w Hw; vm_compute in Hw; simpl; intuition. }
  split. { split; [now apply nodupb_ok|]. split; [now apply inclb_ok|]. intros v [<-|[<-|[]]]; now apply inclb_ok. }
  split; [now apply inclb_ok|]. split; [intros v [<-|[<-|[]]]; split; [|split| |split]; reflexivity|]. split; [|apply C134_nonvacuous].
  intros u w Hu Hw. apply rt_step. split; [exact Hu|]. split; [exact Hw|]. exists exU. split; [simpl; intuition discriminate|].
  split; [destruct Hu as [<-|[<-|[]]]|destruct Hw as [<-|[<-|[]]]]; vm_compute; auto.
Qed.

(** ** C136: a table entry is the conditional probability given the parents, whatever else is observed that is not a descendant *)
Theorem C136_tables_are_conditionals : forall bn v ev a, wfnet bn -> normalised bn -> acyclic_net bn -> In v (bn_V bn) -> good_evidence bn ev ->
  incl (nparents bn v) (map fst ev) -> (forall w, In w (map fst ev) -> ~ ancestor bn v w) -> agrees bn ev a = true -> a v < ncard bn v ->
  marginal bn v ev (a v) = (getq (cond_prob bn v a) * evidence_prob bn ev)%Qc.
Proof. exact local_markov. Qed.
Print Assumptions C136_tables_are_conditionals.
(** lw_sample finds the table entry *)
Theorem C136_lw_sample : forall bn ev M d o n v a t, wfnet bn -> nonneg_net bn -> normalised bn -> nodes_topological bn -> denominator bn M -> positions d ->
  good_evidence bn ev -> (0 < evidence_prob bn ev)%Qc -> 0 < n -> In v (bn_V bn) -> (0 < t)%Qc ->
  incl (nparents bn v) (map fst ev) -> (forall w, In w (map fst ev) -> ~ ancestor bn v w) -> agrees bn ev a = true -> a v < ncard bn v ->
  let q := getq (cond_prob bn v a) in
  (fraction (cells M n (length (bn_V bn)))
     (fun c => misses (lw_sample o bn ev (draws M d c) n) v (nth (a v) (nvalues bn v) (NInt 0)) (t + Q2Qc (1 # 20000)) q)
   <= Q2Qc 4 * (1 + q * (1 - q) / (t * t)) / (nQc n * evidence_prob bn ev))%Qc.
Proof.
  intros bn ev M d o n v a t W NN N Top Den D GE HE Hn Hv Ht Hp Nd Ag Ha q.
  assert (EZ : evidence_prob bn ev <> 0%Qc) by (intros K; rewrite K in HE; discriminate).
  assert (Q : q = (marginal bn v ev (a v) / evidence_prob bn ev)%Qc).
  { rewrite (C136_tables_are_conditionals bn v ev a W N (Properties_LearnInfer.topological_acyclic bn Top) Hv GE Hp Nd Ag Ha). unfold q. field. exact EZ. }
  rewrite Q. now apply C112_lw_converges.
Qed.
Print Assumptions C136_lw_sample.
Example C136_nonvacuous : good_evidence exCol [(exU, nm "1"); (exW, nm "0")] /\ incl (nparents exCol exT) (map fst [(exU, nm "1"); (exW, nm "0")]) /\
  (forall w, In w (map fst [(exU, nm "1"); (exW, nm "0")]) -> ~ ancestor exCol exT w) /\
  (exists a, agrees exCol [(exU, nm "1"); (exW, nm "0")] a = true /\ a exT = 0 /\ cond_prob exCol exT a = Some (qq 7 10)) /\ (0 < evidence_prob exCol [(exU, nm "1"); (exW, nm "0")])%Qc /\
  ~ (marginal exCol exU [(exT, nm "0")] 0 = qq 2 5 * evidence_prob exCol [(exT, nm "0")])%Qc.
Proof.
  split. { split; [now apply nodupb_ok|]. intros rv x [H|[H|[]]]; inversion H; subst; simpl; auto 10. }
  split; [now apply inclb_ok|]. split.
  { assert (G : forall u w, ancestor exCol u w -> u = exT -> w = exT).
    { intros u w H. apply clos_rt_rt1n in H. induction H as [|u b w P _ IH]; [auto|]. intros ->. apply exCol_parent in P. intuition discriminate. }
    intros w [<-|[<-|[]]] H; apply G in H; auto; discriminate. }
  split. { exists (fun w => if name_eqb w exU then 1 else 0). split; [reflexivity|]. split; reflexivity. }
  split; [vm_compute; reflexivity|]. intros H. apply (f_equal (fun q : Qc => this q)) in H. vm_compute in H. discriminate.
Qed.
