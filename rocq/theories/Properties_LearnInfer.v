(** Properties_LearnInfer.v -- C118: sample a network, learn a network from the sample, query the learned network. *)
From Verif Require Import Py Num BayesNet Factor SpecFactor Radix SpecInference VE VETotal SpecSample Sampling SampleFacts SampleMain SampleLaws SumOver Graph Data SpecLearn ParamLearn ParamFacts ParamMain
  SpecLaw LawFacts GraphCheck Mst Rounding Factorization Examples Properties_Sample LawMain LawUse SpecLearnLaw Properties_Learn Properties_Law LearnLaw FactorOut Properties_Inference Properties_LearnLaw SpecSens Sens Properties_Sens SpecLearnInfer LearnInfer.
From Coq Require Import Relations.
Open Scope nat_scope.


Lemma forallb_congr {A} (l : list A) f g : (forall x, In x l -> f x = g x) -> forallb f l = forallb g l.
Proof. induction l as [|x l IH]; intros H; [reflexivity|]. cbn [forallb]. rewrite H by (now left). f_equal. apply IH. intros y Hy. apply H. now right. Qed.
Lemma entry_pos bn e v a : wfnet bn -> entries_at_least bn e -> (0 < e)%Qc -> In v (bn_V bn) -> valid (ncard bn) (v :: nparents bn v) a -> (0 < getq (cond_prob bn v a))%Qc.
Proof.
  intros W B E Hv Va. unfold cond_prob. assert (L := radix_lt _ _ _ Va). unfold size in L. rewrite <- (wn_cpt _ W v Hv) in L.
  destruct (nth_error (ncpt bn v) (radix (ncard bn) (v :: nparents bn v) a)) as [x|] eqn:Ex; [|apply nth_error_None in Ex; lia]. cbn [getq].
  apply Qclt_le_trans with e; [assumption|]. apply (B v x Hv). now apply nth_error_In in Ex.
Qed.
Lemma qprod_pos {A} (f : A -> Qc) l : (forall x, In x l -> 0 < f x)%Qc -> (0 < qprod (map f l))%Qc.
Proof.
  induction l as [|x l IH]; intros H; [reflexivity|]. cbn [map]. change (qprod (?h :: ?t)) with (h * qprod t)%Qc.
  rewrite <- (Qcmult_0_l (qprod (map f l))). apply Qcmult_lt_compat_r; [apply IH; intros; apply H; now right|apply H; now left].
Qed.
Lemma all_reachable bn e v a : wfnet bn -> nonneg_net bn -> entries_at_least bn e -> (0 < e)%Qc -> In v (bn_V bn) -> valid (ncard bn) (v :: nparents bn v) a -> (0 < prob_of bn (match_on (nparents bn v) a))%Qc.
Proof.
  intros W NN B E Hv Va. set (s := fun w => if mem w (v :: nparents bn v) then a w else 0).
  assert (Vs : valid (ncard bn) (bn_V bn) s).
  { intros w Hw. unfold s. destruct (mem w _) eqn:M; [apply Va; now apply mem_In|]. now apply (valid_zero bn W). }
  assert (Ms : match_on (nparents bn v) a s = true).
  { unfold match_on. apply forallb_forall. intros w Hw. unfold s. replace (mem w (v :: nparents bn v)) with true by (symmetry; apply mem_In; now right). apply Nat.eqb_refl. }
  apply Qclt_le_trans with (joint bn s).
  - unfold joint. apply qprod_pos. intros w Hw. apply (entry_pos bn e w s W B E Hw). intros u [<-|Hu]; [now apply Vs|]. apply Vs. exact (wn_par _ W w Hw u Hu).
  - rewrite <- (sum_over_single (ncard bn) (bn_V bn) (fun b => if forallb (fun w => b w =? s w) (bn_V bn) then joint bn b else 0%Qc) s (joint bn s) (wn_V _ W) Vs (fun _ => 0)).
    + unfold prob_of. apply sum_over_mono; [apply W|]. intros b _ Vb. destruct (forallb _ (bn_V bn)) eqn:F.
      * rewrite forallb_forall in F. replace (match_on (nparents bn v) a b) with true; [apply Qcle_refl|]. symmetry. rewrite <- Ms. unfold match_on. apply forallb_congr. intros w Hw.
        specialize (F w (wn_par _ W v Hv w Hw)). apply Nat.eqb_eq in F. now rewrite F.
      * destruct (match_on (nparents bn v) a b); [now apply joint_nonneg|apply Qcle_refl].
    + intros b _ _ Eb. replace (forallb _ (bn_V bn)) with true by (symmetry; apply forallb_forall; intros w Hw; apply Nat.eqb_eq; now apply Eb).
      unfold joint. apply qprod_map_ext. intros w Hw. f_equal. apply cond_prob_ext. intros u [<-|Hu]; [now apply Eb|]. apply Eb. exact (wn_par _ W w Hw u Hu).
    + intros b _ _ (w & Hw & Nw). replace (forallb _ (bn_V bn)) with false; [reflexivity|]. symmetry. apply not_true_is_false. intros F. rewrite forallb_forall in F. specialize (F w Hw). apply Nat.eqb_eq in F. congruence.
Qed.
Lemma topological_acyclic bn : nodes_topological bn -> acyclic_net bn.
Proof. intros T. exists (bn_V bn). split; [reflexivity|exact T]. Qed.
Lemma learned_off_ext r v a b e p : (forall bn, r = Ok bn -> forall w, In w (v :: nparents bn v) -> a w = b w) ->
  learned_off r v (fun w => NInt (a w)) e p = learned_off r v (fun w => NInt (b w)) e p.
Proof.
  intros H. destruct r as [bn|]; [|reflexivity]. cbn [learned_off]. f_equal. unfold learned_prob. specialize (H bn eq_refl).
  rewrite (forallb_congr (v :: nparents bn v) (fun w => mem (NInt (a w)) (nvalues bn w)) (fun w => mem (NInt (b w)) (nvalues bn w))) by (intros w Hw; now rewrite H).
  destruct (forallb _ _); [|reflexivity]. f_equal. apply cond_prob_ext. intros w Hw. now rewrite H.
Qed.

(** from some sample size on, all but a fraction [delta] of the runs give a network close to the sampled one *)
Lemma good_network src sk M d o o' junk m t delta : wfnet src -> nonneg_net src -> normalised src -> nodes_topological src -> denominator src M -> positions d ->
  bn_V src = map NInt (seq 0 m) -> good o' -> skeleton sk -> has_edge_lists sk -> parents_in_node_order sk -> bn_V sk = bn_V src ->
  (forall v, In v (bn_V src) -> nparents sk v = nparents src v) ->
  (0 < t)%Qc -> (0 < delta)%Qc -> entries_at_least src (t + Q2Qc (51 # 10000000)) ->
  exists n0, forall n, n0 <= n -> exists bad, (fraction (cells M n m) bad <= delta)%Qc /\ forall c, In c (cells M n m) -> bad c = false ->
    exists rows bn', random_sample o src (junk c) (draws M d c) n = Ok rows /\ mle_estimator o' sk (as_data m rows) None = Ok bn' /\
    wfnet bn' /\ same_frame src bn' /\ nonneg_net bn' /\ cells_within src bn' (t + Q2Qc (51 # 10000000)) /\ forall v, In v (bn_V src) -> nvalues bn' v = map NInt (seq 0 (ncard src v)).
Proof.
  intros W NN N Top Den D EV G Sk HE PO EVs EP Ht Hd Big.
  set (e := (t + Q2Qc (51 # 10000000))%Qc) in *.
  assert (He : (0 < e)%Qc). { unfold e. apply pos_shift; [now apply Qclt_le_weak|reflexivity]. }
  set (qs := flat_map (fun v => map (pair v) (all_asg (ncard src) (v :: nparents src v))) (bn_V src)).
  destruct (C114_recovers_network src sk M d o o' junk m qs t delta W NN N Top Den D EV G Sk HE PO EVs EP) as (n0 & H); auto.
  { intros v a Hq. unfold qs in Hq. apply in_flat_map in Hq as (w & Hw & Hq). apply in_map_iff in Hq as (a' & E & Ha). inversion E; subst. split; [assumption|].
    assert (Va := all_asg_valid _ _ _ Ha). split; [assumption|]. now apply (all_reachable src e). }
  exists (S n0). intros n Ln. eexists. split; [apply H; lia|]. intros c Hc Bc. cbn beta in Bc.
  assert (U := draws_unit src M Den d D n c). assert (Lm : length (bn_V src) = m) by (rewrite EV, map_length, seq_length; reflexivity). rewrite Lm in U. specialize (U Hc).
  apply (good_run src sk o o' (junk c) (draws M d c) n m e); auto; [lia|].
  intros v a Hv Va. destruct (all_asg_cover (ncard src) (v :: nparents src v) a Va) as (a' & Ia & Ea).
  assert (F : learned_off (do rows <- random_sample o src (junk c) (draws M d c) n ;; mle_estimator o' sk (as_data m rows) None) v (fun w => NInt (a' w)) e (getq (cond_prob src v a')) = false).
  { apply not_true_is_false. intros T. assert (X : existsb (fun q => learned_off (do rows <- random_sample o src (junk c) (draws M d c) n ;; mle_estimator o' sk (as_data m rows) None)
        (fst q) (fun w => NInt (snd q w)) e (getq (cond_prob src (fst q) (snd q)))) qs = true).
    { apply existsb_exists. exists (v, a'). split; [|exact T]. unfold qs. apply in_flat_map. exists v. split; [assumption|]. now apply in_map. }
    unfold e in X. congruence. }
  replace (cond_prob src v a) with (cond_prob src v a') by (apply cond_prob_ext; assumption).
  rewrite <- F. apply learned_off_ext. intros bn E w Hw. symmetry. apply Ea.
  destruct (random_ok src o (junk c) (draws M d c) n (sm src W NN N) Top U) as (s & Hs & Er). rewrite Er in E. cbn [bind] in E.
  destruct (C41_mle_probabilities o' sk (as_data m (map (fun i => map (fun v => Z.of_nat (s i v)) (bn_V src)) (seq 0 n))) m G Sk HE PO) as (bn' & Em & _ & V' & _ & P' & _).
  { intros r Hr. rewrite (as_data_rows src n s m EV) in Hr. apply in_map_iff in Hr as (i & <- & _). rewrite map_length. exact Lm. }
  { rewrite (as_data_rows src n s m EV). destruct n; [lia|discriminate]. }
  { now rewrite EVs. }
  { apply le_n. }
  rewrite Em in E. inversion E; subst bn'. rewrite <- EP by assumption. rewrite <- P' by (now rewrite EVs). exact Hw.
Qed.

(** what follows for the queries *)
Lemma good_answer src bn' e o'' target ev : wfnet src -> nonneg_net src -> normalised src -> nodes_topological src -> good o'' ->
  wfnet bn' -> same_frame src bn' -> nonneg_net bn' -> cells_within src bn' e -> (forall v, In v (bn_V src) -> nvalues bn' v = map NInt (seq 0 (ncard src v))) ->
  In target (bn_V src) -> good_evidence src ev -> ~ In target (map fst ev) -> connected src (target :: map fst ev) ->
  answer_off (marginal_ve_e o'' bn' target (by_number src ev)) (map (marginal src target ev) (seq 0 (ncard src target)))
    (qprod (map (fun v => 1 + nQc (ncard src v) * e)%Qc (bn_V src)) - 1 + Q2Qc (1 # 20000))%Qc = false.
Proof.
  intros W NN N Top G' W' SF NN' CW Vals It GE Nt Con.
  destruct (answers_close src bn' ev (by_number src ev) (fun v => nQc (ncard src v) * e)%Qc target id_oracle o'') as [(_ & l & l' & _ & E3 & _ & _ & Cl)|(NC & _)]; auto; [now apply topological_acyclic|now apply cells_rows|now apply by_number_recoded|apply good_id| |contradiction].
  rewrite E3. cbn [answer_off].
  assert (L : length l' = length (map (marginal src target ev) (seq 0 (ncard src target)))) by (clear - Cl; induction Cl; [reflexivity|simpl; now f_equal]).
  rewrite L, Nat.eqb_refl. cbn [andb]. replace (forallb _ _) with true; [reflexivity|]. symmetry. clear L E3.
  generalize dependent (qprod (map (fun v => 1 + nQc (ncard src v) * e) (bn_V src)) - 1 + Q2Qc (1 # 20000))%Qc. intros E Cl.
  induction Cl as [|p p' r r' C Cl IH]; [reflexivity|]. cbn [combine forallb fst snd]. rewrite IH, andb_true_r. destruct (qleb_spec (qabs (p' - p)) E); [reflexivity|contradiction].
Qed.

Lemma good_map src bn' e o'' ev bs : wfnet src -> nonneg_net src -> normalised src -> nodes_topological src -> good o'' ->
  wfnet bn' -> same_frame src bn' -> nonneg_net bn' -> cells_within src bn' e -> (forall v, In v (bn_V src) -> nvalues bn' v = map NInt (seq 0 (ncard src v))) ->
  good_evidence src ev -> (forall b, In b bs -> valid (ncard src) (bn_V src) b /\ agrees src ev b = true) ->
  map_off src (ve_map o'' bn' (by_number src ev)) bs ((1 + 1) * (qprod (map (fun v => 1 + nQc (ncard src v) * e)%Qc (bn_V src)) - 1))%Qc = false.
Proof.
  intros W NN N Top G' W' SF NN' CW Vals GE Hbs.
  assert (R := by_number_recoded src bn' ev GE Vals). assert (GE' := recoded_good src bn' ev _ SF R GE).
  destruct (C16_ve_map bn' (by_number src ev) o'' W' NN' GE' G') as (mm & E3 & Ev & _ & Opt). rewrite E3. cbn [map_off].
  apply not_true_is_false. intros X. apply existsb_exists in X as (b & Hb' & X). destruct (qltb_spec (joint src (numbered mm) + (1 + 1) * (qprod (map (fun v => 1 + nQc (ncard src v) * e) (bn_V src)) - 1))%Qc (joint src b)) as [X'|]; [|discriminate].
  destruct (Hbs b Hb') as [Vb Ab]. specialize (Opt b (proj2 (valid_y src bn' SF b) Vb)). rewrite (agrees_recoded src bn' ev _ b R) in Opt. specialize (Opt Ab).
  assert (NumV : forall v, In v (bn_V src) -> asg_of bn' mm v = numbered mm v /\ numbered mm v < ncard src v).
  { intros v Hv. destruct (Ev v) as (z & Hz & Iz); [now rewrite <- (proj1 SF)|]. unfold asg_of, numbered, val_index. rewrite Hz. rewrite (Vals v Hv) in *. apply in_map_iff in Iz as (i & <- & Hi). apply in_seq in Hi.
    rewrite index_number by lia. split; [reflexivity|lia]. }
  assert (EA : joint bn' (asg_of bn' mm) = joint bn' (numbered mm)).
  { unfold joint. apply qprod_map_ext. intros v Hv. f_equal. apply cond_prob_ext. intros u Hu.
    assert (Iu : In u (bn_V src)). { rewrite <- (proj1 SF) in Hv. destruct (proj2 SF v Hv) as [EQ _]. rewrite <- EQ in Hu. destruct Hu as [<-|Hu]; [assumption|]. exact (wn_par _ W v Hv u Hu). }
    now apply NumV. }
  rewrite EA in Opt.
  assert (Va : valid (ncard src) (bn_V src) (numbered mm)) by (intros v Hv; now apply NumV).
  pose proof (tv_point src bn' W SF b Vb) as T1. pose proof (tv_point src bn' W SF (numbered mm) Va) as T2.
  pose proof (tv_product src bn' W SF NN NN' _ N (topological_acyclic _ Top) (cells_rows _ _ _ CW)) as T3. cbv beta in T3. rewrite qabs_le in T1, T2. revert T1 T2 T3 Opt X'.
  generalize (joint bn' b) (joint src b) (joint bn' (numbered mm)) (joint src (numbered mm)) (tv src bn') (qprod (map (fun v => 1 + nQc (ncard src v) * e) (bn_V src)))%Qc. clear.
  assert (O1 : (this 1%Qc == 1)%Q) by reflexivity. intros yb xb ya xa tt0 D [A1 A2] [B1 B2] C Opt X.
  replace ((1 + 1) * (D - 1))%Qc with (D - 1 + (D - 1))%Qc in X by ring. qclra.
Qed.

(** the answer of marginal_ve_e *)
Theorem C118_learn_then_infer : forall src sk M d o o' o'' junk m t delta target ev,
  wfnet src -> nonneg_net src -> normalised src -> nodes_topological src -> denominator src M -> positions d ->
  bn_V src = map NInt (seq 0 m) -> good o' -> good o'' -> skeleton sk -> has_edge_lists sk -> parents_in_node_order sk -> bn_V sk = bn_V src ->
  (forall v, In v (bn_V src) -> nparents sk v = nparents src v) ->
  (0 < t)%Qc -> (0 < delta)%Qc -> entries_at_least src (t + Q2Qc (51 # 10000000)) ->
  In target (bn_V src) -> good_evidence src ev -> ~ In target (map fst ev) -> connected src (target :: map fst ev) ->
  exists n0, forall n, n0 <= n ->
  (fraction (cells M n m)
     (fun c => answer_off (do rows <- random_sample o src (junk c) (draws M d c) n ;;
                           do bn' <- mle_estimator o' sk (as_data m rows) None ;;
                           marginal_ve_e o'' bn' target (by_number src ev))
        (map (marginal src target ev) (seq 0 (ncard src target)))
        (qprod (map (fun v => 1 + nQc (ncard src v) * (t + Q2Qc (51 # 10000000))) (bn_V src)) - 1 + Q2Qc (1 # 20000)))
   <= delta)%Qc.
Proof.
  intros src sk M d o o' o'' junk m t delta target ev W NN N Top Den D EV G G' Sk HE PO EVs EP Ht Hd Big It GE Nt Con.
  destruct (good_network src sk M d o o' junk m t delta) as (n0 & H); auto. exists n0. intros n Ln. destruct (H n Ln) as (bad & Hb & Good).
  assert (Lm : length (bn_V src) = m) by (rewrite EV, map_length, seq_length; reflexivity).
  assert (NE : cells M n m <> []) by (rewrite <- Lm; now apply cells_ne).
  eapply Qcle_trans; [|exact Hb]. rewrite !fraction_average. apply average_le; [assumption|]. intros c Hc. destruct (bad c) eqn:B.
  { destruct (answer_off _ _ _); discriminate. }
  destruct (Good c Hc B) as (rows & bn' & E1 & E2 & W' & SF & NN' & CW & Vals). rewrite E1. cbn [bind]. rewrite E2. cbn [bind].
  rewrite (good_answer src bn' (t + Q2Qc (51 # 10000000))%Qc o'' target ev) by assumption. apply Qcle_refl.
Qed.
Print Assumptions C118_learn_then_infer.

(** the assignment of ve_map *)
Theorem C118_learn_then_map : forall src sk M d o o' o'' junk m t delta ev,
  wfnet src -> nonneg_net src -> normalised src -> nodes_topological src -> denominator src M -> positions d ->
  bn_V src = map NInt (seq 0 m) -> good o' -> good o'' -> skeleton sk -> has_edge_lists sk -> parents_in_node_order sk -> bn_V sk = bn_V src ->
  (forall v, In v (bn_V src) -> nparents sk v = nparents src v) ->
  (0 < t)%Qc -> (0 < delta)%Qc -> entries_at_least src (t + Q2Qc (51 # 10000000)) -> good_evidence src ev ->
  exists n0, forall n, n0 <= n -> forall bs, (forall b, In b bs -> valid (ncard src) (bn_V src) b /\ agrees src ev b = true) ->
  (fraction (cells M n m)
     (fun c => map_off src (do rows <- random_sample o src (junk c) (draws M d c) n ;;
                            do bn' <- mle_estimator o' sk (as_data m rows) None ;;
                            ve_map o'' bn' (by_number src ev)) bs
        ((1 + 1) * (qprod (map (fun v => 1 + nQc (ncard src v) * (t + Q2Qc (51 # 10000000))) (bn_V src)) - 1)))
   <= delta)%Qc.
Proof.
  intros src sk M d o o' o'' junk m t delta ev W NN N Top Den D EV G G' Sk HE PO EVs EP Ht Hd Big GE.
  destruct (good_network src sk M d o o' junk m t delta) as (n0 & H); auto. exists n0. intros n Ln bs Hbs. destruct (H n Ln) as (bad & Hb & Good).
  assert (Lm : length (bn_V src) = m) by (rewrite EV, map_length, seq_length; reflexivity).
  assert (NE : cells M n m <> []) by (rewrite <- Lm; now apply cells_ne).
  eapply Qcle_trans; [|exact Hb]. rewrite !fraction_average. apply average_le; [assumption|]. intros c Hc. destruct (bad c) eqn:B.
  { destruct (map_off _ _ _ _); discriminate. }
  destruct (Good c Hc B) as (rows & bn' & E1 & E2 & W' & SF & NN' & CW & Vals). rewrite E1. cbn [bind]. rewrite E2. cbn [bind].
  rewrite (good_map src bn' (t + Q2Qc (51 # 10000000))%Qc o'' ev bs) by assumption. apply Qcle_refl.
Qed.
Print Assumptions C118_learn_then_map.

(** ** a concrete network: node 0 fair, nodes 1 and 2 copy it with probability 3/4 *)
Definition exFork : bayesnet := mkBN [NInt 0; NInt 1; NInt 2] [(NInt 0, [NInt 1; NInt 2]); (NInt 1, []); (NInt 2, [])]
  [(NInt 0, mkF [] [nm "n"; nm "y"] [qq 1 2; qq 1 2]); (NInt 1, mkF [NInt 0] [nm "n"; nm "y"] [qq 3 4; qq 1 4; qq 1 4; qq 3 4]); (NInt 2, mkF [NInt 0] [nm "n"; nm "y"] [qq 3 4; qq 1 4; qq 1 4; qq 3 4])].
Lemma exFork_wf : wfnet exFork. Proof. apply wfnetb_ok. vm_compute. reflexivity. Qed.
Definition exFork_run (c : list (list nat)) : res (list Qc) :=
  do rows <- random_sample id_oracle exFork (fun _ _ => 0%Z) (draws 4 (fun _ _ => 0%Qc) c) (length c) ;;
  do bn' <- mle_estimator id_oracle exFork (as_data 3 rows) None ;; marginal_ve_e id_oracle bn' (NInt 1) (by_number exFork [(NInt 2, nm "y")]).
Example C118_nonvacuous : wfnet exFork /\ nonneg_net exFork /\ normalised exFork /\ nodes_topological exFork /\ denominator exFork 4 /\ positions (fun _ _ => 0%Qc) /\
  bn_V exFork = map NInt (seq 0 3) /\ skeleton exFork /\ has_edge_lists exFork /\ parents_in_node_order exFork /\
  (0 < qq 1 10)%Qc /\ entries_at_least exFork (qq 1 10 + Q2Qc (51 # 10000000)) /\ In (NInt 1) (bn_V exFork) /\ good_evidence exFork [(NInt 2, nm "y")] /\ connected exFork (NInt 1 :: map fst [(NInt 2, nm "y")]) /\
  answer_off (exFork_run [[0;0;0];[2;1;2];[3;2;3];[1;3;0];[2;0;2];[0;2;3]]) (map (marginal exFork (NInt 1) [(NInt 2, nm "y")]) (seq 0 2)) (qq 1 4) = false /\
  answer_off (exFork_run [[0;0;0]]) (map (marginal exFork (NInt 1) [(NInt 2, nm "y")]) (seq 0 2)) (qq 1 4) = true.
Proof.
  split; [apply exFork_wf|]. split; [|split; [|split; [|split; [|split; [|split; [|split; [|split; [|split; [|split; [|split; [|split; [|split; [|split; [|split]]]]]]]]]]]]]].
  - intros v x [<-|[<-|[<-|[]]]] Hx; cbn in Hx; repeat (destruct Hx as [<-|Hx]; [discriminate|]); destruct Hx.
  - intros v a Hv V. destruct Hv as [<-|Hv].
    + apply Qc_is_canon. vm_compute. reflexivity.
    + assert (E : nparents exFork v = [NInt 0] /\ ncpt exFork v = [qq 3 4; qq 1 4; qq 1 4; qq 3 4] /\ ncard exFork v = 2 /\ NInt 0 <> v) by (destruct Hv as [<-|[<-|[]]]; repeat split; discriminate).
      destruct E as (EP & EC & E2 & NE). assert (L := V (NInt 0)). unfold cond_prob. rewrite EP, EC, E2 in *. specialize (L (or_introl eq_refl)). cbn in L.
      cbn [radix seq map]. rewrite !upd_same. rewrite !upd_other by assumption. rewrite E2. change (ncard exFork (NInt 0)) with 2. destruct (a (NInt 0)) as [|[|x]]; [| |lia]; apply Qc_is_canon; vm_compute; reflexivity.
  - intros p v q E x Hx. destruct p as [|p0 p]; [injection E as <- _; destruct Hx|]. injection E as <- E.
    assert (HP : forall w, nparents exFork w = [] \/ nparents exFork w = [NInt 0]) by (intros w; unfold nparents; cbn; repeat (destruct (name_eqb _ _); [cbn; auto|]); cbn; auto).
    destruct (HP v) as [Z|Z]; rewrite Z in Hx; [destruct Hx|]. destruct Hx as [<-|[]]. now left.
  - split; [lia|]. intros v p Hv Hp.
    assert (G : forallb (fun v => forallb (fun p => if in_dec Qc_eq_dec p (map (fun z => (nQc z / nQc 4)%Qc) (seq 0 5)) then true else false) (ncpt exFork v)) (bn_V exFork) = true) by (vm_compute; reflexivity).
    rewrite forallb_forall in G. specialize (G v Hv). rewrite forallb_forall in G. specialize (G p Hp).
    destruct (in_dec _ _ _) as [I|]; [|discriminate]. apply in_map_iff in I as (z & E & _). exists z. symmetry. exact E.
  - intros i j; split; [discriminate|reflexivity].
  - reflexivity.
  - constructor; [apply (wn_V _ exFork_wf)|apply (wn_F _ exFork_wf)|apply (wn_scope _ exFork_wf)|apply (wn_par _ exFork_wf)].
  - intros v [<-|[<-|[<-|[]]]]; eexists; reflexivity.
  - intros v [<-|[<-|[<-|[]]]]; reflexivity.
  - reflexivity.
  - intros v x [<-|[<-|[<-|[]]]] Hx; cbn in Hx; repeat (destruct Hx as [<-|Hx]; [discriminate|]); destruct Hx.
  - right. now left.
  - split; [repeat constructor; intros []|]. intros rv z [E|[]]. inversion E; subst. split; [right; right; now left|right; now left].
  - intros u w Hu Hw. apply rt_step. split; [assumption|]. split; [assumption|]. exists (NInt 0). split; [intros [H|[H|[]]]; discriminate|].
    split; [destruct Hu as [<-|[<-|[<-|[]]]]|destruct Hw as [<-|[<-|[<-|[]]]]]; cbn; auto.
  - vm_compute. reflexivity.
  - vm_compute. reflexivity.
Qed.
