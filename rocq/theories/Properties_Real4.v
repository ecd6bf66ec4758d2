(** Properties_Real4.v -- theorems C119 (ilp_map's rounded weights) and C120 (Factor.to_log / from_log). *)
From Coq Require Import Reals.
From Verif Require Import Py Num BayesNet Factor SpecFactor Radix FactorMul FactorOut Graph SpecGraph GraphNet GraphCheck SpecInference VE SpecIlp Ilp IlpFacts Examples Properties_Ilp SpecReal MiReal RealFacts RealScore LogReal LogFacts.
From Coq Require Import Lra Lia.
Open Scope R_scope.

(** ** C119 *)
(** every table entry is positive (otherwise a weight is infinite) *)
Definition positive_net (bn : bayesnet) : Prop := forall v p, In v (bn_V bn) -> In p (ncpt bn v) -> (0 < p)%Qc.

Lemma cond_pos bn v a : wfnet bn -> positive_net bn -> In v (bn_V bn) -> valid (ncard bn) (bn_V bn) a -> (0 < getq (cond_prob bn v a))%Qc.
Proof.
  intros W P Hv Va. assert (V : valid (ncard bn) (v :: nparents bn v) a).
  { intros w [<-|Hw]; [now apply Va|]. apply Va. exact (wn_par _ W v Hv w Hw). }
  unfold cond_prob. assert (L := radix_lt _ _ _ V). unfold size in L. rewrite <- (wn_cpt _ W v Hv) in L.
  destruct (nth_error (ncpt bn v) (radix (ncard bn) (v :: nparents bn v) a)) as [x|] eqn:Ex; [|apply nth_error_None in Ex; lia]. cbn [getq]. apply (P v x Hv). now apply nth_error_In in Ex.
Qed.
Lemma joint_ln bn a : wfnet bn -> positive_net bn -> valid (ncard bn) (bn_V bn) a ->
  0 < qr (joint bn a) /\ ln (qr (joint bn a)) = fold_right Rplus 0 (map (fun v => ln (qr (getq (cond_prob bn v a)))) (bn_V bn)).
Proof.
  intros W P Va. unfold joint. rewrite qr_qprod, map_map.
  destruct (ln_prod (map (fun v => qr (getq (cond_prob bn v a))) (bn_V bn))) as [A B].
  { intros x Hx. apply in_map_iff in Hx as (v & <- & Hv). rewrite <- qr_0. apply qr_lt. now apply cond_pos. }
  split; [assumption|]. rewrite B, map_map. reflexivity.
Qed.
Lemma weight_ln bn a : wfnet bn -> positive_net bn -> valid (ncard bn) (bn_V bn) a ->
  Rabs (qr (total_weight ilp_weight bn a) - - ln (qr (joint bn a))) <= INR (length (bn_V bn)) / 2000.
Proof.
  intros W P Va. destruct (joint_ln bn a W P Va) as [_ ->]. unfold total_weight. rewrite qr_qsum, map_map.
  clear W P Va. induction (bn_V bn) as [|v l IH]; [cbn; unfold Rdiv; rewrite Rmult_0_l; rewrite qr_0 || idtac; apply Rabs_le; lra|]. cbn [map fold_right length]. rewrite S_INR.
  pose proof (ilp_weight_spec (getq (cond_prob bn v a))) as H. apply abs_le_inv in H, IH. apply Rabs_le. lra.
Qed.
(** the explanation an optimal solution describes is within the factor e^(n/1000) of every other assignment *)
Theorem C119_near_optimal : forall bn ev m x, wfnet bn -> graph_ok bn -> agree bn -> positive_net bn -> ilp_map bn ev = Ok m ->
  optimal ilp_weight m x ->
  exists a, valid (ncard bn) (bn_V bn) a /\ describes bn x a /\
    forall b, valid (ncard bn) (bn_V bn) b ->
      qr (joint bn b) <= exp (INR (length (bn_V bn)) / 1000) * qr (joint bn a) /\
      (1 - INR (length (bn_V bn)) / 1000) * qr (joint bn b) <= qr (joint bn a).
Proof.
  intros bn ev m x W G A P E O. apply (C61_optimum bn ev m ilp_weight x W G A E) in O. destruct O as (a & Va & D & O). exists a. split; [assumption|]. split; [assumption|].
  intros b Vb. specialize (O b Vb). apply qr_le in O. pose proof (weight_ln bn a W P Va) as Ha. pose proof (weight_ln bn b W P Vb) as Hb. apply abs_le_inv in Ha, Hb.
  destruct (joint_ln bn a W P Va) as [Pa _]. destruct (joint_ln bn b W P Vb) as [Pb _]. set (n := INR (length (bn_V bn))) in *.
  assert (L : ln (qr (joint bn b)) <= n / 1000 + ln (qr (joint bn a))) by lra.
  assert (F : qr (joint bn b) <= exp (n / 1000) * qr (joint bn a)).
  { rewrite <- (exp_ln (qr (joint bn b))), <- (exp_ln (qr (joint bn a))) by assumption. rewrite <- exp_plus. destruct (Rle_lt_or_eq_dec _ _ L) as [L'|L']; [left; now apply exp_increasing|rewrite L'; apply Rle_refl]. }
  split; [assumption|].
  assert (E1 : 1 - n / 1000 <= exp (- (n / 1000))) by (pose proof (exp_ineq1_le (- (n / 1000))); lra).
  assert (M : exp (- (n / 1000)) * exp (n / 1000) = 1) by (rewrite <- exp_plus, Rplus_opp_l; apply exp_0).
  assert (0 < exp (- (n / 1000))) by apply exp_pos.
  apply Rle_trans with (exp (- (n / 1000)) * qr (joint bn b)); [apply Rmult_le_compat_r; lra|].
  apply Rle_trans with (exp (- (n / 1000)) * (exp (n / 1000) * qr (joint bn a))); [apply Rmult_le_compat_l; lra|]. rewrite <- Rmult_assoc, M. lra.
Qed.
Print Assumptions C119_near_optimal.
(** so a clear winner is found *)
Theorem C119_clear_winner : forall bn ev m x w, wfnet bn -> graph_ok bn -> agree bn -> positive_net bn -> ilp_map bn ev = Ok m ->
  optimal ilp_weight m x -> valid (ncard bn) (bn_V bn) w ->
  (forall b, valid (ncard bn) (bn_V bn) b -> (exists v, In v (bn_V bn) /\ b v <> w v) -> exp (INR (length (bn_V bn)) / 1000) * qr (joint bn b) < qr (joint bn w)) ->
  describes bn x w.
Proof.
  intros bn ev m x w W G A P E O Vw Win. destruct (C119_near_optimal bn ev m x W G A P E O) as (a & Va & D & H). destruct (H w Vw) as [H' _].
  assert (Eq : forall v, In v (bn_V bn) -> a v = w v).
  { intros v Hv. destruct (Nat.eq_dec (a v) (w v)) as [e|ne]; [assumption|]. exfalso. assert (qr (joint bn w) > qr (joint bn w)); [|lra].
    eapply Rgt_ge_trans; [apply (Win a Va); eauto|]. lra. }
  intros v i Hv Hi. rewrite (D v i Hv Hi). rewrite (radix_ext (ncard bn) (v :: nparents bn v) a w); [reflexivity|].
  intros u [<-|Hu]; [now apply Eq|]. apply Eq. exact (wn_par _ W v Hv u Hu).
Qed.
Print Assumptions C119_clear_winner.

(** the factor cannot be dropped: the rounded weights can be equal for assignments of different probability *)
Definition exTie : bayesnet := mkBN [exA; exB] [(exA, [exB]); (exB, [])]
  [(exA, mkF [] [nm "0"; nm "1"] [qq 1 2; qq 1 2]); (exB, mkF [exA] [nm "0"; nm "1"] [qq 9999 10000; qq 1 10000; qq 19999 20000; qq 1 20000])].
Lemma exTie_wf : wfnet exTie. Proof. now apply wfnetb_ok. Qed.
Lemma exTie_graph : graph_ok exTie. Proof. now apply graph_okb_ok. Qed.
Lemma exTie_agree : agree exTie. Proof. now apply agreeb_ok. Qed.
Lemma exTie_pos : positive_net exTie.
Proof. intros v p [<-|[<-|[]]] Hp; cbn in Hp; repeat (destruct Hp as [<-|Hp]; [reflexivity|]); destruct Hp. Qed.
Lemma weight_nonneg p : (0 < p)%Qc -> (p <= 1)%Qc -> (0 <= ilp_weight p)%Qc.
Proof.
  intros P L. apply qr_le. rewrite qr_0. unfold ilp_weight. rewrite qr_frac. pose proof (ln_nonpos p P L) as N.
  apply Rmult_le_pos; [|apply Rlt_le, Rinv_0_lt_compat, IZR_lt; lia]. apply IZR_le. rewrite <- (round_int_IZR 0). apply round_int_mono. lra.
Qed.
Lemma weight_zero p : (qq 2000 2001 < p)%Qc -> (p <= 1)%Qc -> ilp_weight p = 0%Qc.
Proof.
  intros P L. assert (P0 : (0 < p)%Qc) by (apply Qclt_trans with (qq 2000 2001); [reflexivity|assumption]).
  pose proof (ln_nonpos p P0 L) as N. unfold ilp_weight.
  assert (Q : - ln (qr p) < / 2000).
  { apply qr_lt in P, P0. rewrite qr_0 in P0. unfold qq in P. rewrite qr_frac in P.
    rewrite <- ln_Rinv by assumption. assert (I : 0 < / qr p) by now apply Rinv_0_lt_compat. pose proof (ln_le_sub (/ qr p) I).
    assert (/ qr p < / (2000 / 2001)) by (apply Rinv_lt_contravar; [apply Rmult_lt_0_compat; lra|assumption]). lra. }
  assert (Z : round_int (- ln (qr p) * 1000) = 0%Z).
  { pose proof (round_int_spec (- ln (qr p) * 1000)) as H. apply abs_le_inv in H.
    assert (-1 < IZR (round_int (- ln (qr p) * 1000)) < 1) as [A B] by lra. apply lt_IZR in A, B. lia. }
  rewrite Z. apply Qc_is_canon. reflexivity.
Qed.
Theorem C119_exact_refuted : exists bn ev m x a b, wfnet bn /\ graph_ok bn /\ agree bn /\ positive_net bn /\ ilp_map bn ev = Ok m /\
  optimal ilp_weight m x /\ describes bn x a /\ valid (ncard bn) (bn_V bn) a /\ valid (ncard bn) (bn_V bn) b /\ (joint bn a < joint bn b)%Qc.
Proof.
  destruct (C61_points exTie [] exTie_wf exTie_graph exTie_agree) as (m & E & _).
  set (a := (fun _ => 0%nat) : asg). set (b := (fun v => if name_eqb v exA then 1%nat else 0%nat) : asg).
  assert (Va : valid (ncard exTie) (bn_V exTie) a) by (intros v [<-|[<-|[]]]; vm_compute; lia).
  assert (Vb : valid (ncard exTie) (bn_V exTie) b) by (intros v [<-|[<-|[]]]; vm_compute; lia).
  destruct (C61_every_assignment exTie [] m a exTie_wf exTie_graph exTie_agree E Va) as (x & Fx & Dx).
  exists exTie, [], m, x, a, b. split; [apply exTie_wf|]. split; [apply exTie_graph|]. split; [apply exTie_agree|]. split; [apply exTie_pos|]. split; [assumption|].
  split; [|split; [assumption|split; [assumption|split; [assumption|vm_compute; reflexivity]]]].
  apply (C61_optimum exTie [] m ilp_weight x exTie_wf exTie_graph exTie_agree E). exists a. split; [assumption|]. split; [assumption|]. intros c Vc.
  assert (T : forall c, total_weight ilp_weight exTie c = (ilp_weight (getq (cond_prob exTie exA c)) + (ilp_weight (getq (cond_prob exTie exB c)) + 0))%Qc) by reflexivity.
  rewrite !T. assert (EA : forall c, valid (ncard exTie) (bn_V exTie) c -> cond_prob exTie exA c = Some (qq 1 2)).
  { intros d Vd. specialize (Vd exA (or_introl eq_refl)). change (ncard exTie exA) with 2%nat in Vd. unfold cond_prob. change (nparents exTie exA) with (@nil name). change (ncpt exTie exA) with [qq 1 2; qq 1 2].
    cbn [radix]. change (ncard exTie exA) with 2%nat. destruct (d exA) as [|[|k]]; [reflexivity|reflexivity|lia]. }
  rewrite (EA c Vc), (EA a Va). apply Qcplus_le_compat; [apply Qcle_refl|]. apply Qcplus_le_compat; [|apply Qcle_refl].
  change (getq (cond_prob exTie exB a)) with (qq 9999 10000). rewrite weight_zero by (try reflexivity; discriminate).
  apply weight_nonneg; [apply cond_pos; [apply exTie_wf|apply exTie_pos|right; now left|assumption]|].
  assert (G : forall p, In p (ncpt exTie exB) -> (p <= 1)%Qc) by (intros p Hp; cbn in Hp; repeat (destruct Hp as [<-|Hp]; [discriminate|]); destruct Hp).
  unfold cond_prob. destruct (nth_error (ncpt exTie exB) _) as [p|] eqn:Ep; [apply G; now apply nth_error_In in Ep|discriminate].
Qed.
Print Assumptions C119_exact_refuted.
Example C119_nonvacuous : exists m x, wfnet exCoin /\ graph_ok exCoin /\ agree exCoin /\ positive_net exCoin /\ ilp_map exCoin [] = Ok m /\ feasible m x /\
  describes exCoin x (fun _ => 0%nat) /\ exp (INR (length (bn_V exCoin)) / 1000) * qr (joint exCoin (fun _ => 1%nat)) < qr (joint exCoin (fun _ => 0%nat)).
Proof.
  destruct (C61_points exCoin [] exCoin_wf exCoin_graph exCoin_agree) as (m & E & _).
  assert (Va : valid (ncard exCoin) (bn_V exCoin) (fun _ => 0%nat)) by (intros v [<-|[]]; vm_compute; lia).
  destruct (C61_every_assignment exCoin [] m _ exCoin_wf exCoin_graph exCoin_agree E Va) as (x & Fx & Dx). exists m, x.
  split; [apply exCoin_wf|]. split; [apply exCoin_graph|]. split; [apply exCoin_agree|]. split.
  { intros v p [<-|[]] Hp; cbn in Hp; repeat (destruct Hp as [<-|Hp]; [reflexivity|]); destruct Hp. }
  split; [assumption|]. split; [assumption|]. split; [assumption|].
  assert (J0 : joint exCoin (fun _ => 0%nat) = Q2Qc (3 # 4)) by (apply Qc_is_canon; reflexivity).
  assert (J1 : joint exCoin (fun _ => 1%nat) = Q2Qc (1 # 4)) by (apply Qc_is_canon; reflexivity).
  rewrite J0, J1, !qr_frac. change (INR (length (bn_V exCoin))) with 1. destruct (exp_small (1 / 1000)) as [_ H]; lra.
Qed.

(** ** C120 *)
(** to_log: each entry of a table with positive entries becomes its logarithm, to 5 decimals; log 0 is -inf *)
Theorem C120_to_log : forall f, Forall2 (fun p l => ((0 < p)%Qc -> exists q, l = Log q /\ Rabs (qr q - ln (qr p)) <= / 200000) /\ (p = 0%Qc -> l = NegInf)) (f_cpt f) (to_log f).
Proof.
  intros f. unfold to_log. induction (f_cpt f) as [|p l IH]; cbn [map]; [constructor|constructor; [|exact IH]]. unfold to_log_entry. split.
  - intros P. destruct (Qclt_le_dec 0 p) as [_|N]; [|exfalso; exact (Qclt_not_le _ _ P N)]. eexists. split; [reflexivity|apply np_round5_spec].
  - intros ->. destruct (Qclt_le_dec 0 0) as [N|_]; [discriminate|]. now destruct (Qc_eq_dec 0 0).
Qed.
Print Assumptions C120_to_log.

Lemma exp_close p q : 0 < p -> Rabs (q - ln p) <= / 200000 -> Rabs (exp q - p) <= 51 / 10000000 * p.
Proof.
  intros P H. apply abs_le_inv in H. destruct (exp_small (/ 200000)) as [A B]; [lra|].
  assert (E : exp q = p * exp (q - ln p)) by (rewrite <- (exp_ln p P) at 1; rewrite <- exp_plus; f_equal; lra).
  assert (L : exp (- / 200000) <= exp (q - ln p)) by (destruct (Rle_lt_or_eq_dec (- / 200000) (q - ln p)) as [X|X]; [lra|left; now apply exp_increasing|rewrite X; lra]).
  assert (U : exp (q - ln p) <= exp (/ 200000)) by (destruct (Rle_lt_or_eq_dec (q - ln p) (/ 200000)) as [X|X]; [lra|left; now apply exp_increasing|rewrite X; lra]).
  rewrite E. set (e := exp (q - ln p)) in *. apply Rabs_le. split; nra.
Qed.
(** to_log and then from_log: every non-negative entry p comes back within 5e-6 + 5.1e-6 p; 0 and 1 come back exactly; order is kept *)
Theorem C120_round_trip : forall f, (forall p, In p (f_cpt f) -> (0 <= p)%Qc) ->
  exists l, from_log (to_log f) = map Some l /\
    Forall2 (fun p r => Rabs (qr r - qr p) <= / 200000 + 51 / 10000000 * qr p /\ (p = 0%Qc -> r = 0%Qc) /\ (p = 1%Qc -> r = 1%Qc)) (f_cpt f) l /\
    forall i j p q r s, nth_error (f_cpt f) i = Some p -> nth_error (f_cpt f) j = Some q -> nth_error l i = Some r -> nth_error l j = Some s -> (p <= q)%Qc -> (r <= s)%Qc.
Proof.
  intros f NN. set (g := fun p => match from_log_entry (to_log_entry p) with Some r => r | None => 0%Qc end). exists (map g (f_cpt f)).
  assert (S : forall p, (0 <= p)%Qc -> from_log_entry (to_log_entry p) = Some (g p) /\ (0 <= g p)%Qc).
  { intros p P. unfold g, to_log_entry. destruct (Qclt_le_dec 0 p) as [X|X].
    - cbn [from_log_entry]. split; [reflexivity|]. rewrite <- np_round5_0. apply np_round5_mono. left. apply exp_pos.
    - destruct (Qc_eq_dec p 0) as [->|N]; [split; [reflexivity|discriminate]|]. exfalso. apply N. now apply Qcle_antisym. }
  split.
  { unfold from_log, to_log. rewrite !map_map. apply map_ext_in. intros p Hp. now apply S, NN. }
  split.
  - induction (f_cpt f) as [|p l IH]; cbn [map]; [constructor|constructor; [|apply IH; intros; apply NN; now right]].
    assert (P := NN p (or_introl eq_refl)). unfold g, to_log_entry. destruct (Qclt_le_dec 0 p) as [X|X].
    + cbn [from_log_entry]. split; [|split].
      * apply qr_lt in X. rewrite qr_0 in X. pose proof (exp_close _ _ X (np_round5_spec (ln (qr p)))) as C. pose proof (np_round5_spec (exp (qr (np_round5 (ln (qr p)))))) as D.
        apply abs_le_inv in C, D. apply Rabs_le. lra.
      * intros ->. discriminate.
      * intros ->. rewrite qr_1, ln_1, np_round5_0, qr_0, exp_0. apply np_round5_1.
    + assert (p = 0%Qc) as -> by (now apply Qcle_antisym). destruct (Qc_eq_dec 0 0) as [_|N]; [|congruence]. cbn [from_log_entry]. split; [rewrite qr_0; apply Rabs_le; lra|]. split; [reflexivity|intros; discriminate].
  - intros i j p q r s Hp Hq Hr Hs L. rewrite nth_error_map, Hp in Hr. rewrite nth_error_map, Hq in Hs. cbn in Hr, Hs. inversion Hr; inversion Hs; subst r s.
    assert (P := NN p (nth_error_In _ _ Hp)). assert (Q := NN q (nth_error_In _ _ Hq)).
    unfold g at 1. unfold to_log_entry. destruct (Qclt_le_dec 0 p) as [X|X].
    + cbn [from_log_entry]. unfold g, to_log_entry. destruct (Qclt_le_dec 0 q) as [Y|Y]; [|exfalso; apply (Qclt_not_le _ _ X); now apply Qcle_trans with q]. cbn [from_log_entry].
      apply np_round5_mono. assert (LL : (np_round5 (ln (qr p)) <= np_round5 (ln (qr q)))%Qc).
      { apply np_round5_mono. apply qr_lt in X. rewrite qr_0 in X. apply qr_le in L. now apply ln_le. }
      apply qr_le in LL. destruct (Rle_lt_or_eq_dec _ _ LL) as [K|K]; [left; now apply exp_increasing|rewrite K; apply Rle_refl].
    + assert (p = 0%Qc) as -> by (now apply Qcle_antisym). destruct (Qc_eq_dec 0 0) as [_|N]; [|congruence]. cbn [from_log_entry]. now apply S.
Qed.
Print Assumptions C120_round_trip.
(** the other operations are not the ones of log space.  Taking the maximum of a table of logarithms gives 0 = log 1
    everywhere, multiplying two of them multiplies the logarithms, so that after from_log no entry is below 1 *)
Lemma logs_of f : (forall p, In p (f_cpt f) -> (0 < p)%Qc /\ (p <= 1)%Qc) -> exists l, to_log f = map Log l /\ length l = length (f_cpt f) /\ forall q, In q l -> (q <= 0)%Qc.
Proof.
  intros H. exists (map (fun p => np_round5 (ln (qr p))) (f_cpt f)). split; [|split; [apply map_length|]].
  - unfold to_log. rewrite map_map. apply map_ext_in. intros p Hp. destruct (H p Hp) as [P _]. unfold to_log_entry. destruct (Qclt_le_dec 0 p) as [_|N]; [reflexivity|exfalso; exact (Qclt_not_le _ _ P N)].
  - intros q Hq. apply in_map_iff in Hq as (p & <- & Hp). destruct (H p Hp) as [P L]. rewrite <- np_round5_0. apply np_round5_mono. now apply ln_nonpos.
Qed.
Lemma with_cpt_wf cd f l : wf cd f -> length l = length (f_cpt f) -> wf cd (with_cpt f l).
Proof. intros W L. constructor; try apply W. cbn [with_cpt f_cpt f_scope]. rewrite L. apply W. Qed.
Lemma qmax_nonpos l : (forall q, In q l -> (q <= 0)%Qc) -> fold_right qmax 0%Qc l = 0%Qc.
Proof.
  induction l as [|q l IH]; intros H; [reflexivity|]. cbn [fold_right]. rewrite IH by (intros; apply H; now right). assert (Q := H q (or_introl eq_refl)).
  unfold qmax. destruct (Qclt_le_dec _ _) as [X|X]; [reflexivity|]. now apply Qcle_antisym.
Qed.
Lemma from_log_0 : from_log_entry (Log 0%Qc) = Some 1%Qc.
Proof. cbn [from_log_entry]. rewrite qr_0, exp_0, np_round5_1. reflexivity. Qed.
Theorem C120_max_of_logs : forall cd f v, wf cd f -> In v (f_scope f) -> (forall p, In p (f_cpt f) -> (0 < p)%Qc /\ (p <= 1)%Qc) ->
  exists l f', to_log f = map Log l /\ maxout_var (with_cpt f l) v = Ok f' /\ f_scope f' = remove1 v (f_scope f) /\
    forall a, valid cd (f_scope f') a -> exists q, lookup f' a = Some q /\ q = 0%Qc /\ from_log_entry (Log q) = Some 1%Qc.
Proof.
  intros cd f v W Hv H. destruct (logs_of f H) as (l & El & Ll & Nl). assert (W' := with_cpt_wf cd f l W Ll).
  destruct (maxout_ok cd (with_cpt f l) _ v (repr_val _ _ W') Hv) as (f' & E & [W2 R] & S & _). exists l, f'. split; [assumption|]. split; [assumption|]. split; [assumption|].
  intros a Va. eexists. split; [now apply R|]. assert (Z : max_values cd v (val (with_cpt f l)) a = 0%Qc).
  { unfold max_values. apply qmax_nonpos. intros q Hq. apply in_map_iff in Hq as (x & <- & _). unfold val, lookup. cbn [f_cpt with_cpt]. destruct (nth_error l _) as [q|] eqn:Q; [apply Nl; now apply nth_error_In in Q|discriminate]. }
  rewrite Z. split; [reflexivity|apply from_log_0].
Qed.
Print Assumptions C120_max_of_logs.
Theorem C120_product_of_logs : forall cd o f g, good o -> wf cd f -> wf cd g -> (forall p, In p (f_cpt f) -> (0 < p)%Qc /\ (p <= 1)%Qc) -> (forall p, In p (f_cpt g) -> (0 < p)%Qc /\ (p <= 1)%Qc) ->
  exists lf lg h g', to_log f = map Log lf /\ to_log g = map Log lg /\ multiply_factor o (with_cpt f lf) (with_cpt g lg) = Ok (h, g') /\
    forall a, valid cd (f_scope h) a -> exists q r, lookup h a = Some q /\ from_log_entry (Log q) = Some r /\ (1 <= r)%Qc.
Proof.
  intros cd o f g Go Wf Wg Hf Hg. destruct (logs_of f Hf) as (lf & Ef & Lf & Nf). destruct (logs_of g Hg) as (lg & Eg & Lg & Ng).
  assert (Wf' := with_cpt_wf cd f lf Wf Lf). assert (Wg' := with_cpt_wf cd g lg Wg Lg).
  destruct (multiply_ok cd o _ _ _ _ Go (repr_val _ _ Wf') (repr_val _ _ Wg')) as (h & g' & E & [W R] & _). exists lf, lg, h, g'.
  split; [assumption|]. split; [assumption|]. split; [assumption|]. intros a Va. eexists. eexists. split; [now apply R|]. split; [reflexivity|].
  rewrite <- np_round5_1. apply np_round5_mono. rewrite <- exp_0.
  assert (NN : forall x l, (forall q, In q l -> (q <= 0)%Qc) -> (val (with_cpt x l) a <= 0)%Qc).
  { intros x l Nl. unfold val, lookup. cbn [f_cpt with_cpt]. destruct (nth_error l _) as [q|] eqn:Q; [apply Nl; now apply nth_error_In in Q|discriminate]. }
  assert (A := NN f lf Nf). assert (B := NN g lg Ng). apply qr_le in A, B. rewrite qr_0 in A, B. rewrite qr_mult.
  set (u := qr (val (with_cpt f lf) a)) in *. set (w := qr (val (with_cpt g lg) a)) in *. assert (P : 0 <= u * w) by nra.
  destruct (Rle_lt_or_eq_dec _ _ P) as [K|K]; [left; now apply exp_increasing|rewrite <- K; apply Rle_refl].
Qed.
Print Assumptions C120_product_of_logs.
Example C120_nonvacuous : exists cd f, wf cd f /\ In exA (f_scope f) /\ (forall p, In p (f_cpt f) -> (0 < p)%Qc /\ (p <= 1)%Qc) /\ In (qq 1 4) (f_cpt f) /\
  exists r, map from_log_entry (to_log f) = map Some r /\ length r = 2%nat.
Proof.
  pose (f := mkFactor (mkBN [] [] []) exA [exA] [(exA, 2%nat)] [(exA, 1%nat)] [qq 1 4; qq 3 4]). exists (fun _ => 2%nat), f.
  assert (W : wf (fun _ => 2%nat) f).
  { constructor; simpl.
    - constructor; [intros []|constructor].
    - reflexivity.
    - reflexivity.
    - intros v [<-|[]]. reflexivity.
    - intros; lia.
    - exists [exA]. split; [reflexivity|]. simpl. auto.
    - reflexivity. }
  split; [exact W|]. split; [now left|]. split; [intros p [<-|[<-|[]]]; split; (reflexivity || discriminate)|]. split; [now left|].
  destruct (C120_round_trip f) as (l & E & F & _); [intros p [<-|[<-|[]]]; discriminate|]. exists l. split; [exact E|].
  inversion F as [|? ? ? ? _ F1 E1]; subst. inversion F1 as [|? ? ? ? _ F2]; subst. inversion F2. reflexivity.
Qed.
