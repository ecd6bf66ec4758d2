(** Properties_Sens.v -- C117: how answers react to errors in the tables. *)
From Verif Require Import Py Num BayesNet Factor SpecFactor Radix SumOver FactorMul Rounding Factorization SpecInference VE VEShape VETotal Examples Properties_Inference ParamMain LawMain SpecSens Sens Properties_Sample.
Open Scope nat_scope.

(** only [x] has to be normalised *)
Theorem C117_event : forall x y e, wfnet x -> wfnet y -> same_frame x y -> nonneg_net x -> nonneg_net y ->
  normalised x -> acyclic_net x -> rows_within x y e ->
  forall c, (qabs (prob_of y c - prob_of x c) <= qprod (map (fun v => 1 + e v) (bn_V x)) - 1)%Qc.
Proof. intros x y e Wx Wy SF Nx Ny Hx HA HE c. eapply Qcle_trans; [now apply tv_prob|]. now apply tv_product. Qed.
Print Assumptions C117_event.

(** both normalised: half the sum of the row errors *)
Theorem C117_event_normalised : forall x y e, wfnet x -> wfnet y -> same_frame x y -> nonneg_net x -> nonneg_net y ->
  normalised x -> normalised y -> acyclic_net x -> rows_within x y e ->
  forall c, ((1 + 1) * qabs (prob_of y c - prob_of x c) <= qsum (map e (bn_V x)))%Qc.
Proof.
  intros x y e Wx Wy SF Nx Ny Hx Hy HA HE c. eapply Qcle_trans; [|now apply (tv_sum x y Wx SF Nx Ny e Hx HA HE)]. apply tv_half; [assumption|assumption|now apply joint_total|].
  rewrite (sum_over_cd _ (ncard y)) by (intros v Hv; now apply (proj2 SF)). rewrite (proj1 SF). apply joint_total; [assumption|assumption|].
  destruct HA as (ord & P & T). exists ord. rewrite <- (proj1 SF). split; [assumption|]. intros p v q E.
  assert (Hv : In v (bn_V x)). { apply (Permutation_in _ P). rewrite E. apply in_or_app. simpl. auto. }
  destruct (proj2 SF v Hv) as [<- _]. now apply (T p v q).
Qed.
Print Assumptions C117_event_normalised.

(** neither bound can be improved *)
Definition one_node (p q : Qc) : bayesnet := mkBN [exA] [(exA, [])] [(exA, mkF [] [nm "0"; nm "1"] [p; q])].
Lemma one_node_rows p q p' q' e : (qabs (p - p') + qabs (q - q') <= e)%Qc -> rows_within (one_node p q) (one_node p' q') (fun _ => e).
Proof.
  intros H v a [<-|[]] Va. unfold row_gap, gap. cbn. rewrite Qcplus_0_r. exact H.
Qed.
Lemma one_node_ok p q : (0 <= p)%Qc -> (0 <= q)%Qc -> wfnet (one_node p q) /\ nonneg_net (one_node p q) /\ acyclic_net (one_node p q) /\ ((p + q = 1)%Qc -> normalised (one_node p q)).
Proof.
  intros P Q. split; [now apply wfnetb_ok|]. split; [|split].
  - intros v z [<-|[]] H. cbn in H. destruct H as [<-|[<-|[]]]; assumption.
  - exists [exA]. split; [reflexivity|]. intros l v r E. destruct l as [|h l]; [|destruct l; discriminate]. inversion E; subst. cbn. intros z [].
  - intros H v a [<-|[]] Va. cbn. rewrite Qcplus_0_r. exact H.
Qed.
Theorem C117_bounds_attained :
  (exists x y e c, wfnet x /\ wfnet y /\ same_frame x y /\ nonneg_net x /\ nonneg_net y /\ normalised x /\ acyclic_net x /\ rows_within x y e /\
     (0 < qprod (map (fun v => 1 + e v) (bn_V x)) - 1)%Qc /\ qabs (prob_of y c - prob_of x c) = (qprod (map (fun v => 1 + e v) (bn_V x)) - 1)%Qc) /\
  (exists x y e c, wfnet x /\ wfnet y /\ same_frame x y /\ nonneg_net x /\ nonneg_net y /\ normalised x /\ normalised y /\ acyclic_net x /\ rows_within x y e /\
     (0 < qsum (map e (bn_V x)))%Qc /\ ((1 + 1) * qabs (prob_of y c - prob_of x c))%Qc = qsum (map e (bn_V x))).
Proof.
  assert (SF : forall p q p' q', same_frame (one_node p q) (one_node p' q')) by (intros; split; [reflexivity|]; intros v [<-|[]]; split; reflexivity).
  split.
  - exists (one_node (qq 1 2) (qq 1 2)), (one_node (qq 3 4) (qq 1 2)), (fun _ => qq 1 4), (fun _ => true).
    destruct (one_node_ok (qq 1 2) (qq 1 2)) as (A & B & C & D); [discriminate|discriminate|]. destruct (one_node_ok (qq 3 4) (qq 1 2)) as (A' & B' & _ & _); [discriminate|discriminate|].
    split; [assumption|]. split; [assumption|]. split; [apply SF|]. split; [assumption|]. split; [assumption|]. split; [apply D; apply Qc_is_canon; reflexivity|]. split; [assumption|].
    split; [apply one_node_rows; vm_compute; discriminate|]. split; [reflexivity|apply Qc_is_canon; vm_compute; reflexivity].
  - exists (one_node (qq 1 2) (qq 1 2)), (one_node (qq 3 4) (qq 1 4)), (fun _ => qq 1 2), (fun a => a exA =? 0).
    destruct (one_node_ok (qq 1 2) (qq 1 2)) as (A & B & C & D); [discriminate|discriminate|]. destruct (one_node_ok (qq 3 4) (qq 1 4)) as (A' & B' & _ & D'); [discriminate|discriminate|].
    split; [assumption|]. split; [assumption|]. split; [apply SF|]. split; [assumption|]. split; [assumption|]. split; [apply D; apply Qc_is_canon; reflexivity|]. split; [apply D'; apply Qc_is_canon; reflexivity|]. split; [assumption|].
    split; [apply one_node_rows; vm_compute; discriminate|]. split; [reflexivity|apply Qc_is_canon; vm_compute; reflexivity].
Qed.
Print Assumptions C117_bounds_attained.

(** entrywise errors *)
Lemma cells_rows x y e : cells_within x y e -> rows_within x y (fun v => nQc (ncard x v) * e)%Qc.
Proof.
  intros H v a Hv Va. unfold row_gap. apply Qcle_trans with (qsum (map (fun _ => e) (seq 0 (ncard x v)))).
  - apply qsum_le. intros k Hk. apply in_seq in Hk. apply H; [assumption|]. apply valid_upd'; [lia|assumption].
  - assert (S : forall n s, qsum (map (fun _ => e) (seq s n)) = (nQc n * e)%Qc).
    { induction n as [|n IH]; intros s; [cbn [seq map]; change (qsum []) with 0%Qc; change (nQc 0) with 0%Qc; ring|]. cbn [seq map]. change (qsum (?h :: ?l)) with (h + qsum l)%Qc. rewrite IH, nQc_S. ring. }
    rewrite S. apply Qcle_refl.
Qed.

Lemma agrees_recoded x y ev ev' a : recoded x y ev ev' -> agrees y ev' a = agrees x ev a.
Proof. intros H. induction H as [|p q ev ev' [E1 E2] H IH]; [reflexivity|]. cbn [agrees forallb]. rewrite <- E1 in *. rewrite <- E2. f_equal. exact IH. Qed.
Lemma recoded_keys x y ev ev' : recoded x y ev ev' -> map fst ev' = map fst ev.
Proof. intros H. induction H as [|p q ev ev' [E1 E2] H IH]; [reflexivity|]. simpl. now rewrite IH, E1. Qed.
Lemma recoded_good x y ev ev' : same_frame x y -> recoded x y ev ev' -> good_evidence x ev -> good_evidence y ev'.
Proof.
  intros SF R [ND G]. split; [now rewrite (recoded_keys x y ev ev' R)|]. destruct SF as [EV _]. rewrite <- EV. clear ND.
  induction R as [|p q ev ev' [E1 E2] R IH]; intros rv z H; [destruct H|]. destruct H as [->|H].
  - simpl in E1, E2. destruct (G (fst p) (snd p)) as [A B]; [left; now destruct p|]. rewrite E1 in A. split; [assumption|].
    unfold val_index in E2. destruct (index_of_In _ _ B) as (i & Hi). rewrite Hi in E2. symmetry in E2. apply index_of_Some in E2. now apply nth_error_In in E2.
  - apply IH; [|assumption]. intros r s Hrs. apply G. now right.
Qed.
Lemma recoded_refl x y ev : same_frame x y -> same_values x y -> good_evidence x ev -> recoded x y ev ev.
Proof.
  intros SF SV [_ G]. unfold recoded. induction ev as [|p ev IH]; constructor.
  - split; [reflexivity|]. unfold val_index. rewrite (SV (fst p)); [reflexivity|]. apply (G (fst p) (snd p)). left. now destruct p.
  - apply IH. intros r s H. apply G. now right.
Qed.
Lemma linked_frame x y fixed u w : same_frame x y -> linked x fixed u w -> linked y fixed u w.
Proof.
  intros [EV F] (Hu & Hw & z & Hz & A & B). split; [now rewrite <- EV|]. split; [now rewrite <- EV|]. exists z.
  destruct (F u Hu) as [<- _]. destruct (F w Hw) as [<- _]. auto.
Qed.
Lemma frame_sym x y : same_frame x y -> same_frame y x.
Proof. intros [EV F]. split; [now symmetry|]. intros v Hv. rewrite <- EV in Hv. destruct (F v Hv). auto. Qed.
Lemma connected_frame x y fixed : same_frame x y -> connected x fixed -> connected y fixed.
Proof.
  intros SF C u w Hu Hw. rewrite <- (proj1 SF) in Hu, Hw. specialize (C u w Hu Hw).
  clear Hu Hw. induction C as [u w L|u|u w z _ IH1 _ IH2]; [apply rt_step; now apply (linked_frame x y)|apply rt_refl|now apply rt_trans with w].
Qed.

(** the printed answers of marginal_ve_e: both calls fail or both succeed *)
Lemma answers_close x y ev ev' e target o o' : wfnet x -> wfnet y -> same_frame x y -> nonneg_net x -> nonneg_net y ->
  normalised x -> acyclic_net x -> rows_within x y e -> recoded x y ev ev' ->
  In target (bn_V x) -> good_evidence x ev -> ~ In target (map fst ev) -> good o -> good o' ->
  (connected x (target :: map fst ev) /\ exists l l', marginal_ve_e o x target ev = Ok l /\ marginal_ve_e o' y target ev' = Ok l' /\
     length l = ncard x target /\ Forall2 (fun p p' => qabs (p' - p) <= qprod (map (fun v => 1 + e v) (bn_V x)) - 1 + Q2Qc (1 # 10000))%Qc l l' /\
     Forall2 (fun p p' => qabs (p' - p) <= qprod (map (fun v => 1 + e v) (bn_V x)) - 1 + Q2Qc (1 # 20000))%Qc (map (marginal x target ev) (seq 0 (ncard x target))) l') \/
  (~ connected x (target :: map fst ev) /\ marginal_ve_e o x target ev = Raise NameError /\ marginal_ve_e o' y target ev' = Raise NameError).
Proof.
  intros Wx Wy SF Nx Ny Hx HA HE R Ht GE Nt Go Go'.
  assert (GE' := recoded_good x y ev ev' SF R GE). assert (K := recoded_keys x y ev ev' R).
  assert (Ht' : In target (bn_V y)) by (now rewrite <- (proj1 SF)). assert (Nt' : ~ In target (map fst ev')) by (now rewrite K).
  assert (MM : forall k, (qabs (marginal y target ev' k - marginal x target ev k) <= qprod (map (fun v => 1 + e v) (bn_V x)) - 1)%Qc).
  { intros k. unfold marginal.
    assert (EQ : prob_of y (fun a => (a target =? k) && agrees y ev' a) = prob_of y (fun a => (a target =? k) && agrees x ev a)).
    { unfold prob_of. apply sum_over_congr. intros b _ _. now rewrite (agrees_recoded x y ev ev' b R). }
    rewrite EQ. now apply C117_event. }
  destruct (marginal_result x target ev o Wx Ht GE Nt Go) as [(C & f & Ef & Cf)|[C Ef]].
  - left. split; [assumption|].
    destruct (marginal_result y target ev' o' Wy Ht' GE' Nt' Go') as [(C' & f' & Ef' & Cf')|[C' _]].
    2:{ exfalso. apply C'. rewrite K. now apply (connected_frame x y). }
    unfold marginal_ve_e. rewrite Ef, Ef'. cbn [bind]. eexists. eexists. split; [reflexivity|]. split; [reflexivity|]. rewrite Cf, Cf', !map_map.
    rewrite map_length, seq_length. split; [reflexivity|]. destruct (proj2 SF target Ht) as [_ EC]. rewrite <- EC.
    assert (H10 : (half / pow10 4)%Qc = Q2Qc (1 # 20000)) by (apply Qc_is_canon; reflexivity).
    assert (H11 : Q2Qc (1 # 10000) = (Q2Qc (1 # 20000) + Q2Qc (1 # 20000))%Qc) by (apply Qc_is_canon; reflexivity).
    split.
    + clear Cf. induction (seq 0 (ncard x target)) as [|k r IH]; cbn [map]; [constructor|constructor; [|exact IH]].
      specialize (MM k). destruct (np_round_near 4 (marginal x target ev k)) as [A1 A2]. destruct (np_round_near 4 (marginal y target ev' k)) as [A3 A4].
      rewrite H10 in *. rewrite H11. rewrite qabs_le in *. destruct MM as [M1 M2]. revert A1 A2 A3 A4 M1 M2.
      generalize (np_round 4 (marginal x target ev k)) (np_round 4 (marginal y target ev' k)) (marginal x target ev k) (marginal y target ev' k) (qprod (map (fun v => 1 + e v)%Qc (bn_V x))) (Q2Qc (1 # 20000)).
      intros. split; qclra.
    + clear Cf. induction (seq 0 (ncard x target)) as [|k r IH]; cbn [map]; [constructor|constructor; [|exact IH]].
      specialize (MM k). destruct (np_round_near 4 (marginal y target ev' k)) as [A3 A4].
      rewrite H10 in *. rewrite qabs_le in *. destruct MM as [M1 M2]. revert A3 A4 M1 M2.
      generalize (np_round 4 (marginal y target ev' k)) (marginal x target ev k) (marginal y target ev' k) (qprod (map (fun v => 1 + e v)%Qc (bn_V x))) (Q2Qc (1 # 20000)).
      intros. split; qclra.
  - right. split; [assumption|]. unfold marginal_ve_e. rewrite Ef. split; [reflexivity|].
    destruct (marginal_result y target ev' o' Wy Ht' GE' Nt' Go') as [(C' & _)|[_ Ef']].
    { exfalso. apply C. rewrite K in C'. apply (connected_frame y x); [now apply frame_sym|assumption]. }
    now rewrite Ef'.
Qed.

Theorem C117_marginal_ve_e : forall x y e target ev o o', wfnet x -> wfnet y -> same_frame x y -> same_values x y -> nonneg_net x -> nonneg_net y ->
  normalised x -> acyclic_net x -> rows_within x y e ->
  In target (bn_V x) -> good_evidence x ev -> ~ In target (map fst ev) -> good o -> good o' ->
  (connected x (target :: map fst ev) /\ exists l l', marginal_ve_e o x target ev = Ok l /\ marginal_ve_e o' y target ev = Ok l' /\
     length l = ncard x target /\ Forall2 (fun p p' => qabs (p' - p) <= qprod (map (fun v => 1 + e v) (bn_V x)) - 1 + Q2Qc (1 # 10000))%Qc l l') \/
  (~ connected x (target :: map fst ev) /\ marginal_ve_e o x target ev = Raise NameError /\ marginal_ve_e o' y target ev = Raise NameError).
Proof.
  intros x y e target ev o o' Wx Wy SF SV Nx Ny Hx HA HE Ht GE Nt Go Go'.
  destruct (answers_close x y ev ev e target o o') as [(C & l & l' & E1 & E2 & E3 & E4 & _)|H]; auto; [now apply recoded_refl|].
  left. split; [assumption|]. exists l, l'. auto.
Qed.
Print Assumptions C117_marginal_ve_e.

(** conditional probabilities: the error is divided by the probability of the evidence *)
Theorem C117_posterior : forall x y e, wfnet x -> wfnet y -> same_frame x y -> nonneg_net x -> nonneg_net y ->
  normalised x -> acyclic_net x -> rows_within x y e ->
  forall c d, (0 < prob_of x d)%Qc -> (0 < prob_of y d)%Qc ->
  (qabs (prob_of y (fun a => c a && d a) / prob_of y d - prob_of x (fun a => c a && d a) / prob_of x d)
   <= (1 + 1) * (qprod (map (fun v => 1 + e v) (bn_V x)) - 1) / prob_of x d)%Qc.
Proof.
  intros x y e Wx Wy SF Nx Ny Hx HA HE c d Px Py.
  pose proof (C117_event x y e Wx Wy SF Nx Ny Hx HA HE (fun a => c a && d a)) as G1.
  pose proof (C117_event x y e Wx Wy SF Nx Ny Hx HA HE d) as G2.
  assert (L : (0 <= prob_of y (fun a => c a && d a) /\ prob_of y (fun a => c a && d a) <= prob_of y d)%Qc).
  { split; unfold prob_of.
    - apply sum_over_nonneg. intros b _ _. destruct (c b && d b); [now apply joint_nonneg|apply Qcle_refl].
    - apply sum_over_mono; [apply Wy|]. intros b _ _. pose proof (joint_nonneg y b Ny). destruct (c b), (d b); simpl; try apply Qcle_refl; assumption. }
  rewrite qabs_le in G1, G2. destruct G1 as [A1 A2], G2 as [B1 B2], L as [L1 L2].
  generalize dependent (qprod (map (fun v => 1 + e v)%Qc (bn_V x)) - 1)%Qc.
  generalize dependent (prob_of y (fun a => c a && d a)). generalize dependent (prob_of x (fun a => c a && d a)).
  generalize dependent (prob_of x d). generalize dependent (prob_of y d). clear. intros E' PE' E PE a a' L1 L2 D A1 A2 B1 B2.
  assert (NE : E <> 0%Qc) by (intros Z; rewrite Z in PE; discriminate). assert (NE' : E' <> 0%Qc) by (intros Z; rewrite Z in PE'; discriminate).
  set (q := (a' / E')%Qc). assert (Q : (q * E' = a')%Qc) by (unfold q; field; assumption).
  assert (Q0 : (0 <= q)%Qc). { destruct (Qclt_le_dec q 0) as [N|N]; [exfalso|assumption]. rewrite <- Q in L1. clear - L1 N PE'. assert (0 <= E')%Qc by now apply Qclt_le_weak. assert ((- q) * E' > 0)%Qc; [|qclra]. rewrite <- (Qcmult_0_l E'). apply Qcmult_lt_compat_r; [assumption|qclra]. }
  assert (Q1 : (q <= 1)%Qc). { destruct (Qclt_le_dec 1 q) as [N|N]; [exfalso|assumption]. rewrite <- Q in L2. assert (1 * E' < q * E')%Qc by now apply Qcmult_lt_compat_r. qclra. }
  assert (T : ((a / E) * E = a)%Qc) by (field; assumption).
  assert (S : ((1 + 1) * D / E * E = (1 + 1) * D)%Qc) by (field; assumption).
  assert (O1 : (this 1%Qc == 1)%Q) by reflexivity.
  assert (U : forall z w, (z * E <= w * E)%Qc -> (z <= w)%Qc).
  { intros z w H. destruct (Qclt_le_dec w z) as [N|N]; [exfalso|assumption]. assert (w * E < z * E)%Qc by now apply Qcmult_lt_compat_r. qclra. }
  assert (W1 : (0 <= q * (D - (E' - E)))%Qc) by (apply Qcmult_nonneg; qclra).
  assert (W2 : (0 <= q * (D - - (E' - E)))%Qc) by (apply Qcmult_nonneg; qclra).
  assert (D0 : (0 <= D)%Qc) by qclra.
  assert (W3 : (0 <= (1 - q) * D)%Qc) by (apply Qcmult_nonneg; qclra).
  rewrite qabs_le. split; apply U; rewrite S.
  - assert (R : ((1 + 1) * D - (q - a / E) * E = (D - (a' - a)) + (1 - q) * D + q * (D - - (E' - E)))%Qc).
    { replace ((q - a / E) * E)%Qc with (q * E - a / E * E)%Qc by ring. rewrite T, <- Q. ring. }
    assert (Z : (0 <= (1 + 1) * D - (q - a / E) * E)%Qc) by (rewrite R; qclra). qclra.
  - assert (R : ((1 + 1) * D - - (q - a / E) * E = (D - - (a' - a)) + (1 - q) * D + q * (D - (E' - E)))%Qc).
    { replace (- (q - a / E) * E)%Qc with (- (q * E) + a / E * E)%Qc by ring. rewrite T, <- Q. ring. }
    assert (Z : (0 <= (1 + 1) * D - - (q - a / E) * E)%Qc) by (rewrite R; qclra). qclra.
Qed.
Print Assumptions C117_posterior.

(** MAP: the answer for [y] is nearly optimal for [x] *)
Theorem C117_map : forall x y e ev o, wfnet x -> wfnet y -> same_frame x y -> same_values x y -> nonneg_net x -> nonneg_net y ->
  normalised x -> acyclic_net x -> rows_within x y e -> good_evidence x ev -> good o ->
  exists m, ve_map o y ev = Ok m /\
    forall b, valid (ncard x) (bn_V x) b -> agrees x ev b = true ->
      (joint x b - (1 + 1) * (qprod (map (fun v => 1 + e v) (bn_V x)) - 1) <= joint x (asg_of x m))%Qc.
Proof.
  intros x y e ev o Wx Wy SF SV Nx Ny Hx HA HE GE Go.
  assert (R := recoded_refl x y ev SF SV GE). assert (GE' := recoded_good x y ev ev SF R GE).
  destruct (C16_ve_map y ev o Wy Ny GE' Go) as (m & Em & Ev & _ & Opt). exists m. split; [assumption|]. intros b Vb Ab.
  assert (Va : valid (ncard x) (bn_V x) (asg_of x m)).
  { intros v Hv. destruct (Ev v) as (z & Hz & Iz); [now rewrite <- (proj1 SF)|]. unfold asg_of. rewrite Hz. rewrite <- (SV v Hv) in Iz.
    destruct (index_of_In _ _ Iz) as (i & Hi). unfold val_index. rewrite Hi. rewrite ParamMain.nvalues_card. now apply index_of_lt in Hi. }
  assert (EA : joint y (asg_of y m) = joint y (asg_of x m)).
  { unfold joint. apply qprod_map_ext. intros v Hv. f_equal. apply cond_prob_ext. intros u Hu.
    assert (Iu : In u (bn_V x)). { rewrite <- (proj1 SF) in Hv. destruct (proj2 SF v Hv) as [EP _]. rewrite <- EP in Hu. destruct Hu as [<-|Hu]; [assumption|]. exact (wn_par _ Wx v Hv u Hu). }
    unfold asg_of, val_index. now rewrite (SV u Iu). }
  specialize (Opt b (proj2 (valid_y x y SF b) Vb)). rewrite (agrees_recoded x y ev ev b R) in Opt. specialize (Opt Ab). rewrite EA in Opt.
  pose proof (tv_point x y Wx SF b Vb) as T1. pose proof (tv_point x y Wx SF (asg_of x m) Va) as T2.
  pose proof (tv_product x y Wx SF Nx Ny e Hx HA HE) as T3. rewrite qabs_le in T1, T2. revert T1 T2 T3 Opt.
  generalize (joint y b) (joint x b) (joint y (asg_of x m)) (joint x (asg_of x m)) (tv x y) (qprod (map (fun v => 1 + e v)%Qc (bn_V x))). clear.
  assert (O1 : (this 1%Qc == 1)%Q) by reflexivity. intros yb xb ya xa t D [A1 A2] [B1 B2] C Opt.
  replace ((1 + 1) * (D - 1))%Qc with (D - 1 + (D - 1))%Qc by ring. qclra.
Qed.
Print Assumptions C117_map.

(** relative errors: no normalisation needed *)
Theorem C117_relative : forall x y e, wfnet x -> wfnet y -> same_frame x y -> nonneg_net x -> (0 <= e /\ e <= 1)%Qc ->
  (forall v a, In v (bn_V x) -> valid (ncard x) (bn_V x) a ->
     getq (cond_prob x v a) * (1 - e) <= getq (cond_prob y v a) /\ getq (cond_prob y v a) <= getq (cond_prob x v a) * (1 + e))%Qc ->
  forall c, (prob_of x c * Qcpower (1 - e) (length (bn_V x)) <= prob_of y c /\ prob_of y c <= prob_of x c * Qcpower (1 + e) (length (bn_V x)))%Qc.
Proof.
  intros x y e Wx Wy SF Nx He H c. rewrite (prob_y x y SF). assert (O1 : (this 1%Qc == 1)%Q) by reflexivity.
  assert (J : forall a, valid (ncard x) (bn_V x) a -> (joint x a * Qcpower (1 - e) (length (bn_V x)) <= joint y a /\ joint y a <= joint x a * Qcpower (1 + e) (length (bn_V x)))%Qc).
  { intros a Va. rewrite (joint_y x y SF). unfold joint.
    assert (G : forall l, incl l (bn_V x) -> (0 <= qprod (map (fun v => getq (cond_prob x v a)) l) /\
      qprod (map (fun v => getq (cond_prob x v a)) l) * Qcpower (1 - e) (length l) <= qprod (map (fun v => cpy y v a) l) /\
      qprod (map (fun v => cpy y v a) l) <= qprod (map (fun v => getq (cond_prob x v a)) l) * Qcpower (1 + e) (length l))%Qc); [|apply G, incl_refl].
    induction l as [|v l IH]; intros I.
    - cbn [map length]. change (qprod []) with 1%Qc. change (Qcpower ?z 0) with 1%Qc. rewrite Qcmult_1_l. split; [discriminate|]. split; apply Qcle_refl.
    - destruct IH as (P & A & B); [intros u Hu; apply I; now right|]. destruct (H v a (I v (or_introl eq_refl)) Va) as [C D].
      pose proof (cond_prob_nonneg x v a Nx (I v (or_introl eq_refl))) as F. fold (cpy y v a) in C, D. cbn [map length].
      change (qprod (?h :: ?t)) with (h * qprod t)%Qc. change (Qcpower ?z (Datatypes.S ?n)) with (z * Qcpower z n)%Qc.
      assert (P1 : (0 <= Qcpower (1 - e) (length l))%Qc) by (apply Qcpower_pos; qclra).
      assert (P2 : (0 <= Qcpower (1 + e) (length l))%Qc) by (apply Qcpower_pos; qclra).
      generalize dependent (qprod (map (fun v => getq (cond_prob x v a)) l)). generalize dependent (qprod (map (fun v => cpy y v a) l)).
      generalize dependent (getq (cond_prob x v a)). generalize dependent (cpy y v a). generalize dependent (Qcpower (1 - e) (length l)). generalize dependent (Qcpower (1 + e) (length l)).
      clear - He O1. intros U PU L PL g f C D F q p P A B.
      assert (L0 : (0 <= f * (1 - e))%Qc) by (apply Qcmult_nonneg; [assumption|qclra]).
      assert (L1 : (0 <= p * L)%Qc) by now apply Qcmult_nonneg.
      split; [now apply Qcmult_nonneg|]. split.
      + replace (f * p * ((1 - e) * L))%Qc with ((f * (1 - e)) * (p * L))%Qc by ring.
        apply Qcle_trans with ((f * (1 - e)) * q)%Qc; [rewrite !(Qcmult_comm (f * (1 - e))); now apply Qcmult_le_compat_r|apply Qcmult_le_compat_r; [assumption|qclra]].
      + replace (f * p * ((1 + e) * U))%Qc with ((f * (1 + e)) * (p * U))%Qc by ring.
        assert (q >= 0)%Qc by qclra. assert (0 <= f * (1 + e))%Qc by qclra.
        apply Qcle_trans with ((f * (1 + e)) * q)%Qc; [apply Qcmult_le_compat_r; assumption|rewrite !(Qcmult_comm (f * (1 + e))); now apply Qcmult_le_compat_r]. }
  unfold prob_of. split.
  - rewrite Qcmult_comm, <- sum_over_scale. apply sum_over_mono; [apply Wx|]. intros b _ Vb. destruct (J b Vb) as [A _]. rewrite Qcmult_comm. destruct (c b); [assumption|rewrite Qcmult_0_l; apply Qcle_refl].
  - rewrite (Qcmult_comm (sum_over _ _ _ _)), <- sum_over_scale. apply sum_over_mono; [apply Wx|]. intros b _ Vb. destruct (J b Vb) as [_ A]. rewrite (Qcmult_comm (Qcpower _ _)). destruct (c b); [assumption|rewrite Qcmult_0_l; apply Qcle_refl].
Qed.
Print Assumptions C117_relative.

(** a three-node network with one table entry pair moved by 1/100 *)
Definition ex3' : bayesnet := mkBN (bn_V ex3) (bn_E ex3) (map (fun p => if name_eqb (fst p) exA then (exA, mkF (f_parents (snd p)) (f_values (snd p)) [qq 41 100; qq 59 100]) else p) (bn_F ex3)).
Example C117_nonvacuous : wfnet ex3 /\ wfnet ex3' /\ same_frame ex3 ex3' /\ same_values ex3 ex3' /\ nonneg_net ex3 /\ nonneg_net ex3' /\ normalised ex3 /\ acyclic_net ex3 /\
  rows_within ex3 ex3' (fun v => if name_eqb v exA then qq 1 50 else 0%Qc) /\ connected ex3 [exC] /\
  marginal_ve_e id_oracle ex3 exC [] <> marginal_ve_e id_oracle ex3' exC [].
Proof.
  split; [exact ex3_wf|]. split; [now apply wfnetb_ok|]. split. { split; [reflexivity|]. intros v [<-|[<-|[<-|[]]]]; split; reflexivity. }
  split. { intros v [<-|[<-|[<-|[]]]]; reflexivity. }
  destruct C15_nonvacuous as (N & M & A & C). split; [assumption|]. split.
  { intros v x [<-|[<-|[<-|[]]]] Hx; vm_compute in Hx; repeat (destruct Hx as [<-|Hx]; [discriminate|]); destruct Hx. }
  split; [assumption|]. split; [assumption|]. split.
  { intros v a [<-|[<-|[<-|[]]]] V.
    - vm_compute. discriminate.
    - assert (Z : row_gap ex3 ex3' exB a = 0%Qc). { unfold row_gap. apply qsum_zero. intros k _. unfold gap. change (cond_prob ex3' exB) with (cond_prob ex3 exB). replace (_ - _)%Qc with 0%Qc by ring. reflexivity. }
      rewrite Z. apply Qcle_refl.
    - assert (Z : row_gap ex3 ex3' exC a = 0%Qc). { unfold row_gap. apply qsum_zero. intros k _. unfold gap. change (cond_prob ex3' exC) with (cond_prob ex3 exC). replace (_ - _)%Qc with 0%Qc by ring. reflexivity. }
      rewrite Z. apply Qcle_refl. }
  split; [assumption|]. vm_compute. intros H. inversion H.
Qed.
