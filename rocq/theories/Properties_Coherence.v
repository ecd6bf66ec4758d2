(** Properties_Coherence.v -- the answers of marginal_ve_e to different questions fit together (C143). *)
From Verif Require Import Py Num BayesNet Factor Rounding Factorization SpecFactor SpecInference
  Radix SumOver FactorOut VE VETotal VEShape VEMap QueryErr Examples Properties_Inference Properties_Query.
From Coq Require Import Lia Relations Qround.
Open Scope nat_scope.

Lemma map_nth_seq {A} (l : list A) d : map (fun k => nth k l d) (seq 0 (length l)) = l.
Proof.
  induction l as [|a r IH]; [reflexivity|]. cbn [length seq map nth]. f_equal. rewrite <- seq_shift, map_map. exact IH.
Qed.
(** rounding keeps the order *)
Lemma zQc_mono a b : (a <= b)%Z -> (zQc a <= zQc b)%Qc.
Proof. intros H. unfold zQc. qc2q. now rewrite <- Zle_Qle. Qed.
Lemma zQc_lt_inv a b : (zQc a < zQc b)%Qc -> (a < b)%Z.
Proof. unfold zQc. intros H. qc2q. now rewrite <- Zlt_Qlt in H. Qed.
Lemma qfloor_mono x y : (x <= y)%Qc -> (qfloor x <= qfloor y)%Z.
Proof. intros H. unfold qfloor. apply Qfloor_resp_le. exact H. Qed.
Lemma rint_mono x y : (x <= y)%Qc -> (rint x <= rint y)%Z.
Proof.
  intros H. pose proof (qfloor_mono x y H) as F.
  assert (L : forall u, (qfloor u <= rint u <= qfloor u + 1)%Z).
  { intros u. unfold rint. destruct (qltb _ _); [lia|]. destruct (qltb _ _); [lia|]. destruct (Z.even _); lia. }
  destruct (Z.eq_dec (qfloor x) (qfloor y)) as [E|E]; [|pose proof (L x); pose proof (L y); lia].
  unfold rint. rewrite <- E. set (f := qfloor x).
  destruct (qltb_spec (x - zQc f) half) as [A|A]; [destruct (qltb _ _); [lia|]; destruct (qltb _ _); [lia|]; destruct (Z.even _); lia|].
  destruct (qltb_spec (y - zQc f) half) as [B|B]; [exfalso; qclra|].
  destruct (qltb_spec half (x - zQc f)) as [C|C].
  - destruct (qltb_spec half (y - zQc f)) as [D|D]; [lia|exfalso; qclra].
  - destruct (qltb_spec half (y - zQc f)) as [D|D]; destruct (Z.even f); lia.
Qed.
Lemma np_round_mono d x y : (x <= y)%Qc -> (np_round d x <= np_round d y)%Qc.
Proof.
  intros H. unfold np_round. pose proof (pow10_pos d) as P. pose proof (pow10_inv_pos d) as Q.
  assert (R : (x * pow10 d <= y * pow10 d)%Qc) by (apply Qcmult_le_compat_r; [assumption|now apply Qclt_le_weak]).
  apply rint_mono, zQc_mono in R. unfold Qcdiv. apply Qcmult_le_compat_r; [assumption|now apply Qclt_le_weak].
Qed.

(** fewer observations keep connected networks connected *)
Lemma connected_fewer bn f1 f2 : incl f2 f1 -> connected bn f1 -> connected bn f2.
Proof.
  intros I C u w Hu Hw. specialize (C u w Hu Hw). induction C as [u w (H1 & H2 & x & H3 & H4)|u|u y w C1 IH1 C2 IH2].
  - apply rt_step. split; [assumption|]. split; [assumption|]. exists x. split; [intros K; now apply H3, I|assumption].
  - apply rt_refl.
  - assert (Hy : In y (bn_V bn)).
    { clear IH1 IH2 C2. apply clos_rt_rtn1 in C1. destruct C1 as [|y z (_ & Hz & _) _]; assumption. }
    eapply rt_trans; [apply IH1|apply IH2]; assumption.
Qed.

(** how a query ends, as a function of the question alone *)
Lemma query_ends bn t ev o : wfnet bn -> NoDup (map fst ev) -> good o ->
  (~ answerable bn t ev /\ marginal_ve_e o bn t ev = Raise ValueError) \/
  (answerable bn t ev /\ ~ connected bn (t :: map fst ev) /\ marginal_ve_e o bn t ev = Raise NameError) \/
  (answerable bn t ev /\ connected bn (t :: map fst ev) /\
   marginal_ve_e o bn t ev = Ok (map (fun x => np_round 4 (marginal bn t ev x)) (seq 0 (ncard bn t)))).
Proof.
  intros W N G. pose proof (C124_marginal_outcomes bn t ev o W N G) as H.
  destruct (marginal_ve_e o bn t ev) as [l|e].
  - right. right. destruct H as (A & C & ->). auto.
  - destruct e; try contradiction; [now left|right; left; tauto].
Qed.

(** ** Asking for one node given another, or the other given the one *)
Lemma marginal_swap bn t e x y i j ev : val_index bn t x = Some i -> val_index bn e y = Some j ->
  marginal bn t ((e, y) :: ev) i = marginal bn e ((t, x) :: ev) j.
Proof.
  intros Hi Hj. unfold marginal, prob_of. apply sum_over_congr. intros b _ _. unfold agrees. cbn [forallb fst snd].
  rewrite Hi, Hj. destruct (b t =? i), (b e =? j); reflexivity.
Qed.
Lemma nth_error_answer bn t ev i : i < ncard bn t ->
  nth_error (map (fun x => np_round 4 (marginal bn t ev x)) (seq 0 (ncard bn t))) i = Some (np_round 4 (marginal bn t ev i)).
Proof.
  intros H. rewrite nth_error_map. rewrite nth_error_nth' with (d := 0) by now rewrite seq_length.
  now rewrite seq_nth.
Qed.
Lemma val_index_ncard bn v x i : val_index bn v x = Some i -> i < ncard bn v.
Proof.
  unfold val_index, ncard, nvalues. intros H. apply index_of_Some in H.
  destruct (dget (bn_F bn) v); [|destruct i; discriminate H]. apply nth_error_Some. congruence.
Qed.
Theorem C143_swap : forall bn t e x y i j ev o1 o2, wfnet bn -> good o1 -> good o2 ->
  NoDup (t :: e :: map fst ev) -> val_index bn t x = Some i -> val_index bn e y = Some j ->
  match marginal_ve_e o1 bn t ((e, y) :: ev), marginal_ve_e o2 bn e ((t, x) :: ev) with
  | Ok l1, Ok l2 => exists p, nth_error l1 i = Some p /\ nth_error l2 j = Some p
  | Raise e1, Raise e2 => e1 = e2
  | _, _ => False
  end.
Proof.
  intros bn t e x y i j ev o1 o2 W G1 G2 ND Hi Hj.
  inversion ND as [|? ? Nt ND']; subst. inversion ND' as [|? ? Ne ND'']; subst.
  assert (N1 : NoDup (map fst ((e, y) :: ev))) by assumption.
  assert (N2 : NoDup (map fst ((t, x) :: ev))) by (cbn [map fst]; constructor; [intros K; apply Nt; now right|assumption]).
  assert (A : answerable bn t ((e, y) :: ev) <-> answerable bn e ((t, x) :: ev)).
  { assert (Vt : In x (nvalues bn t)) by (apply index_of_Some in Hi; now apply nth_error_In in Hi).
    assert (Ve : In y (nvalues bn e)) by (apply index_of_Some in Hj; now apply nth_error_In in Hj).
    split; intros [A1 A2]; (split; [|intros v u [E|K]]).
    - now destruct (A2 e y (or_introl eq_refl)).
    - inversion E; subst. split; [assumption|]. split; [|assumption]. intros ->. apply Nt. now left.
    - destruct (A2 v u (or_intror K)) as (B1 & B2 & B3). split; [assumption|]. split; [|assumption].
      intros ->. apply Ne. now apply (in_map fst) in K.
    - now destruct (A2 t x (or_introl eq_refl)).
    - inversion E; subst. split; [assumption|]. split; [|assumption]. intros ->. apply Nt. now left.
    - destruct (A2 v u (or_intror K)) as (B1 & B2 & B3). split; [assumption|]. split; [|assumption].
      intros ->. apply Nt. right. now apply (in_map fst) in K. }
  assert (C : connected bn (t :: map fst ((e, y) :: ev)) <-> connected bn (e :: map fst ((t, x) :: ev))).
  { split; apply connected_incl; intros v; cbn; tauto. }
  destruct (query_ends bn t ((e, y) :: ev) o1 W N1 G1) as [(B & ->)|[(B & D & ->)|(B & D & ->)]];
  destruct (query_ends bn e ((t, x) :: ev) o2 W N2 G2) as [(B' & ->)|[(B' & D' & ->)|(B' & D' & ->)]];
    try reflexivity; try tauto.
  exists (np_round 4 (marginal bn t ((e, y) :: ev) i)). split.
  - apply nth_error_answer. now apply val_index_ncard in Hi.
  - rewrite nth_error_answer by now apply val_index_ncard in Hj. now rewrite (marginal_swap bn t e x y i j).
Qed.
Print Assumptions C143_swap.

(** ** Adding up over the values of another node *)
Lemma marginal_total bn t e ev i : wfnet bn -> In e (bn_V bn) ->
  qsum (map (fun y => marginal bn t ((e, y) :: ev) i) (nvalues bn e)) = marginal bn t ev i.
Proof.
  intros W He. unfold marginal, prob_of.
  assert (Ex : ext (fun a => if (a t =? i) && agrees bn ev a then joint bn a else 0%Qc)).
  { intros a b H. rewrite (agrees_ext bn ev a b H), (joint_ext bn a b H), (H t). reflexivity. }
  rewrite (sum_over_perm _ _ (e :: remove1 e (bn_V bn)) _ _ Ex); [|apply W|now apply remove1_perm].
  cbn [sum_over]. unfold sum_values.
  assert (Ec : ncard bn e = length (nvalues bn e)) by (unfold ncard, nvalues; destruct (dget _ _); reflexivity).
  rewrite Ec.
  assert (NV : NoDup (nvalues bn e)) by now apply W.
  assert (K : forall k y, nth_error (nvalues bn e) k = Some y -> val_index bn e y = Some k).
  { intros k y Hk. unfold val_index. now apply index_of_nth. }
  transitivity (qsum (map (fun k => sum_over (ncard bn) (bn_V bn)
     (fun b => if b e =? k then (if (b t =? i) && agrees bn ev b then joint bn b else 0%Qc) else 0%Qc) (fun _ => 0)) (seq 0 (length (nvalues bn e))))).
  - rewrite <- (map_nth_seq (nvalues bn e) (nm "")) at 1. rewrite map_map. apply qsum_map_ext. intros k Hk. apply in_seq in Hk.
    apply sum_over_congr. intros b _ _. unfold agrees. cbn [forallb fst snd].
    rewrite (K k); [destruct (b e =? k), (b t =? i); reflexivity|]. now apply nth_error_nth'.
  - apply qsum_map_ext. intros k Hk. apply in_seq in Hk. apply sum_indicator; [apply W|assumption|lia|assumption].
Qed.

(** sums of rounded numbers are within half a unit per summand *)
Lemma qsum_round_near {A} (f : A -> Qc) l :
  (qsum (map f l) - nQc (length l) * (half / pow10 4) <= qsum (map (fun x => np_round 4 (f x)) l) /\
   qsum (map (fun x => np_round 4 (f x)) l) <= qsum (map f l) + nQc (length l) * (half / pow10 4))%Qc.
Proof.
  induction l as [|a r [IH1 IH2]].
  - cbn [map qsum fold_right length]. assert (E : nQc 0 = 0%Qc) by reflexivity. rewrite E. split; qclra.
  - cbn [map qsum fold_right length] in *. fold (qsum (map f r)) in *. fold (qsum (map (fun x => np_round 4 (f x)) r)) in *.
    assert (E : nQc (S (length r)) = (1 + nQc (length r))%Qc).
    { unfold nQc. apply Qc_eq_Q. qc2q. rewrite Nat2Z.inj_succ, <- Z.add_1_l, inject_Z_plus. reflexivity. }
    rewrite E. destruct (np_round_near 4 (f a)) as [B1 B2].
    replace ((1 + nQc (length r)) * (half / pow10 4))%Qc with (half / pow10 4 + nQc (length r) * (half / pow10 4))%Qc by ring.
    revert B1 B2 IH1 IH2. generalize (half / pow10 4)%Qc (nQc (length r) * (half / pow10 4))%Qc (np_round 4 (f a)) (f a)
      (qsum (map f r)) (qsum (map (fun x => np_round 4 (f x)) r)). intros. split; qclra.
Qed.

Lemma near_two n (s m r h : Qc) : (m - nQc n * h <= s -> s <= m + nQc n * h -> m - h <= r -> r <= m + h ->
  r - nQc (S n) * h <= s /\ s <= r + nQc (S n) * h)%Qc.
Proof.
  intros B1 B2 D1 D2. assert (E1 : nQc (S n) = (1 + nQc n)%Qc).
  { unfold nQc. apply Qc_eq_Q. qc2q. rewrite Nat2Z.inj_succ, <- Z.add_1_l, inject_Z_plus. reflexivity. }
  rewrite E1. replace ((1 + nQc n) * h)%Qc with (h + nQc n * h)%Qc by ring.
  revert B1 B2 D1 D2. generalize (nQc n * h)%Qc. intros k. intros. split; qclra.
Qed.
(** what is true once one more node is observed is true without it *)
Lemma answerable_fewer bn t e y ev : answerable bn t ((e, y) :: ev) -> answerable bn t ev.
Proof. intros [A1 A2]. split; [assumption|]. intros v x H. apply A2. now right. Qed.

(** If the query with e=y0 observed has an answer, so has the query without it, so have the
    queries with every other value of e, and adding the latter up gives the former, up to half a
    unit of the fourth decimal for each rounded number. *)
Theorem C143_total_probability : forall bn t e y0 ev o l0, wfnet bn -> good o -> NoDup (e :: map fst ev) ->
  marginal_ve_e o bn t ((e, y0) :: ev) = Ok l0 ->
  exists l ls, marginal_ve_e o bn t ev = Ok l /\
    length ls = ncard bn e /\
    (forall j y, nth_error (nvalues bn e) j = Some y -> marginal_ve_e o bn t ((e, y) :: ev) = Ok (nth j ls [])) /\
    forall i, i < ncard bn t ->
      let s := qsum (map (fun a => nth i a 0%Qc) ls) in
      let d := (nQc (S (ncard bn e)) * (half / pow10 4))%Qc in
      (nth i l 0 - d <= s /\ s <= nth i l 0 + d)%Qc.
Proof.
  intros bn t e y0 ev o l0 W G ND E. inversion ND as [|? ? Ne ND']; subst.
  destruct (query_ends bn t ((e, y0) :: ev) o W ND G) as [(_ & E')|[(_ & _ & E')|(A & C & _)]]; [congruence|congruence|].
  pose proof (answerable_fewer _ _ _ _ _ A) as A1.
  assert (C1 : connected bn (t :: map fst ev)) by (revert C; apply connected_fewer; intros v; cbn; tauto).
  assert (He : In e (bn_V bn)) by (now destruct A as [_ A]; destruct (A e y0 (or_introl eq_refl))).
  assert (Ay : forall y, In y (nvalues bn e) -> answerable bn t ((e, y) :: ev)).
  { intros y Hy. destruct A as [B1 B2]. split; [assumption|]. intros v x [K|K]; [|apply B2; now right].
    inversion K; subst. destruct (B2 v y0 (or_introl eq_refl)) as (D1 & D2 & _). auto. }
  assert (Ec : ncard bn e = length (nvalues bn e)) by (unfold ncard, nvalues; destruct (dget _ _); reflexivity).
  set (ans := fun ev' => map (fun x => np_round 4 (marginal bn t ev' x)) (seq 0 (ncard bn t))).
  assert (R : forall y, In y (nvalues bn e) -> marginal_ve_e o bn t ((e, y) :: ev) = Ok (ans ((e, y) :: ev))).
  { intros y Hy. destruct (query_ends bn t ((e, y) :: ev) o W ND G) as [(B & _)|[(_ & B & _)|(_ & _ & B)]].
    - destruct B. now apply Ay.
    - now destruct B.
    - exact B. }
  exists (ans ev), (map (fun y => ans ((e, y) :: ev)) (nvalues bn e)). split; [|split; [|split]].
  - destruct (query_ends bn t ev o W ND' G) as [(B & _)|[(_ & B & _)|(_ & _ & B)]]; [now destruct B|now destruct B|exact B].
  - now rewrite map_length.
  - intros j y Hj. rewrite (R y (nth_error_In _ _ Hj)). apply f_equal.
    symmetry. apply nth_error_nth. exact (map_nth_error (fun y => ans ((e, y) :: ev)) j _ Hj).
  - intros i Hi. cbn zeta. rewrite map_map.
    assert (N : forall ev', nth i (ans ev') 0%Qc = np_round 4 (marginal bn t ev' i)).
    { intros ev'. apply nth_error_nth. exact (nth_error_answer bn t ev' i Hi). }
    rewrite N. erewrite map_ext by (intros y; apply N).
    pose proof (qsum_round_near (fun y => marginal bn t ((e, y) :: ev) i) (nvalues bn e)) as [B1 B2].
    rewrite marginal_total in B1, B2 by assumption. rewrite <- Ec in B1, B2.
    destruct (np_round_near 4 (marginal bn t ev i)) as [D1 D2].
    exact (near_two _ _ _ _ _ B1 B2 D1 D2).
Qed.
Print Assumptions C143_total_probability.

(** ** Observing more never makes an entry larger *)
Lemma sum_over_mono cd vs phi psi a :
  (forall b, (forall w, ~ In w vs -> b w = a w) -> (NoDup vs -> valid cd vs b) -> (phi b <= psi b)%Qc) ->
  (sum_over cd vs phi a <= sum_over cd vs psi a)%Qc.
Proof.
  revert a. induction vs as [|v r IH]; simpl; intros a H.
  - apply H; [reflexivity|]. intros _ w [].
  - unfold sum_values. assert (K : forall x, x < cd v -> (sum_over cd r phi (upd a v x) <= sum_over cd r psi (upd a v x))%Qc).
    { intros x Hx. apply IH. intros b Hb Vb. apply H.
      + intros w Hw. rewrite Hb by tauto. apply upd_other. intros ->. apply Hw. now left.
      + intros ND. inversion ND; subst. apply valid_cons. split; [|auto]. rewrite Hb by assumption. now rewrite upd_same. }
    assert (L : forall x, In x (seq 0 (cd v)) -> x < cd v) by (intros x Hx; apply in_seq in Hx; lia).
    revert L. generalize (seq 0 (cd v)). intros l L. induction l as [|x l IHl]; cbn [map qsum fold_right]; [apply Qcle_refl|].
    apply Qcplus_le_compat; [apply K, L; now left|apply IHl]. intros z Hz. apply L. now right.
Qed.
Lemma marginal_more bn t ev more i : nonneg_net bn -> (marginal bn t (more ++ ev) i <= marginal bn t ev i)%Qc.
Proof.
  intros N. unfold marginal, prob_of. apply sum_over_mono. intros b _ _. unfold agrees. rewrite forallb_app.
  destruct (b t =? i); cbn [andb]; [|apply Qcle_refl].
  destruct (forallb _ more); cbn [andb]; [apply Qcle_refl|]. destruct (forallb _ ev); [now apply joint_nonneg|apply Qcle_refl].
Qed.
Theorem C143_more_evidence : forall bn t ev more o l', wfnet bn -> nonneg_net bn -> good o -> NoDup (map fst (more ++ ev)) ->
  marginal_ve_e o bn t (more ++ ev) = Ok l' ->
  exists l, marginal_ve_e o bn t ev = Ok l /\ Forall2 Qcle l' l.
Proof.
  intros bn t ev more o l' W N G ND E.
  assert (ND' : NoDup (map fst ev)) by (rewrite map_app in ND; clear -ND; induction (map fst more) as [|a r IH]; [exact ND|]; inversion ND; auto).
  destruct (query_ends bn t (more ++ ev) o W ND G) as [(_ & E')|[(_ & _ & E')|(A & C & E')]]; [congruence|congruence|].
  rewrite E in E'. inversion E'; subst l'. clear E E'.
  exists (map (fun x => np_round 4 (marginal bn t ev x)) (seq 0 (ncard bn t))). split.
  - destruct (query_ends bn t ev o W ND' G) as [(B & _)|[(_ & B & _)|(_ & _ & B)]]; [|exfalso; apply B|exact B].
    + destruct B. destruct A as [A1 A2]. split; [assumption|]. intros v x H. apply A2. apply in_or_app. now right.
    + revert C. apply connected_fewer. intros v. cbn. rewrite map_app, in_app_iff. tauto.
  - induction (seq 0 (ncard bn t)); cbn [map]; constructor; [|assumption]. now apply np_round_mono, marginal_more.
Qed.
Print Assumptions C143_more_evidence.

(** ** The answers depend on the joint distribution only, not on how it is factored *)
Definition same_joint (bn1 bn2 : bayesnet) : Prop :=
  Permutation (bn_V bn1) (bn_V bn2) /\
  (forall v, In v (bn_V bn1) -> nvalues bn1 v = nvalues bn2 v) /\
  forall a, valid (ncard bn1) (bn_V bn1) a -> joint bn1 a = joint bn2 a.
Lemma ncard_values bn v : ncard bn v = length (nvalues bn v).
Proof. unfold ncard, nvalues. now destruct (dget _ _). Qed.
Lemma sum_over_cards cd1 cd2 vs phi a : (forall v, In v vs -> cd1 v = cd2 v) -> sum_over cd1 vs phi a = sum_over cd2 vs phi a.
Proof.
  revert a. induction vs as [|v r IH]; intros a H; [reflexivity|]. cbn [sum_over]. unfold sum_values.
  rewrite (H v) by now left. apply qsum_map_ext. intros x _. apply IH. intros w Hw. apply H. now right.
Qed.
Lemma marginal_same_joint bn1 bn2 t ev i : wfnet bn1 -> wfnet bn2 -> same_joint bn1 bn2 -> answerable bn1 t ev ->
  marginal bn1 t ev i = marginal bn2 t ev i.
Proof.
  intros W1 W2 (P & Vs & J) [A1 A2]. unfold marginal, prob_of.
  assert (Cd : forall v, In v (bn_V bn1) -> ncard bn1 v = ncard bn2 v).
  { intros v Hv. rewrite !ncard_values. f_equal. now apply Vs. }
  rewrite (sum_over_cards _ (ncard bn2) (bn_V bn1)) by assumption.
  assert (Ex : ext (fun a => if (a t =? i) && agrees bn2 ev a then joint bn2 a else 0%Qc)).
  { intros a b H. rewrite (agrees_ext bn2 ev a b H), (joint_ext bn2 a b H), (H t). reflexivity. }
  rewrite <- (sum_over_perm (ncard bn2) (bn_V bn1) (bn_V bn2) _ _ Ex); [|apply W1|assumption].
  apply sum_over_congr. intros b _ Vb. specialize (Vb (wn_V _ W1)).
  assert (Ea : agrees bn1 ev b = agrees bn2 ev b).
  { unfold agrees, val_index. clear -A2 Vs. induction ev as [|[v x] r IH]; [reflexivity|]. cbn [forallb fst snd].
    destruct (A2 v x (or_introl eq_refl)) as (Hv & _). rewrite (Vs v Hv). f_equal. apply IH. intros w y H. apply A2. now right. }
  rewrite Ea, (J b); [reflexivity|]. intros v Hv. rewrite (Cd v Hv). now apply Vb.
Qed.
Theorem C143_joint_decides_marginals : forall bn1 bn2 t ev o1 o2 l1 l2, wfnet bn1 -> wfnet bn2 -> good o1 -> good o2 ->
  same_joint bn1 bn2 -> NoDup (map fst ev) ->
  marginal_ve_e o1 bn1 t ev = Ok l1 -> marginal_ve_e o2 bn2 t ev = Ok l2 -> l1 = l2.
Proof.
  intros bn1 bn2 t ev o1 o2 l1 l2 W1 W2 G1 G2 S ND E1 E2.
  destruct (query_ends bn1 t ev o1 W1 ND G1) as [(_ & E')|[(_ & _ & E')|(A & _ & E')]]; [congruence|congruence|].
  destruct (query_ends bn2 t ev o2 W2 ND G2) as [(_ & E'')|[(_ & _ & E'')|(A' & _ & E'')]]; [congruence|congruence|].
  rewrite E1 in E'. rewrite E2 in E''. inversion E'. inversion E''. clear E' E''.
  assert (Ec : ncard bn1 t = ncard bn2 t).
  { destruct S as (_ & Vs & _). rewrite !ncard_values. f_equal. apply Vs, A. }
  rewrite Ec. apply map_ext. intros i. now rewrite (marginal_same_joint bn1 bn2).
Qed.
Print Assumptions C143_joint_decides_marginals.
(** the most probable explanations are the same too: each network's explanation is as probable in
    the other network as the other's own *)
Lemma same_joint_asg bn1 bn2 m : same_joint bn1 bn2 -> forall v, In v (bn_V bn1) -> asg_of bn1 m v = asg_of bn2 m v.
Proof. intros (_ & Vs & _) v Hv. unfold asg_of, val_index. now rewrite (Vs v Hv). Qed.
Lemma asg_of_valid bn m : wfnet bn -> (forall v, In v (bn_V bn) -> exists x, dget m v = Some x /\ In x (nvalues bn v)) ->
  valid (ncard bn) (bn_V bn) (asg_of bn m).
Proof.
  intros W H v Hv. destruct (H v Hv) as (x & Hx & Ix). unfold asg_of, val_index. rewrite Hx.
  destruct (index_of_In _ _ Ix) as (i & Hi). rewrite Hi, ncard_values. now apply index_of_lt in Hi.
Qed.
Lemma asg_of_agrees bn ev m : good_evidence bn ev -> (forall v x, In (v, x) ev -> dget m v = Some x) -> agrees bn ev (asg_of bn m) = true.
Proof.
  intros [_ GE] H. unfold agrees. apply forallb_forall. intros [v x] K. cbn [fst snd]. destruct (GE v x K) as [_ Ix].
  unfold asg_of, val_index. rewrite (H v x K). destruct (index_of_In _ _ Ix) as (i & Hi). rewrite Hi. apply Nat.eqb_refl.
Qed.
Lemma joint_cong bn a b : wfnet bn -> (forall v, In v (bn_V bn) -> a v = b v) -> joint bn a = joint bn b.
Proof.
  intros W H. unfold joint. f_equal. apply map_ext_in. intros v Hv. f_equal. unfold cond_prob. f_equal.
  assert (I : forall w, In w (v :: nparents bn v) -> a w = b w) by (intros w [<-|Hw]; apply H; [assumption|now apply (wn_par _ W v)]).
  revert I. generalize (v :: nparents bn v). intros l I. induction l as [|w r IH]; cbn [radix]; [reflexivity|].
  rewrite (I w) by now left. rewrite IH; [reflexivity|]. intros u Hu. apply I. now right.
Qed.
Theorem C143_joint_decides_maxima : forall bn1 bn2 ev o1 o2 m1 m2, wfnet bn1 -> wfnet bn2 -> nonneg_net bn1 -> nonneg_net bn2 ->
  good o1 -> good o2 -> same_joint bn1 bn2 -> good_evidence bn1 ev ->
  ve_map o1 bn1 ev = Ok m1 -> ve_map o2 bn2 ev = Ok m2 ->
  joint bn1 (asg_of bn1 m1) = joint bn1 (asg_of bn1 m2) /\ joint bn1 (asg_of bn1 m1) = joint bn2 (asg_of bn2 m2).
Proof.
  intros bn1 bn2 ev o1 o2 m1 m2 W1 W2 N1 N2 G1 G2 S GE E1 E2. pose proof S as (P & Vs & J).
  assert (GE2 : good_evidence bn2 ev).
  { destruct GE as [K1 K2]. split; [assumption|]. intros v x H. destruct (K2 v x H) as [B1 B2].
    split; [now apply (Permutation_in _ P)|now rewrite <- (Vs v B1)]. }
  destruct (C16_ve_map bn1 ev o1 W1 N1 GE G1) as (m & E & V1 & A1 & O1). rewrite E1 in E. inversion E; subst m. clear E.
  destruct (C16_ve_map bn2 ev o2 W2 N2 GE2 G2) as (m & E & V2 & A2 & O2). rewrite E2 in E. inversion E; subst m. clear E.
  assert (V21 : forall v, In v (bn_V bn1) -> exists x, dget m2 v = Some x /\ In x (nvalues bn1 v)).
  { intros v Hv. destruct (V2 v (Permutation_in _ P Hv)) as (x & B1 & B2). exists x. now rewrite (Vs v Hv). }
  assert (V12 : forall v, In v (bn_V bn2) -> exists x, dget m1 v = Some x /\ In x (nvalues bn2 v)).
  { intros v Hv. apply (Permutation_in _ (Permutation_sym P)) in Hv. destruct (V1 v Hv) as (x & B1 & B2). exists x. now rewrite <- (Vs v Hv). }
  assert (K2 : joint bn1 (asg_of bn1 m2) = joint bn2 (asg_of bn2 m2)).
  { rewrite J by now apply asg_of_valid. apply joint_cong; [assumption|]. intros v Hv. apply same_joint_asg; [assumption|].
    now apply (Permutation_in _ (Permutation_sym P)). }
  assert (K1 : joint bn1 (asg_of bn1 m1) = joint bn2 (asg_of bn2 m1)).
  { rewrite J by now apply asg_of_valid. apply joint_cong; [assumption|]. intros v Hv. apply same_joint_asg; [assumption|].
    now apply (Permutation_in _ (Permutation_sym P)). }
  assert (Q : joint bn1 (asg_of bn1 m1) = joint bn1 (asg_of bn1 m2)).
  { apply Qcle_antisym.
    - rewrite K1, K2. apply O2; [now apply asg_of_valid|now apply asg_of_agrees].
    - apply O1; [now apply asg_of_valid|now apply asg_of_agrees]. }
  split; [assumption|]. now rewrite Q.
Qed.
Print Assumptions C143_joint_decides_maxima.

(** ** Concrete cases *)
(** the chain A -> B -> C and the same distribution with the first edge turned round *)
Definition exCh1 : bayesnet := mkBN [exA; exB; exC] [(exA, [exB]); (exB, [exC]); (exC, [])]
  [(exA, mkF [] [nm "0"; nm "1"] [qq 2 5; qq 3 5]);
   (exB, mkF [exA] [nm "0"; nm "1"] [qq 1 1; qq 0 1; qq 1 2; qq 1 2]);
   (exC, mkF [exB] [nm "0"; nm "1"] [qq 3 4; qq 1 4; qq 1 5; qq 4 5])].
Definition exCh2 : bayesnet := mkBN [exB; exA; exC] [(exB, [exA; exC]); (exA, []); (exC, [])]
  [(exB, mkF [] [nm "0"; nm "1"] [qq 7 10; qq 3 10]);
   (exA, mkF [exB] [nm "0"; nm "1"] [qq 4 7; qq 3 7; qq 0 1; qq 1 1]);
   (exC, mkF [exB] [nm "0"; nm "1"] [qq 3 4; qq 1 4; qq 1 5; qq 4 5])].
Example C143_nonvacuous :
  wfnet exCh1 /\ wfnet exCh2 /\ same_joint exCh1 exCh2 /\ bn_E exCh1 <> bn_E exCh2 /\
  (exists l, marginal_ve_e id_oracle exCh1 exC [] = Ok l /\ marginal_ve_e rev_oracle exCh2 exC [] = Ok l /\ map this l = [117 # 200; 83 # 200]%Q) /\
  (exists l1 l2, marginal_ve_e id_oracle ex3 exB [(exC, nm "1")] = Ok l1 /\ marginal_ve_e rev_oracle ex3 exC [(exB, nm "2")] = Ok l2 /\
     map this l1 = [39 # 125; 73 # 500; 9 # 50]%Q /\ map this l2 = [21 # 100; 9 # 50]%Q) /\
  (exists l, marginal_ve_e id_oracle ex3 exC [] = Ok l /\ map this l = [181 # 500; 319 # 500]%Q).
Proof.
  split; [apply wfnetb_ok; vm_compute; reflexivity|]. split; [apply wfnetb_ok; vm_compute; reflexivity|]. split.
  { split; [apply perm_swap|]. split; [intros v [<-|[<-|[<-|[]]]]; reflexivity|]. intros a V.
    pose proof (V exA (or_introl eq_refl)) as H1. pose proof (V exB (or_intror (or_introl eq_refl))) as H2.
    pose proof (V exC (or_intror (or_intror (or_introl eq_refl)))) as H3.
    change (a exA < 2) in H1. change (a exB < 2) in H2. change (a exC < 2) in H3.
    unfold joint, cond_prob, radix. cbn. fold exA exB exC. change (a (nm "A")) with (a exA). change (a (nm "B")) with (a exB). change (a (nm "C")) with (a exC).
    destruct (a exA) as [|[|]]; [| |lia]; (destruct (a exB) as [|[|]]; [| |lia]); (destruct (a exC) as [|[|]]; [| |lia]);
      apply Qc_is_canon; vm_compute; reflexivity. }
  split; [discriminate|]. split; [|split].
  - eexists. split; [vm_compute; reflexivity|]. split; vm_compute; reflexivity.
  - eexists. eexists. split; [vm_compute; reflexivity|]. split; [vm_compute; reflexivity|]. split; vm_compute; reflexivity.
  - eexists. split; vm_compute; reflexivity.
Qed.
