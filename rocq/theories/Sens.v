(** Sens.v -- bounds on the change of probabilities when the tables change. *)
From Verif Require Import Py Num BayesNet Factor SpecFactor Radix SumOver FactorMul FactorOut FactorMore FactorLaws Rounding Factorization SpecInference VE VEShape VETotal LawMain SpecSens.
Open Scope nat_scope.

Lemma qabs_pos x : (0 <= x)%Qc -> qabs x = x.
Proof. intros H. unfold qabs, qmax. destruct (Qclt_le_dec x (- x)%Qc) as [L|L]; [exfalso; qclra|reflexivity]. Qed.
Lemma qabs_le x y : (qabs x <= y)%Qc <-> (x <= y /\ - x <= y)%Qc.
Proof.
  unfold qabs, qmax. destruct (Qclt_le_dec x (- x)%Qc) as [L|L]; split; intros H.
  - split; qclra.
  - tauto.
  - split; [assumption|]. qclra.
  - tauto.
Qed.
Lemma qabs_nonneg x : (0 <= qabs x)%Qc.
Proof. unfold qabs, qmax. destruct (Qclt_le_dec x (- x)%Qc); qclra. Qed.
Lemma qabs_ge x : (x <= qabs x /\ - x <= qabs x)%Qc.
Proof. apply qabs_le. apply Qcle_refl. Qed.

Lemma NoDup_app_l {A} (l m : list A) : NoDup (l ++ m) -> NoDup l.
Proof. induction l as [|x l IH]; simpl; intros H; [constructor|]. inversion H; subst. constructor; [|auto]. intros I. apply H2. apply in_or_app. auto. Qed.

Lemma sum_over_mono cd vs phi psi : NoDup vs -> forall a,
  (forall b, (forall w, ~ In w vs -> b w = a w) -> valid cd vs b -> phi b <= psi b)%Qc -> (sum_over cd vs phi a <= sum_over cd vs psi a)%Qc.
Proof.
  intros ND a H. assert (Q : (0 <= sum_over cd vs (fun b => psi b + (- (1)) * phi b) a)%Qc).
  { apply sum_over_nonneg. intros b Hb V. specialize (H b Hb (V ND)). revert H. generalize (phi b) (psi b). intros; qclra. }
  rewrite sum_over_plus, sum_over_scale in Q. revert Q. generalize (sum_over cd vs phi a) (sum_over cd vs psi a). intros; qclra.
Qed.

(** summing a product of nonnegative local weights along a topological order *)
Lemma topo_le cd V (w : name -> asg -> Qc) (par : name -> list name) (s : name -> Qc) :
  (forall v a b, (forall u, In u (v :: par v) -> a u = b u) -> w v a = w v b) ->
  (forall v a, In v V -> valid cd V a -> 0 <= w v a)%Qc ->
  (forall v a, In v V -> valid cd V a -> qsum (map (fun x => w v (upd a v x)) (seq 0 (cd v))) <= s v)%Qc ->
  forall p, NoDup p -> incl p V -> (forall p1 v q1, p = p1 ++ v :: q1 -> incl (par v) p1) ->
  forall a, valid cd V a -> (sum_over cd p (fun b => qprod (map (fun v => w v b) p)) a <= qprod (map s p))%Qc.
Proof.
  intros Loc NN Row p. induction p as [|v p IH] using rev_ind; intros ND Inc T a Va; [apply Qcle_refl|].
  pose proof (NoDup_app_l _ _ ND) as NDp.
  assert (Np : ~ In v p). { apply NoDup_remove_2 in ND. rewrite app_nil_r in ND. assumption. }
  assert (Hv : In v V) by (apply Inc; apply in_or_app; simpl; auto).
  assert (IncP : incl p V) by (intros u Hu; apply Inc; apply in_or_app; auto).
  assert (Tp : forall p1 u q1, p = p1 ++ u :: q1 -> incl (par u) p1).
  { intros p1 u q1 E. apply (T p1 u (q1 ++ [v])). rewrite E, <- app_assoc. reflexivity. }
  specialize (IH NDp IncP Tp a Va). rewrite sum_over_app.
  assert (S0 : (0 <= s v)%Qc).
  { eapply Qcle_trans; [|apply (Row v a Hv Va)]. apply qsum_nonneg. intros y Hy. apply in_map_iff in Hy as (x & <- & Hx). apply in_seq in Hx.
    apply NN; [assumption|]. apply valid_upd'; [lia|assumption]. }
  apply Qcle_trans with (sum_over cd p (fun b => s v * qprod (map (fun u => w u b) p))%Qc a).
  - apply sum_over_mono; [assumption|]. intros b Hb Vb. simpl. unfold sum_values.
    assert (VB : valid cd V b).
    { intros u Hu. destruct (in_dec name_eq_dec u p) as [I|I]; [now apply Vb|]. rewrite Hb by assumption. now apply Va. }
    apply Qcle_trans with (qsum (map (fun x => qprod (map (fun u => w u b) p) * w v (upd b v x))%Qc (seq 0 (cd v)))).
    + match goal with |- (?x <= ?y)%Qc => assert (EQ : x = y); [|rewrite EQ; apply Qcle_refl] end. apply qsum_map_ext. intros x _. rewrite map_app, qprod_app. simpl. rewrite Qcmult_1_r. f_equal.
      apply qprod_map_ext. intros u Hu. apply Loc. intros y Hy. apply upd_other. intros ->. apply in_split in Hu as (p1 & q1 & ->).
      destruct Hy as [->|Hy]; [apply Np; apply in_or_app; simpl; auto|]. apply Np. apply in_or_app. left. now apply (Tp p1 u q1).
    + rewrite qsum_map_mult_l. rewrite (Qcmult_comm (s v)). rewrite !(Qcmult_comm (qprod _)). apply Qcmult_le_compat_r; [now apply Row|].
      apply qprod_nonneg. intros y Hy. apply in_map_iff in Hy as (u & <- & Hu). apply NN; [now apply IncP|assumption].
  - rewrite sum_over_scale, map_app, qprod_app. simpl. rewrite Qcmult_1_r, (Qcmult_comm (s v)).
    apply Qcmult_le_compat_r; assumption.
Qed.

(** |prod x' - prod x| <= prod (x + |x'-x|) - prod x *)
Lemma prod_gap {A} (f g : A -> Qc) l : (forall v, In v l -> 0 <= f v /\ 0 <= g v)%Qc ->
  (qabs (qprod (map g l) - qprod (map f l)) <= qprod (map (fun v => f v + qabs (f v - g v)) l) - qprod (map f l))%Qc.
Proof.
  induction l as [|v l IH]; intros H.
  - simpl. rewrite qabs_le. split; qclra.
  - specialize (IH (fun u Hu => H u (or_intror Hu))). cbn [map]. change (qprod (?x :: ?l)) with (x * qprod l)%Qc.
    destruct (H v (or_introl eq_refl)) as [F G]. pose proof (qabs_ge (f v - g v)) as [D1 D2]. rewrite qabs_le in IH. destruct IH as [I1 I2].
    assert (PF : (0 <= qprod (map f l))%Qc). { apply qprod_nonneg. intros y Hy. apply in_map_iff in Hy as (u & <- & Hu). apply H. now right. }
    assert (PG : (0 <= qprod (map g l))%Qc). { apply qprod_nonneg. intros y Hy. apply in_map_iff in Hy as (u & <- & Hu). apply H. now right. }
    pose proof (qabs_nonneg (f v - g v)) as D0.
    generalize dependent (qabs (f v - g v)). generalize dependent (qprod (map f l)). generalize dependent (qprod (map g l)).
    generalize (qprod (map (fun u => f u + qabs (f u - g u)) l))%Qc. generalize dependent (f v). generalize dependent (g v).
    clear. intros g G f F M q PG p I1 I2 PF d D1 D2 D0.
    assert (A1 : (0 <= (f + d) * (M - p - (q - p)))%Qc) by (apply Qcmult_nonneg; qclra).
    assert (A2 : (0 <= f * (M - p - - (q - p)))%Qc) by (apply Qcmult_nonneg; qclra).
    assert (A3 : (0 <= (f + d - g) * q)%Qc) by (apply Qcmult_nonneg; qclra).
    assert (A4 : (0 <= (g - f + d) * q)%Qc) by (apply Qcmult_nonneg; qclra).
    assert (A5 : (0 <= d * (M - p - (q - p)))%Qc) by (apply Qcmult_nonneg; qclra).
    rewrite qabs_le. split.
    + assert (E : ((f + d) * M - f * p - (g * q - f * p))%Qc = (((f+d)*(M - p - (q-p))) + (f + d - g) * q)%Qc) by ring.
      assert (Z : (0 <= (f + d) * M - f * p - (g * q - f * p))%Qc) by (rewrite E; qclra). qclra.
    + assert (E : ((f + d) * M - f * p - - (g * q - f * p))%Qc = (f * (M - p - - (q - p)) + d * (M - p - (q - p)) + (g - f + d) * q)%Qc) by ring.
      assert (Z : (0 <= (f + d) * M - f * p - - (g * q - f * p))%Qc) by (rewrite E; qclra). qclra.
Qed.

Lemma sum_over_cd cd cd' vs phi : (forall v, In v vs -> cd v = cd' v) -> forall a, sum_over cd vs phi a = sum_over cd' vs phi a.
Proof.
  induction vs as [|v r IH]; intros H a; simpl; [reflexivity|]. unfold sum_values. rewrite (H v) by now left.
  apply qsum_map_ext. intros x _. apply IH. intros u Hu. apply H. now right.
Qed.

Lemma prefix_rest (V p : list name) : NoDup V -> NoDup p -> incl p V -> exists q, Permutation (p ++ q) V.
Proof.
  intros NV. revert V NV. induction p as [|v p IH]; intros V NV Np I; [exists V; reflexivity|]. inversion Np; subst.
  destruct (in_split v V (I v (or_introl eq_refl))) as (l1 & l2 & ->).
  destruct (IH (l1 ++ l2)) as (q & Q); [now apply NoDup_remove_1 in NV|assumption| |].
  - intros u Hu. assert (Iu := I u (or_intror Hu)). rewrite in_app_iff in *. destruct Iu as [|[->|]]; auto. contradiction.
  - exists q. simpl. rewrite Q. apply Permutation_middle.
Qed.

Section Pair.
  Variables x y : bayesnet.
  Hypothesis Wx : wfnet x.
  Hypothesis Wy : wfnet y.
  Hypothesis SF : same_frame x y.
  Notation V := (bn_V x).
  Notation cd := (ncard x).
  Definition cpx v a := getq (cond_prob x v a).
  Definition cpy v a := getq (cond_prob y v a).

  Lemma VV : bn_V y = V. Proof. now destruct SF. Qed.
  Lemma cpx_loc v a b : (forall u, In u (v :: nparents x v) -> a u = b u) -> cpx v a = cpx v b.
  Proof. intros H. unfold cpx. f_equal. now apply cond_prob_ext. Qed.
  Lemma cpy_loc v a b : In v V -> (forall u, In u (v :: nparents x v) -> a u = b u) -> cpy v a = cpy v b.
  Proof. intros Hv H. unfold cpy. f_equal. apply cond_prob_ext. destruct SF as [_ F]. destruct (F v Hv) as [<- _]. assumption. Qed.

  Hypothesis Nx : nonneg_net x.
  Hypothesis Ny : nonneg_net y.
  Lemma cpx_nn v a : In v V -> (0 <= cpx v a)%Qc. Proof. intros. now apply cond_prob_nonneg. Qed.
  Lemma cpy_nn v a : In v V -> (0 <= cpy v a)%Qc. Proof. intros. apply cond_prob_nonneg; [assumption|]. now rewrite VV. Qed.

  Lemma joint_x a : joint x a = qprod (map (fun v => cpx v a) V). Proof. reflexivity. Qed.
  Lemma joint_y a : joint y a = qprod (map (fun v => cpy v a) V). Proof. unfold joint. now rewrite VV. Qed.
  Lemma prob_y c : prob_of y c = sum_over cd V (fun a => if c a then joint y a else 0%Qc) (fun _ => 0).
  Proof. unfold prob_of. rewrite VV. apply sum_over_cd. intros v Hv. destruct SF as [_ F]. destruct (F v Hv). now symmetry. Qed.
  Lemma valid_y a : valid (ncard y) (bn_V y) a <-> valid cd V a.
  Proof.
    rewrite VV. destruct SF as [_ F]. unfold valid. split; intros H v Hv; [destruct (F v Hv) as [_ ->]|destruct (F v Hv) as [_ <-]]; now apply H.
  Qed.

  (** the total variation *)
  Definition tv : Qc := sum_over cd V (fun a => qabs (joint y a - joint x a)) (fun _ => 0).

  Lemma tv_prob c : (qabs (prob_of y c - prob_of x c) <= tv)%Qc.
  Proof.
    rewrite prob_y. unfold prob_of, tv. rewrite qabs_le. split.
    - assert (M : (sum_over cd V (fun a => if c a then joint y a else 0) (fun _ => 0%nat) <=
        sum_over cd V (fun a => (if c a then joint x a else 0) + qabs (joint y a - joint x a)) (fun _ => 0%nat))%Qc).
      { apply sum_over_mono; [apply Wx|]. intros b _ _. destruct (qabs_ge (joint y b - joint x b)) as [A B].
        pose proof (qabs_nonneg (joint y b - joint x b)) as C. destruct (c b); qclra. }
      rewrite sum_over_plus in M. revert M. generalize (sum_over cd V (fun a => if c a then joint y a else 0) (fun _ => 0%nat))%Qc.
      generalize (sum_over cd V (fun a => if c a then joint x a else 0) (fun _ => 0%nat))%Qc. generalize (sum_over cd V (fun a => qabs (joint y a - joint x a)) (fun _ => 0%nat))%Qc.
      intros; qclra.
    - assert (M : (sum_over cd V (fun a => if c a then joint x a else 0) (fun _ => 0%nat) <=
        sum_over cd V (fun a => (if c a then joint y a else 0) + qabs (joint y a - joint x a)) (fun _ => 0%nat))%Qc).
      { apply sum_over_mono; [apply Wx|]. intros b _ _. destruct (qabs_ge (joint y b - joint x b)) as [A B].
        pose proof (qabs_nonneg (joint y b - joint x b)) as C. destruct (c b); qclra. }
      rewrite sum_over_plus in M. revert M. generalize (sum_over cd V (fun a => if c a then joint y a else 0) (fun _ => 0%nat))%Qc.
      generalize (sum_over cd V (fun a => if c a then joint x a else 0) (fun _ => 0%nat))%Qc. generalize (sum_over cd V (fun a => qabs (joint y a - joint x a)) (fun _ => 0%nat))%Qc.
      intros; qclra.
  Qed.
  (** equal totals: an event differs by at most half of it *)
  Lemma tv_half c : sum_over cd V (joint x) (fun _ => 0) = 1%Qc -> sum_over cd V (joint y) (fun _ => 0) = 1%Qc -> ((1 + 1) * qabs (prob_of y c - prob_of x c) <= tv)%Qc.
  Proof.
    intros TX TY. rewrite prob_y. unfold prob_of, tv.
    assert (HS : exists s : (asg -> Qc) -> Qc, forall phi, sum_over cd V phi (fun _ => 0) = s phi) by (exists (fun phi => sum_over cd V phi (fun _ => 0)); reflexivity).
    destruct HS as [s HS]. rewrite HS in TX, TY. rewrite !HS.
    assert (Sp : forall phi psi, s (fun b => phi b + psi b)%Qc = (s phi + s psi)%Qc) by (intros; rewrite <- !HS; apply sum_over_plus).
    assert (Sc : forall k phi, s (fun b => k * phi b)%Qc = (k * s phi)%Qc) by (intros; rewrite <- !HS; apply sum_over_scale).
    assert (Sm : forall phi psi, (forall b, phi b <= psi b)%Qc -> (s phi <= s psi)%Qc) by (intros phi psi H; rewrite <- !HS; apply sum_over_mono; [apply Wx|auto]).
    pose proof (Sm (fun b => (1 + 1) * (if c b then joint y b else 0) + ((- (1)) * joint y b + ((- (1 + 1)) * (if c b then joint x b else 0) + joint x b)))%Qc (fun b => qabs (joint y b - joint x b))) as M1.
    pose proof (Sm (fun b => (- (1 + 1)) * (if c b then joint y b else 0) + (joint y b + ((1 + 1) * (if c b then joint x b else 0) + (- (1)) * joint x b)))%Qc (fun b => qabs (joint y b - joint x b))) as M2.
    assert (O1 : (this 1%Qc == 1)%Q) by reflexivity.
    rewrite !Sp, !Sc in M1, M2. rewrite TX, TY in *.
    assert (M1' := M1 ltac:(intros b; destruct (qabs_ge (joint y b - joint x b)) as [A B]; destruct (c b);
      match goal with |- (?z <= _)%Qc => first [assert (E : z = (joint y b - joint x b)%Qc) by ring | assert (E : z = (- (joint y b - joint x b))%Qc) by ring]; rewrite E; assumption end)).
    assert (M2' := M2 ltac:(intros b; destruct (qabs_ge (joint y b - joint x b)) as [A B]; destruct (c b);
      match goal with |- (?z <= _)%Qc => first [assert (E : z = (joint y b - joint x b)%Qc) by ring | assert (E : z = (- (joint y b - joint x b))%Qc) by ring]; rewrite E; assumption end)).
    clear M1 M2. revert M1' M2'. generalize (s (fun b => if c b then joint y b else 0%Qc)) (s (fun b => if c b then joint x b else 0%Qc)) (s (fun b => qabs (joint y b - joint x b))).
    clear - O1. intros p q t H1 H2.
    assert (K : (qabs (p - q) <= t * (1 / (1 + 1)))%Qc).
    { assert (HT : (this (1 / (1 + 1))%Qc == 1 # 2)%Q) by reflexivity. rewrite qabs_le. generalize dependent (1 / (1 + 1))%Qc. intros h HT. qc2q. split; qcnra. }
    replace t with ((1 + 1) * (t * (1 / (1 + 1))))%Qc by (field; discriminate). rewrite !(Qcmult_comm (1 + 1)). apply Qcmult_le_compat_r; [assumption|discriminate].
  Qed.
  Lemma tv_point a : valid cd V a -> (qabs (joint y a - joint x a) <= tv)%Qc.
  Proof.
    intros Va. unfold tv.
    assert (Ex : ext (fun b => qabs (joint y b - joint x b))). { intros b b' H. now rewrite (joint_ext y b b' H), (joint_ext x b b' H). }
    assert (S := sum_over_single cd V (fun b => if forallb (fun v => b v =? a v) V then qabs (joint y a - joint x a) else 0%Qc) a (qabs (joint y a - joint x a)) (wn_V _ Wx) Va (fun _ => 0)).
    rewrite <- S.
    - apply sum_over_mono; [apply Wx|]. intros b _ _. destruct (forallb _ V) eqn:E; [|apply qabs_nonneg].
      assert (EE : joint y a = joint y b /\ joint x a = joint x b); [|destruct EE as [-> ->]; apply Qcle_refl].
      rewrite forallb_forall in E. split.
      + rewrite !joint_y. apply qprod_map_ext. intros v Hv. apply cpy_loc; [assumption|]. intros u Hu. symmetry. apply Nat.eqb_eq, E.
        destruct Hu as [<-|Hu]; [assumption|]. exact (wn_par _ Wx v Hv u Hu).
      + rewrite !joint_x. apply qprod_map_ext. intros v Hv. apply cpx_loc. intros u Hu. symmetry. apply Nat.eqb_eq, E.
        destruct Hu as [<-|Hu]; [assumption|]. exact (wn_par _ Wx v Hv u Hu).
    - intros b _ _ E. destruct (forallb _ V) eqn:F; [reflexivity|]. exfalso. rewrite <- not_true_iff_false in F. apply F. apply forallb_forall. intros v Hv. apply Nat.eqb_eq. now apply E.
    - intros b _ _ (v & Hv & Ne). destruct (forallb _ V) eqn:F; [|reflexivity]. exfalso. apply Ne. apply Nat.eqb_eq. rewrite forallb_forall in F. now apply F.
  Qed.

  Section Dist.
  Variable e : name -> Qc.
  Hypothesis Hx : normalised x.
  Hypothesis HA : acyclic_net x.
  Hypothesis HE : rows_within x y e.

  Lemma gap_loc v a b : In v V -> (forall u, In u (v :: nparents x v) -> a u = b u) -> gap x y v a = gap x y v b.
  Proof. intros Hv H. unfold gap. fold (cpx v a) (cpy v a) (cpx v b) (cpy v b). now rewrite (cpx_loc v a b H), (cpy_loc v a b Hv H). Qed.

  (** restrict a local weight to nodes of the network, to have it local everywhere *)
  Definition onV (w : name -> asg -> Qc) (v : name) (a : asg) : Qc := if in_dec name_eq_dec v V then w v a else 0%Qc.
  Lemma onV_in w v a : In v V -> onV w v a = w v a.
  Proof. intros H. unfold onV. now destruct (in_dec name_eq_dec v V). Qed.
  Lemma onV_prod w l a : incl l V -> qprod (map (fun v => onV w v a) l) = qprod (map (fun v => w v a) l).
  Proof. intros H. apply qprod_map_ext. intros v Hv. now apply onV_in, H. Qed.

  Lemma tv_product : (tv <= qprod (map (fun v => 1 + e v) V) - 1)%Qc.
  Proof.
    destruct HA as (ord & P & T). unfold tv.
    assert (T1 : (sum_over cd V (fun a => qabs (joint y a - joint x a)) (fun _ => 0%nat) <=
       sum_over cd V (fun a => qprod (map (fun v => onV (fun v a => cpx v a + gap x y v a) v a) V) + (- (1)) * joint x a) (fun _ => 0%nat))%Qc).
    { apply sum_over_mono; [apply Wx|]. intros b _ _. rewrite (onV_prod _ V b (incl_refl _)). rewrite joint_y, joint_x.
      pose proof (prod_gap (fun v => cpx v b) (fun v => cpy v b) V (fun v Hv => conj (cpx_nn v b Hv) (cpy_nn v b Hv))) as G.
      unfold gap. fold (cpx) (cpy). cbv beta in G.
      match goal with |- (_ <= ?A + _)%Qc => match type of G with (_ <= ?B - _)%Qc => change A with B end end. revert G.
      generalize (qprod (map (fun v : name => (cpx v b + qabs (cpx v b - cpy v b))%Qc) V)) (qprod (map (fun v => cpx v b) V)) (qprod (map (fun v => cpy v b) V)). intros; qclra. }
    rewrite sum_over_plus, sum_over_scale, joint_total in T1 by (try assumption; exists ord; split; assumption).
    assert (T2 : (sum_over cd V (fun a => qprod (map (fun v => onV (fun v a => cpx v a + gap x y v a) v a) V)) (fun _ => 0%nat) <= qprod (map (fun v => 1 + e v) V))%Qc).
    { assert (Loc : forall v a b, (forall u, In u (v :: nparents x v) -> a u = b u) ->
        onV (fun v a => cpx v a + gap x y v a)%Qc v a = onV (fun v a => cpx v a + gap x y v a)%Qc v b).
      { intros v a b H. unfold onV. destruct (in_dec name_eq_dec v V) as [I|]; [|reflexivity]. now rewrite (cpx_loc v a b H), (gap_loc v a b I H). }
      rewrite (sum_over_perm _ _ ord); [| |apply Wx|now symmetry].
      - rewrite (sum_over_congr cd ord _ (fun a => qprod (map (fun v => onV (fun v a => cpx v a + gap x y v a)%Qc v a) ord))).
        + rewrite (qprod_perm (map (fun v => 1 + e v)%Qc V) (map (fun v => 1 + e v)%Qc ord)) by (apply Permutation_map; now symmetry).
          apply (topo_le cd V _ (nparents x) (fun v => 1 + e v)%Qc Loc).
          * intros v a Hv _. rewrite onV_in by assumption. pose proof (cpx_nn v a Hv). pose proof (qabs_nonneg (getq (cond_prob x v a) - getq (cond_prob y v a))). unfold gap. qclra.
          * intros v a Hv Va. rewrite (qsum_map_ext _ (fun k => cpx v (upd a v k) + gap x y v (upd a v k))%Qc) by (intros; now apply onV_in).
            rewrite qsum_map_plus. unfold cpx at 1. rewrite (Hx v a Hv Va). specialize (HE v a Hv Va). unfold row_gap in HE.
            generalize dependent (qsum (map (fun k => gap x y v (upd a v k)) (seq 0 (cd v)))). intros; qclra.
          * eapply Permutation_NoDup; [symmetry; exact P|apply Wx].
          * intros v Hv. now apply (Permutation_in _ P).
          * exact T.
          * now apply valid_zero.
        + intros b _ _. apply qprod_perm. apply Permutation_map. now symmetry.
      - intros a b H. apply qprod_map_ext. intros v Hv. apply Loc. auto. }
    revert T1 T2. generalize (sum_over cd V (fun a => qprod (map (fun v => onV (fun v a => cpx v a + gap x y v a)%Qc v a) V)) (fun _ => 0%nat)).
    generalize (sum_over cd V (fun a => qabs (joint y a - joint x a)) (fun _ => 0%nat)). generalize (qprod (map (fun v => 1 + e v)%Qc V)). assert (O1 : (this 1%Qc == 1)%Q) by reflexivity. intros; qclra.
  Qed.

  (** both normalised: the gaps add up *)
  Lemma topo_tv : normalised y -> forall p, NoDup p -> incl p V -> (forall p1 v q1, p = p1 ++ v :: q1 -> incl (nparents x v) p1) ->
    forall a, valid cd V a -> (sum_over cd p (fun b => qabs (qprod (map (fun v => cpy v b) p) - qprod (map (fun v => cpx v b) p))) a <= qsum (map e p))%Qc.
  Proof.
    intros Hy p. induction p as [|v p IH] using rev_ind; intros ND Inc T a Va.
    { cbn [sum_over map]. apply qabs_le. change (qprod []) with 1%Qc. change (qsum []) with 0%Qc. split; qclra. }
    pose proof (NoDup_app_l _ _ ND) as NDp.
    assert (Np : ~ In v p). { apply NoDup_remove_2 in ND. rewrite app_nil_r in ND. assumption. }
    assert (Hv : In v V) by (apply Inc; apply in_or_app; simpl; auto).
    assert (IncP : incl p V) by (intros u Hu; apply Inc; apply in_or_app; auto).
    assert (Tp : forall p1 u q1, p = p1 ++ u :: q1 -> incl (nparents x u) p1).
    { intros p1 u q1 E. apply (T p1 u (q1 ++ [v])). rewrite E, <- app_assoc. reflexivity. }
    specialize (IH NDp IncP Tp a Va). rewrite sum_over_app.
    apply Qcle_trans with (sum_over cd p (fun b => qabs (qprod (map (fun u => cpy u b) p) - qprod (map (fun u => cpx u b) p)) + e v * qprod (map (fun u => cpx u b) p))%Qc a).
    - apply sum_over_mono; [assumption|]. intros b Hb Vb. simpl. unfold sum_values.
      assert (VB : valid cd V b).
      { intros u Hu. destruct (in_dec name_eq_dec u p) as [I|I]; [now apply Vb|]. rewrite Hb by assumption. now apply Va. }
      set (Q := qprod (map (fun u => cpy u b) p)). set (R := qprod (map (fun u => cpx u b) p)).
      assert (PR : (0 <= R)%Qc). { apply qprod_nonneg. intros z Hz. apply in_map_iff in Hz as (u & <- & Hu). now apply cpx_nn, IncP. }
      apply Qcle_trans with (qsum (map (fun k => qabs (Q - R) * cpy v (upd b v k) + R * gap x y v (upd b v k))%Qc (seq 0 (cd v)))).
      + apply qsum_le. intros k _. rewrite !map_app, !qprod_app.
        assert (EQ : qprod (map (fun u => cpy u (upd b v k)) p) = Q /\ qprod (map (fun u => cpx u (upd b v k)) p) = R).
        { split; apply qprod_map_ext; intros u Hu; [apply cpy_loc; [now apply IncP|]|apply cpx_loc];
          intros w Hw; apply upd_other; intros ->; apply in_split in Hu as (p1 & q1 & ->);
          (destruct Hw as [->|Hw]; [apply Np; apply in_or_app; simpl; auto|]; apply Np; apply in_or_app; left; now apply (Tp p1 u q1)). }
        destruct EQ as [-> ->]. cbn [map]. change (qprod [?z]) with (z * 1)%Qc. rewrite !Qcmult_1_r.
        pose proof (cpy_nn v (upd b v k) Hv) as G. unfold gap. fold (cpx v (upd b v k)) (cpy v (upd b v k)).
        destruct (qabs_ge (cpx v (upd b v k) - cpy v (upd b v k))) as [D1 D2]. destruct (qabs_ge (Q - R)) as [D3 D4]. revert PR G D1 D2 D3 D4.
        generalize (qabs (cpx v (upd b v k) - cpy v (upd b v k))). generalize (qabs (Q - R)). generalize (cpx v (upd b v k)). generalize (cpy v (upd b v k)). clearbody Q R. clear.
        intros g f D d PR G D1 D2 D3 D4.
        assert (A1 : (0 <= (D - (Q - R)) * g)%Qc) by (apply Qcmult_nonneg; qclra).
        assert (A2 : (0 <= (D - - (Q - R)) * g)%Qc) by (apply Qcmult_nonneg; qclra).
        assert (A3 : (0 <= R * (d - (f - g)))%Qc) by (apply Qcmult_nonneg; qclra).
        assert (A4 : (0 <= R * (d - - (f - g)))%Qc) by (apply Qcmult_nonneg; qclra).
        rewrite qabs_le. split.
        * assert (E : (D * g + R * d - (Q * g - R * f) = (D - (Q - R)) * g + R * (d - - (f - g)))%Qc) by ring.
          assert (Z : (0 <= D * g + R * d - (Q * g - R * f))%Qc) by (rewrite E; qclra). qclra.
        * assert (E : (D * g + R * d - - (Q * g - R * f) = (D - - (Q - R)) * g + R * (d - (f - g)))%Qc) by ring.
          assert (Z : (0 <= D * g + R * d - - (Q * g - R * f))%Qc) by (rewrite E; qclra). qclra.
      + rewrite qsum_map_plus, !qsum_map_mult_l.
        assert (S1 : qsum (map (fun k => cpy v (upd b v k)) (seq 0 (cd v))) = 1%Qc).
        { destruct SF as [EV F]. destruct (F v Hv) as [_ ->]. apply Hy; [now rewrite <- EV|]. now apply valid_y. }
        rewrite S1. pose proof (HE v b Hv VB) as H. unfold row_gap in H.
        assert (M : (R * qsum (map (fun k => gap x y v (upd b v k)) (seq 0 (cd v))) <= e v * R)%Qc) by (rewrite (Qcmult_comm R); now apply Qcmult_le_compat_r).
        rewrite Qcmult_1_r. revert M. generalize (R * qsum (map (fun k => gap x y v (upd b v k)) (seq 0 (cd v))))%Qc (e v * R)%Qc (qabs (Q - R)). intros; qclra.
    - rewrite sum_over_plus, sum_over_scale.
      assert (TX : sum_over cd p (fun b => qprod (map (fun u => cpx u b) p)) a = 1%Qc).
      { (* p is a topological prefix *)
        destruct (prefix_rest V p (wn_V _ Wx) NDp IncP) as (q & Pq). exact (topo_sum x Wx Hx p q Pq Tp a Va). }
      rewrite TX, map_app, qsum_app, Qcmult_1_r. cbn [map]. change (qsum [e v]) with (e v + 0)%Qc.
      revert IH. generalize (qsum (map e p)). generalize (sum_over cd p (fun b => qabs (qprod (map (fun u => cpy u b) p) - qprod (map (fun u => cpx u b) p))) a). intros; qclra.
  Qed.
  Lemma tv_sum : normalised y -> (tv <= qsum (map e V))%Qc.
  Proof.
    intros Hy. destruct HA as (ord & P & T). unfold tv. rewrite (sum_over_perm _ _ ord); [| |apply Wx|now symmetry].
    - rewrite (sum_over_congr cd ord _ (fun b => qabs (qprod (map (fun v => cpy v b) ord) - qprod (map (fun v => cpx v b) ord)))).
      + rewrite (qsum_perm (map e V) (map e ord)) by (apply Permutation_map; now symmetry). apply topo_tv; auto.
        * eapply Permutation_NoDup; [symmetry; exact P|apply Wx].
        * intros v Hv. now apply (Permutation_in _ P).
        * now apply valid_zero.
      + intros b _ _. rewrite joint_y, joint_x. rewrite (qprod_perm (map (fun v => cpy v b) V) (map (fun v => cpy v b) ord)) by (apply Permutation_map; now symmetry).
        rewrite (qprod_perm (map (fun v => cpx v b) V) (map (fun v => cpx v b) ord)) by (apply Permutation_map; now symmetry). reflexivity.
    - intros a b H. now rewrite (joint_ext y a b H), (joint_ext x a b H).
  Qed.
  End Dist.
End Pair.
