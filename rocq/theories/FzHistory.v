(** FzHistory.v -- any history of operations on a Factorization. *)
From Verif Require Import Py Num BayesNet Factor SpecFactor Radix SumOver FactorMul FactorOut FactorMore FactorLaws
  Rounding Factorization SpecInference VE VEMap VETotal SpecHistory.
From Coq Require Import Lia.
Open Scope nat_scope.

(** the user's program: one operator after the other.  factorization.py:56-63 __div__, 65-72 __floordiv__, 74-84 __sub__ *)
Definition fz_apply (o : oracle) (z : factorization) (p : fz_op) : res factorization :=
  match p with SumOut v => fz_sum_elim o z v | MaxOut v => fz_max_elim o z v | Given v x => fz_sub o z v x end.
Fixpoint fz_history (o : oracle) (z : factorization) (ps : list fz_op) : res factorization :=
  match ps with
  | [] => Ok z
  | p :: r => do z' <- fz_apply (sub o 0) z p ;; fz_history (sub o 1) z' r
  end.

Lemma qmax_scale c x y : (0 <= c)%Qc -> (c * qmax x y = qmax (c * x) (c * y))%Qc.
Proof.
  intros H. unfold qmax. destruct (Qclt_le_dec x y) as [L|L]; destruct (Qclt_le_dec (c * x) (c * y)) as [M|M]; try reflexivity.
  - apply Qcle_antisym; [assumption|]. apply Qclt_le_weak in L. rewrite !(Qcmult_comm c). now apply Qcmult_le_compat_r.
  - apply Qcle_antisym; [now apply Qclt_le_weak|]. rewrite !(Qcmult_comm c). now apply Qcmult_le_compat_r.
Qed.
Lemma fold_qmax_scale c l : (0 <= c)%Qc -> (c * fold_right qmax 0 l = fold_right qmax 0 (map (fun x => c * x) l))%Qc.
Proof. intros H. induction l as [|x r IH]; cbn [fold_right map]; [ring|]. rewrite qmax_scale by assumption. now rewrite IH. Qed.

Lemma max_values_split cd rv fs a : nn cd fs -> vscope cd (irrelevant_factors rv fs) a ->
  (prodval (irrelevant_factors rv fs) a * max_values cd rv (prodval (relevant_factors rv fs)) a)%Qc = max_values cd rv (prodval fs) a.
Proof.
  intros N V. unfold max_values. rewrite fold_qmax_scale.
  - rewrite map_map. f_equal. apply map_ext. intros x. rewrite (prodval_split rv fs), irrelevant_upd. reflexivity.
  - apply (nn_prod cd); [|assumption]. intros f b Hf. apply N. now apply In_irrelevant in Hf.
Qed.

Lemma qsum_nonneg_map {A} (g : A -> Qc) l : (forall x, In x l -> (0 <= g x)%Qc) -> (0 <= qsum (map g l))%Qc.
Proof.
  induction l as [|x r IH]; intros H; cbn [map qsum fold_right]; [apply Qcle_refl|].
  assert (A1 := H x (or_introl eq_refl)). assert (A2 : (0 <= qsum (map g r))%Qc) by (apply IH; intros y Hy; apply H; now right).
  change (fold_right Qcplus 0%Qc (map g r)) with (qsum (map g r)). generalize dependent (qsum (map g r)). generalize dependent (g x). intros p Hp q Hq. qclra.
Qed.
Lemma sum_elim_nn cd bn o z rv : good o -> fine cd bn (fz_phi z) -> nn cd (fz_phi z) -> in_scopes (fz_phi z) rv ->
  exists z', fz_sum_elim o z rv = Ok z' /\ nn cd (fz_phi z').
Proof.
  intros Go F N I. destruct (product_relevant_ok cd bn (sub o 0) rv _ (good_sub _ 0 Go) F I) as (h & E & R & B & S).
  assert (Hh : In rv (f_scope h)).
  { apply S. destruct I as (f & Hf & Hw). exists f. split; [now apply In_relevant|assumption]. }
  destruct (sumout_ok cd (sub o 1) h _ rv R Hh) as (psi' & E' & R' & S' & B').
  eexists. unfold fz_sum_elim. rewrite E. cbn [bind]. rewrite E'. cbn [bind]. split; [reflexivity|]. cbn [fz_phi].
  intros f a Hf V. apply in_app_or in Hf as [Hf|[<-|[]]].
  - apply In_irrelevant in Hf. apply N; tauto.
  - rewrite <- (repr_to_val cd psi' _ R' a V). apply qsum_nonneg_map. intros x Hx. apply in_seq in Hx.
    apply (nn_prod cd).
    + intros f b Hf. apply N. now apply In_relevant in Hf.
    + intros w Hw. apply S in Hw. destruct (name_eqb_spec w rv) as [->|Ne]; [rewrite upd_same; lia|].
      rewrite upd_other by assumption. apply V. rewrite S'. apply In_remove1; [apply R|auto].
Qed.

Lemma step_ok bn p o z : wfnet bn -> good o -> fine (ncard bn) bn (fz_phi z) -> nn (ncard bn) (fz_phi z) ->
  in_scopes (fz_phi z) (op_var p) -> match p with Given v x => In x (nvalues bn v) | _ => True end ->
  exists z', fz_apply o z p = Ok z' /\ fine (ncard bn) bn (fz_phi z') /\ nn (ncard bn) (fz_phi z') /\
    (forall w, in_scopes (fz_phi z') w <-> in_scopes (fz_phi z) w /\ w <> op_var p) /\
    (forall a, vscope (ncard bn) (fz_phi z') a -> prodval (fz_phi z') a = op_mean bn p (prodval (fz_phi z)) a).
Proof.
  intros W Go F N I V. destruct p as [v|v|v x]; cbn [fz_apply op_var op_mean] in *.
  - destruct (sum_elim_ok _ bn o z v Go F I) as (psi & E & F1 & _ & S1 & P1).
    destruct (sum_elim_nn _ bn o z v Go F N I) as (z2 & E2 & N2). rewrite E in E2. inversion E2; subst z2.
    eexists. split; [exact E|]. cbn [fz_phi] in *. split; [assumption|]. split; [assumption|]. split; [assumption|]. exact P1.
  - destruct (max_elim_ok _ bn o z v Go F N I) as (psi & psi' & E & F1 & N1 & _ & S1 & _ & _ & _ & P1).
    eexists. split; [exact E|]. cbn [fz_phi] in *. split; [assumption|]. split; [assumption|]. split; [assumption|].
    intros a Va. rewrite (P1 a Va). apply max_values_split; [assumption|].
    intros w Hw. apply Va. apply in_scopes_app. now left.
  - assert (exists d, dget (bn_F bn) v = Some d) as (d & Hd).
    { unfold nvalues in V. destruct (dget (bn_F bn) v) as [d|]; [now exists d|destruct V]. }
    assert (V' : In x (f_values d)) by (unfold nvalues in V; now rewrite Hd in V).
    destruct (index_of_In x (f_values d) V') as [i Hi].
    assert (Li : i < ncard bn v) by (unfold ncard, nvalues; rewrite Hd; now apply index_of_lt in Hi).
    destruct (reduce_all_ok (ncard bn) bn v x i d (fz_phi z) Hd Hi Li o F) as (fs & E & F1 & S1 & N1 & P1).
    unfold fz_sub. rewrite E. cbn [bind]. eexists. split; [reflexivity|]. cbn [fz_phi].
    split; [assumption|]. split; [now apply N1|]. split; [now apply Forall2_scopes|].
    intros a Va. rewrite (P1 a Va). unfold val_index, nvalues. now rewrite Hd, Hi.
Qed.

Lemma op_mean_congr bn p phi psi (S : name -> Prop) a : S (op_var p) ->
  match p with Given v x => In x (nvalues bn v) | _ => True end ->
  (forall b, (forall w, S w -> b w < ncard bn w) -> phi b = psi b) ->
  (forall w, S w -> w <> op_var p -> a w < ncard bn w) -> op_mean bn p phi a = op_mean bn p psi a.
Proof.
  intros Sv V H Ha.
  assert (U : forall x, x < ncard bn (op_var p) -> phi (upd a (op_var p) x) = psi (upd a (op_var p) x)).
  { intros x Hx. apply H. intros w Hw. destruct (name_eqb_spec w (op_var p)) as [->|Ne]; [now rewrite upd_same|]. rewrite upd_other by assumption. auto. }
  destruct p as [v|v|v x]; cbn [op_mean op_var] in *.
  - f_equal. apply map_ext_in. intros x Hx. apply in_seq in Hx. apply U. lia.
  - f_equal. apply map_ext_in. intros x Hx. apply in_seq in Hx. apply U. lia.
  - unfold val_index. destruct (index_of x (nvalues bn v)) as [i|] eqn:Ei; [|reflexivity]. apply U. apply index_of_lt in Ei. unfold nvalues, ncard in *. destruct (dget (bn_F bn) v); [assumption|inversion Ei].
Qed.
Lemma ops_mean_congr bn ps : forall phi psi (S : name -> Prop) a, ops_ok bn S ps ->
  (forall b, (forall w, S w -> b w < ncard bn w) -> phi b = psi b) ->
  (forall w, S w -> ~ In w (map op_var ps) -> a w < ncard bn w) -> ops_mean bn ps phi a = ops_mean bn ps psi a.
Proof.
  induction ps as [|p r IH]; intros phi psi S a O H Ha; unfold ops_mean in *; cbn [fold_left].
  - apply H. intros w Hw. apply Ha; [assumption|intros []].
  - destruct O as (O1 & O2 & O3). apply (IH _ _ (fun w => S w /\ w <> op_var p)); [assumption| |].
    + intros b Hb. apply (op_mean_congr bn p phi psi S b O1 O2 H). intros w H1 H2. apply Hb. auto.
    + intros w [H1 H2] H3. apply Ha; [assumption|]. cbn [map]. intros [E|K]; [congruence|contradiction].
Qed.
Lemma ops_ok_iff bn ps : forall S T, (forall w, S w <-> T w) -> ops_ok bn S ps -> ops_ok bn T ps.
Proof.
  induction ps as [|p r IH]; intros S T H O; [exact I|]. destruct O as (O1 & O2 & O3). split; [now apply H|]. split; [assumption|].
  apply (IH (fun w => S w /\ w <> op_var p)); [|assumption]. intros w. now rewrite H.
Qed.
Lemma history_ok bn ps : wfnet bn -> forall o z, good o -> fine (ncard bn) bn (fz_phi z) -> nn (ncard bn) (fz_phi z) ->
  ops_ok bn (in_scopes (fz_phi z)) ps ->
  exists z', fz_history o z ps = Ok z' /\ fine (ncard bn) bn (fz_phi z') /\
    (forall w, in_scopes (fz_phi z') w <-> in_scopes (fz_phi z) w /\ ~ In w (map op_var ps)) /\
    (forall a, vscope (ncard bn) (fz_phi z') a -> prodval (fz_phi z') a = ops_mean bn ps (prodval (fz_phi z)) a).
Proof.
  intros W. induction ps as [|p r IH]; intros o z Go F N O.
  - exists z. split; [reflexivity|]. split; [assumption|]. split; [intros w; simpl; tauto|]. reflexivity.
  - destruct O as (O1 & O2 & O3).
    destruct (step_ok bn p (sub o 0) z W (good_sub _ 0 Go) F N O1 O2) as (z1 & E1 & F1 & N1 & S1 & P1).
    assert (O4 : ops_ok bn (in_scopes (fz_phi z1)) r).
    { apply (ops_ok_iff bn r (fun w => in_scopes (fz_phi z) w /\ w <> op_var p)); [|assumption]. intros w. symmetry. apply S1. }
    destruct (IH (sub o 1) z1 (good_sub _ 1 Go) F1 N1 O4) as (z' & E' & F' & S' & P').
    exists z'. cbn [fz_history]. rewrite E1. cbn [bind]. split; [assumption|]. split; [assumption|]. split.
    + intros w. rewrite S', S1. cbn [map]. simpl. intuition congruence.
    + intros a Va. rewrite (P' a Va). unfold ops_mean at 2. cbn [fold_left]. fold (ops_mean bn r (op_mean bn p (prodval (fz_phi z)))).
      apply (ops_mean_congr bn r _ _ (in_scopes (fz_phi z1)) a O4).
      * intros b Hb. now apply P1.
      * intros w Hw Hn. apply Va. apply S'. auto.
Qed.

Lemma init_nodes_ok bn vs : wfnet bn -> nonneg_net bn -> incl vs (bn_V bn) ->
  exists fs, mapM (factor_init bn) vs = Ok fs /\ fine (ncard bn) bn fs /\ nn (ncard bn) fs /\
    (forall w, in_scopes fs w <-> mentioned bn vs w) /\
    (forall a, vscope (ncard bn) fs a -> prodval fs a = nodes_prob bn vs a).
Proof.
  intros W NN. induction vs as [|v r IH]; intros I.
  - exists []. split; [reflexivity|]. split; [intros f []|]. split; [intros f a []|]. split; [|reflexivity].
    intros w. split; [intros (f & [] & _)|intros (v & [] & _)].
  - assert (Hv : In v (bn_V bn)) by (apply I; now left).
    destruct (init_ok bn v W Hv) as (f & E & S & Vr & B & C & Run & R).
    destruct IH as (fs & E' & F' & N' & S' & P'). { intros w Hw. apply I. now right. }
    exists (f :: fs). cbn [mapM]. rewrite E. cbn [bind]. rewrite E'. cbn [bind]. split; [reflexivity|].
    split; [|split; [|split]].
    + intros g [<-|Hg]; [split; [apply R|assumption]|now apply F'].
    + intros g a [<-|Hg] V; [|now apply N']. rewrite <- (repr_to_val _ _ _ R a V).
      apply cond_prob_nonneg; assumption.
    + intros w. split.
      * intros (g & [<-|Hg] & Hw); [exists v; split; [now left|now rewrite <- S]|].
        destruct (proj1 (S' w)) as (u & Hu & Hw'); [now exists g|]. exists u. split; [now right|assumption].
      * intros (u & [<-|Hu] & Hw); [exists f; split; [now left|now rewrite S]|].
        destruct (proj2 (S' w)) as (g & Hg & Hw'); [now exists u|]. exists g. split; [now right|assumption].
    + intros a V. unfold prodval, nodes_prob in *. cbn [map qprod fold_right]. f_equal.
      * symmetry. apply (repr_to_val _ f _ R a). intros w Hw. apply V. exists f. split; [now left|assumption].
      * apply P'. intros w (g & Hg & Hw). apply V. exists g. split; [now right|assumption].
Qed.

Lemma apply_asg o z p z' : fz_apply o z p = Ok z' ->
  fz_asg z' = match p with Given v x => dset (fz_asg z) v x | _ => fz_asg z end.
Proof.
  destruct p as [v|v|v x]; cbn [fz_apply]; unfold fz_sum_elim, fz_max_elim, fz_sub; intros E;
    repeat (apply bind_Ok in E as (? & _ & E)); inversion E; reflexivity.
Qed.
Lemma ops_ok_vars bn ps : forall S, ops_ok bn S ps -> NoDup (map op_var ps) /\ forall p, In p ps -> S (op_var p).
Proof.
  induction ps as [|p r IH]; intros S O; [split; [constructor|intros p []]|]. destruct O as (O1 & O2 & O3).
  destruct (IH _ O3) as [N1 N2]. split.
  - cbn [map]. constructor; [|assumption]. intros K. apply in_map_iff in K as (q & E & Hq). apply N2 in Hq as [_ Hq]. congruence.
  - intros q [<-|Hq]; [assumption|]. now apply N2.
Qed.
Lemma history_asg ps : forall o z z', fz_history o z ps = Ok z' -> NoDup (map op_var ps) -> forall v,
  (forall x, In (Given v x) ps -> dget (fz_asg z') v = Some x) /\
  ((forall x, ~ In (Given v x) ps) -> dget (fz_asg z') v = dget (fz_asg z) v).
Proof.
  induction ps as [|p r IH]; intros o z z' E ND v.
  - inversion E; subst. split; [intros x []|reflexivity].
  - cbn [fz_history] in E. apply bind_Ok in E as (z1 & E1 & E2). apply apply_asg in E1. cbn [map] in ND. inversion ND as [|? ? N1 N2]; subst.
    destruct (IH _ _ _ E2 N2 v) as [I1 I2]. split.
    + intros x [->|Hx]; [|now apply I1]. cbn [op_var] in N1. rewrite I2.
      * rewrite E1, dget_dset, name_eqb_refl. reflexivity.
      * intros y Hy. apply N1. apply in_map_iff. exists (Given v y). auto.
    + intros H. rewrite I2 by (intros y Hy; apply (H y); now right). rewrite E1. destruct p as [q|q|q x]; try reflexivity.
      rewrite dget_dset. destruct (name_eqb_spec v q) as [->|Ne]; [|reflexivity]. exfalso. apply (H x). now left.
Qed.
