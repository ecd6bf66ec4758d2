(** VE.v -- variable elimination: products of factor lists, evidence, sum-product. *)
From Verif Require Import Py Num BayesNet Factor SpecFactor Radix SumOver FactorMul FactorOut FactorMore FactorLaws Rounding Factorization SpecInference.
Open Scope nat_scope.

Definition prodval (fs : list factor) (a : asg) : Qc := qprod (map (fun f => val f a) fs).
Definition in_scopes (fs : list factor) (w : name) : Prop := exists f, In f fs /\ In w (f_scope f).
Definition fine (cd : name -> nat) (bn : bayesnet) (fs : list factor) : Prop :=
  forall f, In f fs -> wf cd f /\ f_bn f = bn.
Definition vscope (cd : name -> nat) (fs : list factor) (a : asg) : Prop :=
  forall w, in_scopes fs w -> a w < cd w.

Definition nn (cd : name -> nat) (fs : list factor) : Prop :=
  forall f a, In f fs -> valid cd (f_scope f) a -> (0 <= val f a)%Qc.

Lemma prodval_ext fs : ext (prodval fs).
Proof. intros a b H. unfold prodval. apply qprod_map_ext. intros f _. now apply val_ext. Qed.
Lemma prodval_scope fs a b : (forall w, in_scopes fs w -> a w = b w) -> prodval fs a = prodval fs b.
Proof.
  intros H. unfold prodval. apply qprod_map_ext. intros f Hf. unfold val. f_equal. apply lookup_ext.
  intros w Hw. apply H. exists f. auto.
Qed.
Lemma prodval_app fs gs a : prodval (fs ++ gs) a = (prodval fs a * prodval gs a)%Qc.
Proof. unfold prodval. now rewrite map_app, qprod_app. Qed.
Lemma in_scopes_app fs gs w : in_scopes (fs ++ gs) w <-> in_scopes fs w \/ in_scopes gs w.
Proof.
  unfold in_scopes. split.
  - intros (f & Hf & Hw). apply in_app_or in Hf as [Hf|Hf]; [left|right]; eauto.
  - intros [(f & Hf & Hw)|(f & Hf & Hw)]; exists f; split; auto; apply in_or_app; auto.
Qed.

Lemma In_relevant rv fs f : In f (relevant_factors rv fs) <-> In f fs /\ In rv (f_scope f).
Proof. unfold relevant_factors. rewrite filter_In, mem_In. tauto. Qed.
Lemma In_irrelevant rv fs f : In f (irrelevant_factors rv fs) <-> In f fs /\ ~ In rv (f_scope f).
Proof. unfold irrelevant_factors. rewrite filter_In, negb_true_iff, mem_false. tauto. Qed.
Lemma prodval_split rv fs a :
  prodval fs a = (prodval (irrelevant_factors rv fs) a * prodval (relevant_factors rv fs) a)%Qc.
Proof.
  unfold prodval, relevant_factors, irrelevant_factors. induction fs as [|f r IH]; simpl; [ring|].
  rewrite IH. destruct (mem rv (f_scope f)); simpl; ring.
Qed.
Lemma irrelevant_upd rv fs a x : prodval (irrelevant_factors rv fs) (upd a rv x) = prodval (irrelevant_factors rv fs) a.
Proof.
  apply prodval_scope. intros w (f & Hf & Hw). apply In_irrelevant in Hf as [_ Hn]. apply upd_other. congruence.
Qed.

Lemma mul_all_ok cd bn fs : forall o psi phi, good o -> repr cd psi phi -> f_bn psi = bn -> fine cd bn fs ->
  exists h, mul_all o psi fs = Ok h /\ repr cd h (fun a => phi a * prodval fs a)%Qc /\ f_bn h = bn /\
    (forall w, In w (f_scope h) <-> In w (f_scope psi) \/ in_scopes fs w).
Proof.
  induction fs as [|g r IH]; intros o psi phi Go R B F.
  - exists psi. split; [reflexivity|]. split; [|split; [assumption|]].
    + apply (repr_congr _ _ _ _ R). intros a _. unfold prodval. simpl. ring.
    + intros w. split; [auto|]. intros [H|(f & [] & _)]; assumption.
  - destruct (F g (or_introl eq_refl)) as [Wg Bg].
    destruct (mul_ok cd (sub o 0) psi g phi (val g) (good_sub _ 0 Go) R (repr_val _ _ Wg)) as (h1 & E1 & R1 & S1 & B1).
    destruct (IH (sub o 1) h1 _ (good_sub _ 1 Go) R1 (eq_trans B1 B)) as (h & E & Rh & Bh & Sh).
    { intros f Hf. apply F. now right. }
    exists h. cbn [mul_all]. rewrite E1. cbn [bind]. split; [assumption|]. split; [|split; [assumption|]].
    + apply (repr_congr _ _ _ _ Rh). intros a _. unfold prodval. simpl. ring.
    + intros w. rewrite Sh, S1. unfold in_scopes. split.
      * intros [[H|H]|(f & Hf & Hw)]; [auto|right; exists g; simpl; auto|right; exists f; simpl; auto].
      * intros [H|(f & [->|Hf] & Hw)]; [auto|auto|right; eauto].
Qed.

Lemma product_relevant_ok cd bn o rv fs : good o -> fine cd bn fs -> in_scopes fs rv ->
  exists h, product_relevant o rv fs = Ok h /\ repr cd h (prodval (relevant_factors rv fs)) /\ f_bn h = bn /\
    (forall w, In w (f_scope h) <-> in_scopes (relevant_factors rv fs) w).
Proof.
  intros Go F (f0 & Hf0 & Hrv). unfold product_relevant.
  assert (F' : fine cd bn (relevant_factors rv fs)) by (intros f Hf; apply In_relevant in Hf; now apply F).
  assert (I : In f0 (relevant_factors rv fs)) by now apply In_relevant.
  destruct (relevant_factors rv fs) as [|psi r]; [destruct I|].
  destruct (F' psi (or_introl eq_refl)) as [Wp Bp].
  destruct (mul_all_ok cd bn r o psi (val psi) Go (repr_val _ _ Wp) Bp) as (h & E & R & B & S).
  { intros f Hf. apply F'. now right. }
  exists h. split; [assumption|]. split; [exact R|]. split; [assumption|].
  intros w. rewrite S. unfold in_scopes. split.
  - intros [H|(f & Hf & Hw)]; [exists psi|exists f]; simpl; auto.
  - intros (f & [->|Hf] & Hw); [auto|right; eauto].
Qed.

(** scopes after eliminating [rv] *)
Lemma elim_scopes rv fs h psi' : (forall w, In w (f_scope h) <-> in_scopes (relevant_factors rv fs) w) ->
  f_scope psi' = remove1 rv (f_scope h) -> NoDup (f_scope h) ->
  forall w, in_scopes (irrelevant_factors rv fs ++ [psi']) w <-> in_scopes fs w /\ w <> rv.
Proof.
  intros Sh Sp ND w. rewrite in_scopes_app. split.
  - intros [(f & Hf & Hw)|(f & [<-|[]] & Hw)].
    + apply In_irrelevant in Hf as [Hf Hn]. split; [exists f; auto|congruence].
    + rewrite Sp in Hw. apply In_remove1 in Hw as [Hw Ne]; [|assumption]. split; [|assumption].
      apply Sh in Hw as (f & Hf & Hw). apply In_relevant in Hf. exists f. tauto.
  - intros [(f & Hf & Hw) Ne]. destruct (in_dec name_eq_dec rv (f_scope f)) as [I|I].
    + right. exists psi'. split; [now left|]. rewrite Sp. apply In_remove1; [assumption|]. split; [|assumption].
      apply Sh. exists f. split; [now apply In_relevant|assumption].
    + left. exists f. split; [now apply In_irrelevant|assumption].
Qed.

Lemma sum_elim_ok cd bn o z rv : good o -> fine cd bn (fz_phi z) -> in_scopes (fz_phi z) rv ->
  exists psi', fz_sum_elim o z rv = Ok (mkFz (fz_bn z) (irrelevant_factors rv (fz_phi z) ++ [psi']) (fz_map z) (fz_asg z)) /\
    let fs' := irrelevant_factors rv (fz_phi z) ++ [psi'] in
    fine cd bn fs' /\
    (forall w, In w (f_scope psi') <-> in_scopes (relevant_factors rv (fz_phi z)) w /\ w <> rv) /\
    (forall w, in_scopes fs' w <-> in_scopes (fz_phi z) w /\ w <> rv) /\
    (forall a, vscope cd fs' a -> prodval fs' a = sum_values cd rv (prodval (fz_phi z)) a).
Proof.
  intros Go F I. destruct (product_relevant_ok cd bn (sub o 0) rv _ (good_sub _ 0 Go) F I) as (h & E & R & B & S).
  assert (Hh : In rv (f_scope h)).
  { apply S. destruct I as (f & Hf & Hw). exists f. split; [now apply In_relevant|assumption]. }
  destruct (sumout_ok cd (sub o 1) h _ rv R Hh) as (psi' & E' & R' & S' & B').
  exists psi'. unfold fz_sum_elim. rewrite E. cbn [bind]. rewrite E'. cbn [bind]. split; [reflexivity|].
  cbv zeta. assert (ND : NoDup (f_scope h)) by apply R.
  split; [|split; [|split]].
  - intros f Hf. apply in_app_or in Hf as [Hf|[<-|[]]].
    + apply In_irrelevant in Hf. now apply F.
    + split; [apply R'|congruence].
  - intros w. rewrite S', In_remove1, S by assumption. reflexivity.
  - now apply (elim_scopes rv (fz_phi z) h psi').
  - intros a V. rewrite prodval_app. unfold prodval at 2. cbn [map qprod fold_right].
    rewrite <- (repr_to_val cd psi' _ R' a).
    2:{ intros w Hw. apply V. apply in_scopes_app. right. exists psi'. simpl. auto. }
    unfold sum_values. rewrite Qcmult_1_r, <- qsum_map_mult_l. apply qsum_map_ext. intros x _.
    rewrite (prodval_split rv (fz_phi z)), irrelevant_upd. reflexivity.
Qed.

Lemma sum_elim_all_ok cd bn order : forall o z, good o -> fine cd bn (fz_phi z) -> NoDup order ->
  (forall v, In v order -> in_scopes (fz_phi z) v) ->
  exists z', elim_all fz_sum_elim o z order = Ok z' /\ fine cd bn (fz_phi z') /\
    (forall w, in_scopes (fz_phi z') w <-> in_scopes (fz_phi z) w /\ ~ In w order) /\
    (forall a, vscope cd (fz_phi z') a -> prodval (fz_phi z') a = sum_over cd order (prodval (fz_phi z)) a).
Proof.
  induction order as [|v r IH]; intros o z Go F ND I.
  - exists z. simpl. split; [reflexivity|]. split; [assumption|]. split; [tauto|]. reflexivity.
  - inversion ND as [|? ? Hn Hr]; subst.
    destruct (sum_elim_ok cd bn (sub o 0) z v (good_sub _ 0 Go) F (I v (or_introl eq_refl))) as (psi' & E & F1 & _ & S1 & P1).
    set (z1 := mkFz (fz_bn z) (irrelevant_factors v (fz_phi z) ++ [psi']) (fz_map z) (fz_asg z)) in *.
    destruct (IH (sub o 1) z1 (good_sub _ 1 Go) F1 Hr) as (z' & E' & F' & S' & P').
    { intros w Hw. apply S1. split; [apply I; now right|congruence]. }
    exists z'. cbn [elim_all]. rewrite E. cbn [bind]. split; [assumption|]. split; [assumption|].
    assert (SS : forall w, in_scopes (fz_phi z') w <-> in_scopes (fz_phi z) w /\ ~ In w (v :: r)).
    { intros w. rewrite S'. unfold z1. cbn [fz_phi]. rewrite S1. simpl. intuition congruence. }
    split; [assumption|]. intros a V. rewrite (P' a V).
    transitivity (sum_over cd r (sum_values cd v (prodval (fz_phi z))) a).
    + apply sum_over_congr. intros b Hb Vb. apply P1. intros w Hw.
      destruct (in_dec name_eq_dec w r) as [W|W]; [now apply Vb|].
      rewrite Hb by assumption. apply V. apply S'. auto.
    + simpl. apply sum_over_swap; [apply prodval_ext|assumption].
Qed.

(** ** Evidence *)
Lemma reduce_all_ok cd bn rv x i d fs : dget (bn_F bn) rv = Some d -> index_of x (f_values d) = Some i -> i < cd rv ->
  forall o, fine cd bn fs ->
  exists fs', reduce_all o rv x fs = Ok fs' /\ fine cd bn fs' /\
    Forall2 (fun f f' => forall w, In w (f_scope f') <-> In w (f_scope f) /\ w <> rv) fs fs' /\
    (nn cd fs -> nn cd fs') /\
    (forall a, vscope cd fs' a -> prodval fs' a = prodval fs (upd a rv i)).
Proof.
  intros Hd Hx Hi. induction fs as [|f r IH]; intros o F.
  - exists []. split; [reflexivity|]. split; [intros f []|]. split; [constructor|]. split; [auto|]. reflexivity.
  - destruct (F f (or_introl eq_refl)) as [Wf Bf].
    destruct (red_ok cd (sub o 0) f (val f) rv x i d (repr_val _ _ Wf)) as (f' & E & R & S & B); try congruence.
    destruct (IH (sub o 1)) as (r' & E' & F' & S' & N' & P').
    { intros g Hg. apply F. now right. }
    exists (f' :: r'). cbn [reduce_all]. unfold red in E. rewrite E. cbn [bind]. rewrite E'. cbn [bind].
    split; [reflexivity|]. split; [|split; [now constructor|split]].
    + intros g [<-|Hg]; [split; [apply R|congruence]|now apply F'].
    + intros N g a [<-|Hg] V.
      * rewrite <- (repr_to_val cd f' _ R a V). apply (N f); [now left|].
        intros w Hw. destruct (name_eqb_spec w rv) as [->|Ne]; [now rewrite upd_same|]. rewrite upd_other by assumption. apply V, S. auto.
      * apply N'; [|assumption|assumption]. intros h b Hh. apply N. now right.
    + intros a V. unfold prodval. cbn [map qprod fold_right].
      assert (Va : valid cd (f_scope f') a) by (intros w Hw; apply V; exists f'; simpl; auto).
      rewrite <- (repr_to_val cd f' _ R a Va). f_equal. apply P'.
      intros w (g & Hg & Hw). apply V. exists g. simpl. auto.
Qed.

Lemma Forall2_scopes fs fs' rv :
  Forall2 (fun f f' => forall w, In w (f_scope f') <-> In w (f_scope f) /\ w <> rv) fs fs' ->
  forall w, in_scopes fs' w <-> in_scopes fs w /\ w <> rv.
Proof.
  induction 1 as [|f f' r r' H HF IH]; intros w; unfold in_scopes in *.
  - split; [intros (f & [] & _)|intros [(f & [] & _) _]].
  - split.
    + intros (g & [->|Hg] & Hw).
      * apply H in Hw as [Hw Ne]. split; [exists f; simpl; auto|assumption].
      * destruct (proj1 (IH w)) as [(g' & Hg' & Hw') Ne]; [eauto|]. split; [exists g'; simpl; auto|assumption].
    + intros [(g & [->|Hg] & Hw) Ne].
      * exists f'. split; [now left|]. apply H. auto.
      * destruct (proj2 (IH w)) as (g' & Hg' & Hw'); [split; [exists g; auto|assumption]|]. exists g'. simpl. auto.
Qed.

(** the assignment [a] with the evidence values written over it *)
Definition eidx (bn : bayesnet) (p : name * name) : nat :=
  match val_index bn (fst p) (snd p) with Some i => i | None => 0 end.
Definition setev (bn : bayesnet) (ev : list (name * name)) (a : asg) : asg :=
  fold_right (fun p b => upd b (fst p) (eidx bn p)) a ev.
Definition minus (vs : list name) (ks : list name) : list name := fold_left (fun l k => remove1 k l) ks vs.

Lemma In_minus ks : forall vs w, NoDup vs -> In w (minus vs ks) <-> In w vs /\ ~ In w ks.
Proof.
  induction ks as [|k r IH]; intros vs w ND; simpl; [tauto|].
  unfold minus in *. simpl. rewrite IH by now apply NoDup_remove1. rewrite In_remove1 by assumption. intuition congruence.
Qed.
Lemma NoDup_minus ks : forall vs, NoDup vs -> NoDup (minus vs ks).
Proof. induction ks as [|k r IH]; intros vs ND; simpl; [assumption|]. apply IH. now apply NoDup_remove1. Qed.
Lemma setev_upd bn ev a v x : ~ In v (map fst ev) -> forall w, setev bn ev (upd a v x) w = upd (setev bn ev a) v x w.
Proof.
  induction ev as [|[E e] r IH]; intros Hn w; simpl; [reflexivity|]. simpl in Hn.
  transitivity (upd (upd (setev bn r a) v x) E (eidx bn (E, e)) w).
  - apply upd_ext. apply IH. tauto.
  - apply upd_comm. intuition congruence.
Qed.
Lemma setev_other bn ev a w : ~ In w (map fst ev) -> setev bn ev a w = a w.
Proof.
  induction ev as [|[E e] r IH]; simpl; intros H; [reflexivity|]. rewrite upd_other by intuition congruence. apply IH. tauto.
Qed.
Lemma setev_in bn ev a E e : NoDup (map fst ev) -> In (E, e) ev -> setev bn ev a E = eidx bn (E, e).
Proof.
  induction ev as [|[E' e'] r IH]; simpl; intros ND H; [destruct H|]. inversion ND; subst.
  destruct H as [H|H].
  - inversion H; subst. apply upd_same.
  - rewrite upd_other; [now apply IH|]. intros ->. apply H2. apply in_map_iff. exists (E', e). auto.
Qed.
Lemma setev_ext bn ev a b : (forall w, a w = b w) -> forall w, setev bn ev a w = setev bn ev b w.
Proof. intros H. induction ev as [|[E e] r IH]; simpl; intros w; [apply H|]. now apply upd_ext. Qed.

Lemma good_evidence_idx bn ev E e : wfnet bn -> good_evidence bn ev -> In (E, e) ev ->
  exists d, dget (bn_F bn) E = Some d /\ index_of e (f_values d) = Some (eidx bn (E, e)) /\ eidx bn (E, e) < ncard bn E.
Proof.
  intros W [_ H] I. destruct (H E e I) as [HV He]. destruct (wn_F _ W E HV) as [d Hd]. exists d. split; [assumption|].
  unfold eidx, val_index. cbn [fst snd]. unfold nvalues, ncard in *. rewrite Hd in *.
  destruct (index_of_In e (f_values d) He) as [i Hi]. rewrite Hi. split; [reflexivity|]. now apply index_of_lt in Hi.
Qed.

Lemma apply_evidence_ok bn ev : wfnet bn -> forall o z order,
  good_evidence bn ev -> fine (ncard bn) bn (fz_phi z) ->
  NoDup order -> incl (map fst ev) order ->
  exists z', apply_evidence o z order ev = Ok (z', minus order (map fst ev)) /\
    fz_map z' = fz_map z /\ fz_bn z' = fz_bn z /\ fine (ncard bn) bn (fz_phi z') /\
    Forall2 (fun f f' => forall w, In w (f_scope f') <-> In w (f_scope f) /\ ~ In w (map fst ev)) (fz_phi z) (fz_phi z') /\
    (forall k, dget (fz_asg z') k = match dget ev k with Some x => Some x | None => dget (fz_asg z) k end) /\
    (nn (ncard bn) (fz_phi z) -> nn (ncard bn) (fz_phi z')) /\
    (forall a, vscope (ncard bn) (fz_phi z') a -> prodval (fz_phi z') a = prodval (fz_phi z) (setev bn ev a)).
Proof.
  intros W. induction ev as [|[E e] r IH]; intros o z order GE F ND I.
  - exists z. simpl. split; [reflexivity|]. split; [reflexivity|]. split; [reflexivity|]. split; [assumption|].
    split; [|split; [reflexivity|split; [auto|reflexivity]]]. clear. induction (fz_phi z); constructor; [tauto|assumption].
  - destruct (good_evidence_idx bn _ E e W GE (or_introl eq_refl)) as (d & Hd & Hx & Hi).
    destruct GE as [NDk GE]. simpl in NDk. inversion NDk as [|? ? Hn Hr]; subst.
    destruct (reduce_all_ok (ncard bn) bn E e _ d (fz_phi z) Hd Hx Hi (sub o 0) F) as (fs1 & E1 & F1 & S1 & N1 & P1).
    set (z1 := mkFz (fz_bn z) fs1 (fz_map z) (dset (fz_asg z) E e)).
    destruct (IH (sub o 1) z1 (remove1 E order)) as (z' & E' & M' & B' & F' & S' & A' & N' & P').
    { split; [assumption|]. intros rv x H. apply GE. now right. } { assumption. } { now apply NoDup_remove1. }
    { intros w Hw. apply In_remove1; [assumption|]. split; [apply I; now right|congruence]. }
    exists z'. cbn [apply_evidence]. unfold fz_sub. rewrite E1. cbn [bind]. fold z1.
    unfold list_remove. assert (M : mem E order = true) by (apply mem_In, I; now left). rewrite M. cbn [bind].
    split; [assumption|]. split; [assumption|]. split; [assumption|]. split; [assumption|].
    assert (SS : Forall2 (fun f f' => forall w, In w (f_scope f') <-> In w (f_scope f) /\ ~ In w (map fst ((E, e) :: r))) (fz_phi z) (fz_phi z')).
    { unfold z1 in S'. cbn [fz_phi] in S'. clear - S1 S'. revert S'. generalize (fz_phi z'). induction S1 as [|f f1 l l1 H H1 IH1]; intros l' S'.
      - inversion S'. constructor.
      - inversion S' as [|? f' ? l2 K K']; subst. constructor; [|auto].
        intros w. rewrite K, H. simpl. intuition congruence. }
    split; [assumption|]. split; [|split; [intros N; apply N', N1, N|]].
    + intros k. rewrite A'. unfold z1. cbn [fz_asg]. rewrite dget_dset. cbn [dget].
      destruct (name_eqb_spec k E) as [->|Ne]; [|reflexivity].
      assert (dget r E = None) as -> by now apply dget_None. reflexivity.
    + intros a V. rewrite (P' a V). unfold z1. cbn [fz_phi]. rewrite P1; [reflexivity|].
      intros w (f1 & Hf1 & Hw).
      destruct (in_dec name_eq_dec w (map fst r)) as [K|K].
      * apply in_map_iff in K as ([q u] & <- & Hq). cbn [fst].
        rewrite (setev_in bn r a q u Hr Hq).
        destruct (good_evidence_idx bn r q u W) as (_ & _ & _ & L); [split; [assumption|]; intros ? ? ?; apply GE; now right|assumption|exact L].
      * rewrite setev_other by assumption. apply V.
        unfold z1 in S'. cbn [fz_phi] in S'. clear - S' Hf1 Hw K. revert Hf1. induction S' as [|g g' l l' H HF IH]; intros Hf1; [destruct Hf1|].
        destruct Hf1 as [->|Hf1].
        -- exists g'. split; [now left|]. apply H. auto.
        -- destruct (IH Hf1) as (h & Hh & Hw'). exists h. simpl. auto.
Qed.

(** ** the initial product is the joint *)
Lemma cond_prob_ext bn v a b : (forall w, In w (v :: nparents bn v) -> a w = b w) -> cond_prob bn v a = cond_prob bn v b.
Proof. intros H. unfold cond_prob. now rewrite (radix_ext _ _ a b H). Qed.
Lemma joint_ext bn : ext (joint bn).
Proof. intros a b H. unfold joint. apply qprod_map_ext. intros v _. f_equal. apply cond_prob_ext. auto. Qed.

Lemma init_list_ok bn vs : wfnet bn -> incl vs (bn_V bn) ->
  exists fs, mapM (factor_init bn) vs = Ok fs /\ fine (ncard bn) bn fs /\
    Forall2 (fun v f => f_scope f = v :: nparents bn v) vs fs /\
    (forall a, valid (ncard bn) (bn_V bn) a -> prodval fs a = qprod (map (fun v => getq (cond_prob bn v a)) vs)).
Proof.
  intros W. induction vs as [|v r IH]; intros I.
  - exists []. split; [reflexivity|]. split; [intros f []|]. split; [constructor|]. reflexivity.
  - assert (Hv : In v (bn_V bn)) by (apply I; now left).
    destruct (init_ok bn v W Hv) as (f & E & S & Vr & B & C & Run & R).
    destruct IH as (fs & E' & F' & S' & P'). { intros w Hw. apply I. now right. }
    exists (f :: fs). cbn [mapM]. rewrite E. cbn [bind]. rewrite E'. cbn [bind]. split; [reflexivity|].
    split; [|split; [now constructor|]].
    + intros g [<-|Hg]; [split; [apply R|assumption]|now apply F'].
    + intros a V. unfold prodval in *. cbn [map qprod fold_right]. f_equal; [|now apply P'].
      symmetry. apply (repr_to_val _ f _ R a). rewrite S. intros w [<-|Hw]; [now apply V|]. apply V. now apply (wn_par _ W v Hv).
Qed.

Lemma Forall2_init_scopes bn fs vs : Forall2 (fun v f => f_scope f = v :: nparents bn v) vs fs ->
  forall w, in_scopes fs w <-> exists v, In v vs /\ In w (v :: nparents bn v).
Proof.
  induction 1 as [|v f r r' H HF IH]; intros w; unfold in_scopes in *.
  - split; [intros (f & [] & _)|intros (v & [] & _)].
  - split.
    + intros (g & [->|Hg] & Hw); [exists v; split; [now left|rewrite <- H; exact Hw]|].
      destruct (proj1 (IH w)) as (u & Hu & Hw'); [eauto|]. exists u. split; [now right|assumption].
    + intros (u & [->|Hu] & Hw); [exists f; split; [now left|rewrite H; exact Hw]|].
      destruct (proj2 (IH w)) as (g & Hg & Hw'); [eauto|]. exists g. split; [now right|assumption].
Qed.

Lemma fz_init_ok bn : wfnet bn ->
  exists fs, fz_init bn = Ok (mkFz bn fs [] []) /\ fine (ncard bn) bn fs /\
    Forall2 (fun v f => f_scope f = v :: nparents bn v) (bn_V bn) fs /\
    (forall w, in_scopes fs w <-> In w (bn_V bn)) /\
    (forall a, valid (ncard bn) (bn_V bn) a -> prodval fs a = joint bn a).
Proof.
  intros W. destruct (init_list_ok bn (bn_V bn) W (incl_refl _)) as (fs & E & F & S & P).
  exists fs. unfold fz_init, bn_nodes. rewrite E. cbn [bind]. split; [reflexivity|]. split; [assumption|]. split; [assumption|].
  split; [|assumption]. intros w. rewrite (Forall2_init_scopes bn fs _ S). split.
  - intros (v & Hv & [<-|Hw]); [assumption|]. now apply (wn_par _ W v Hv).
  - intros H. exists w. simpl. auto.
Qed.

(** ** sums over assignments that satisfy a condition *)
Lemma sum_over_zero cd vs phi a : (forall b, (forall w, ~ In w vs -> b w = a w) -> phi b = 0%Qc) -> sum_over cd vs phi a = 0%Qc.
Proof.
  revert a. induction vs as [|v r IH]; simpl; intros a H; [now apply H|].
  apply qsum_zero. intros x _. apply IH. intros b Hb. apply H. intros w Hw.
  rewrite Hb by tauto. apply upd_other. intuition congruence.
Qed.

Lemma sum_indicator cd vs v i phi a : NoDup vs -> In v vs -> i < cd v -> ext phi ->
  sum_over cd vs (fun b => if b v =? i then phi b else 0%Qc) a = sum_over cd (remove1 v vs) phi (upd a v i).
Proof.
  intros ND Hv Hi Ex.
  rewrite (sum_over_perm cd vs (v :: remove1 v vs)); [|intros b c H; rewrite (H v), (Ex b c H); reflexivity|assumption|now apply remove1_perm].
  assert (Hn : ~ In v (remove1 v vs)) by (intros H; apply In_remove1 in H; tauto).
  simpl. unfold sum_values.
  replace (cd v) with (i + (1 + (cd v - i - 1))) by lia.
  rewrite !seq_app, !map_app, !qsum_app. simpl seq. cbn [map qsum fold_right].
  assert (Z : forall x, x <> i -> sum_over cd (remove1 v vs) (fun b => if b v =? i then phi b else 0%Qc) (upd a v x) = 0%Qc).
  { intros x Nx. apply sum_over_zero. intros b Hb. rewrite (Hb v Hn), upd_same. destruct (Nat.eqb_spec x i); [contradiction|reflexivity]. }
  rewrite (qsum_zero _ (seq 0 i)).
  2:{ intros x Hx. apply in_seq in Hx. apply Z. lia. }
  rewrite (qsum_zero _ (seq _ (cd v - i - 1))).
  2:{ intros x Hx. apply in_seq in Hx. apply Z. lia. }
  rewrite Qcplus_0_l, !Qcplus_0_r. apply sum_over_congr. intros b Hb _.
  rewrite (Hb v Hn), upd_same, Nat.eqb_refl. reflexivity.
Qed.

Lemma agrees_ext bn ev a b : (forall w, a w = b w) -> agrees bn ev a = agrees bn ev b.
Proof.
  intros H. unfold agrees. induction ev as [|[E e] r IH]; [reflexivity|]. cbn [forallb fst snd]. rewrite IH, (H E). reflexivity.
Qed.

Lemma sum_agrees bn ev : wfnet bn -> forall vs phi a, ext phi -> NoDup vs -> incl (map fst ev) vs -> good_evidence bn ev ->
  sum_over (ncard bn) vs (fun b => if agrees bn ev b then phi b else 0%Qc) a =
  sum_over (ncard bn) (minus vs (map fst ev)) phi (setev bn ev a).
Proof.
  intros W. induction ev as [|[E e] r IH]; intros vs phi a Ex ND I GE; [reflexivity|].
  destruct (good_evidence_idx bn _ E e W GE (or_introl eq_refl)) as (d & Hd & Hx & Hi).
  destruct GE as [NDk GE]. simpl in NDk. inversion NDk as [|? ? Hn Hr]; subst.
  transitivity (sum_over (ncard bn) vs (fun b => if b E =? eidx bn (E, e) then (if agrees bn r b then phi b else 0%Qc) else 0%Qc) a).
  { apply sum_over_congr. intros b _ _. unfold agrees. cbn [forallb fst snd].
    destruct (GE E e (or_introl eq_refl)) as [_ He]. unfold eidx, val_index. cbn [fst snd].
    destruct (index_of_In _ _ He) as [i ->]. destruct (b E =? i); reflexivity. }
  rewrite sum_indicator; [|assumption|apply I; now left|assumption|].
  2:{ intros b c H. rewrite (agrees_ext bn r b c H), (Ex b c H). reflexivity. }
  rewrite IH; [|assumption|now apply NoDup_remove1| |].
  - apply sum_over_ext; [assumption|]. intros w. rewrite (setev_upd bn r a E _ Hn w). reflexivity.
  - intros w Hw. apply In_remove1; [assumption|]. split; [apply I; now right|congruence].
  - split; [assumption|]. intros rv x H. apply GE. now right.
Qed.

Lemma sum_over_setev bn ev cd vs phi a : ext phi -> (forall v, In v vs -> ~ In v (map fst ev)) ->
  sum_over cd vs (fun b => phi (setev bn ev b)) a = sum_over cd vs phi (setev bn ev a).
Proof.
  intros Ex. revert a. induction vs as [|v r IH]; simpl; intros a D; [reflexivity|].
  unfold sum_values. apply qsum_map_ext. intros x _. rewrite IH by auto.
  apply sum_over_ext; [assumption|]. intros w. apply setev_upd. auto.
Qed.

(** ** the whole run up to consolidation *)
Lemma Forall2_scopes_ev fs fs' (ks : list name) :
  Forall2 (fun f f' => forall w, In w (f_scope f') <-> In w (f_scope f) /\ ~ In w ks) fs fs' ->
  forall w, in_scopes fs' w <-> in_scopes fs w /\ ~ In w ks.
Proof.
  induction 1 as [|f f' r r' H HF IH]; intros w; unfold in_scopes in *.
  - split; [intros (f & [] & _)|intros [(f & [] & _) _]].
  - split.
    + intros (g & [->|Hg] & Hw).
      * apply H in Hw as [Hw Ne]. split; [exists f; simpl; auto|assumption].
      * destruct (proj1 (IH w)) as [(g' & Hg' & Hw') Ne]; [eauto|]. split; [exists g'; simpl; auto|assumption].
    + intros [(g & [->|Hg] & Hw) Ne].
      * exists f'. split; [now left|]. apply H. auto.
      * destruct (proj2 (IH w)) as (g' & Hg' & Hw'); [split; [exists g; auto|assumption]|]. exists g'. simpl. auto.
Qed.

Lemma sum_run_ok bn target ev o : wfnet bn -> In target (bn_V bn) -> good_evidence bn ev ->
  ~ In target (map fst ev) -> good o ->
  exists z z', fz_init bn = Ok z /\ list_remove (bn_nodes bn) target = Ok (remove1 target (bn_V bn)) /\
    (do p <- apply_evidence (sub o 0) z (remove1 target (bn_V bn)) ev ;; elim_all fz_sum_elim (sub o 1) (fst p) (snd p)) = Ok z' /\
    fine (ncard bn) bn (fz_phi z') /\
    (forall w, in_scopes (fz_phi z') w <-> w = target) /\
    (forall x, x < ncard bn target -> prodval (fz_phi z') (upd (fun _ => 0) target x) = marginal bn target ev x).
Proof.
  intros W Ht GE Nt Go. destruct (fz_init_ok bn W) as (fs & E & F & _ & S & P).
  set (z := mkFz bn fs [] []) in *.
  assert (NDV : NoDup (bn_V bn)) by apply W.
  assert (ND1 : NoDup (remove1 target (bn_V bn))) by now apply NoDup_remove1.
  assert (I1 : incl (map fst ev) (remove1 target (bn_V bn))).
  { intros w Hw. apply In_remove1; [assumption|]. split; [|congruence].
    apply in_map_iff in Hw as ([q u] & <- & Hq). now apply (proj2 GE) in Hq. }
  destruct (apply_evidence_ok bn ev W (sub o 0) z (remove1 target (bn_V bn)) GE F ND1 I1) as (z1 & E1 & _ & _ & F1 & S1 & _ & _ & P1).
  pose proof (Forall2_scopes_ev _ _ _ S1) as SS1.
  set (order := minus (remove1 target (bn_V bn)) (map fst ev)) in *.
  assert (NDo : NoDup order) by now apply NoDup_minus.
  assert (Ho : forall w, In w order <-> In w (bn_V bn) /\ w <> target /\ ~ In w (map fst ev)).
  { intros w. unfold order. rewrite In_minus by assumption. rewrite In_remove1 by assumption. tauto. }
  destruct (sum_elim_all_ok (ncard bn) bn order (sub o 1) z1 (good_sub _ 1 Go) F1 NDo) as (z' & E' & F' & S' & P').
  { intros v Hv. apply SS1. apply Ho in Hv. split; [apply S; tauto|tauto]. }
  assert (SF : forall w, in_scopes (fz_phi z') w <-> w = target).
  { intros w. rewrite S', SS1. unfold z. cbn [fz_phi]. rewrite S, Ho. split.
    - intros [[H1 H2] H3]. destruct (name_eqb_spec w target); [assumption|]. tauto.
    - intros ->. tauto. }
  exists z, z'. split; [assumption|]. split.
  { unfold list_remove, bn_nodes. assert (M : mem target (bn_V bn) = true) by now apply mem_In. now rewrite M. }
  rewrite E1. cbn [bind fst snd]. split; [assumption|]. split; [assumption|]. split; [assumption|].
  intros x Hx. rewrite P'.
  2:{ intros w Hw. apply SF in Hw as ->. now rewrite upd_same. }
  transitivity (sum_over (ncard bn) order (fun b => joint bn (setev bn ev b)) (upd (fun _ => 0) target x)).
  { apply sum_over_congr. intros b Hb Vb. specialize (Vb NDo).
    assert (VV : valid (ncard bn) (bn_V bn) (setev bn ev b)).
    { intros w Hw. destruct (in_dec name_eq_dec w (map fst ev)) as [K|K].
      - apply in_map_iff in K as ([q u] & <- & Hq). cbn [fst]. rewrite (setev_in bn ev b q u (proj1 GE) Hq).
        now destruct (good_evidence_idx bn ev q u W GE Hq) as (_ & _ & _ & L).
      - rewrite setev_other by assumption. destruct (name_eqb_spec w target) as [->|Ne].
        + rewrite Hb; [now rewrite upd_same|]. rewrite Ho. tauto.
        + apply Vb. apply Ho. auto. }
    rewrite P1; [|]. { unfold z. cbn [fz_phi]. now apply P. }
    intros w Hw. apply SS1 in Hw as [Hw K]. unfold z in Hw. cbn [fz_phi] in Hw. apply S in Hw.
    rewrite <- (setev_other bn ev b w K). now apply VV. }
  rewrite sum_over_setev; [|apply joint_ext|intros v Hv; apply Ho in Hv; tauto].
  unfold marginal, prob_of.
  transitivity (sum_over (ncard bn) (bn_V bn) (fun b => if b target =? x then (if agrees bn ev b then joint bn b else 0%Qc) else 0%Qc) (fun _ => 0)).
  2:{ apply sum_over_congr. intros b _ _. destruct (b target =? x); reflexivity. }
  rewrite sum_indicator; [|assumption|assumption|assumption|].
  2:{ intros b c H. rewrite (agrees_ext bn ev b c H), (joint_ext bn b c H). reflexivity. }
  rewrite sum_agrees; auto using joint_ext.
Qed.

(** a factor over exactly one variable, read off as a vector *)
Lemma single_cpt cd f t : wf cd f -> (forall w, In w (f_scope f) <-> w = t) ->
  f_cpt f = map (fun x => val f (upd (fun _ => 0) t x)) (seq 0 (cd t)).
Proof.
  intros Wf S.
  assert (Es : f_scope f = [t]).
  { pose proof (wf_nodup _ _ Wf) as ND. destruct (f_scope f) as [|y r]; [exfalso; apply (proj2 (S t) eq_refl)|].
    assert (y = t) by (apply S; now left). subst. inversion ND as [|? ? Hn Hr]; subst.
    destruct r as [|z q]; [reflexivity|]. exfalso. assert (z = t) by (apply S; simpl; auto). subst. apply Hn. now left. }
  assert (L : length (f_cpt f) = cd t) by (rewrite (wf_len _ _ Wf), Es; simpl; lia).
  destruct (wf_ord _ _ Wf) as (ord & Po & R). rewrite Es in Po. apply Permutation_sym, Permutation_length_1_inv in Po. subst ord.
  destruct R as [R _].
  apply nth_ext with (d := 0%Qc) (d' := 0%Qc); [now rewrite map_length, seq_length|].
  intros n Hn. rewrite L in Hn.
  rewrite (nth_indep (map _ _) 0%Qc (val f (upd (fun _ => 0) t 0))) by (rewrite map_length, seq_length; assumption).
  rewrite (map_nth (fun x => val f (upd (fun _ => 0) t x))), seq_nth by assumption.
  unfold val, lookup, offset. rewrite Es. cbn [map nsum fold_right]. rewrite R, upd_same.
  replace ((0 + n) * 1 + 0) with n by lia.
  destruct (nth_error (f_cpt f) n) eqn:En; [now apply nth_error_nth|]. apply nth_error_None in En. lia.
Qed.
