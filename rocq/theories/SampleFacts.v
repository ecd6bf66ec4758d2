(** SampleFacts.v -- lemmas about the samplers. *)
From Verif Require Import Py Num BayesNet Factor SpecFactor Radix FactorOut FactorMore SpecInference VE VETotal GraphNet Rounding ParamLearn ParamFacts ParamMain NaiveFacts SpecSample Sampling.
Open Scope nat_scope.

Lemma nth_error_ext_list {A} : forall (l m : list A), length l = length m -> (forall i, i < length l -> nth_error l i = nth_error m i) -> l = m.
Proof.
  induction l as [|x l IH]; intros [|y m] L H; simpl in L; try lia; [reflexivity|]. f_equal.
  - specialize (H 0). simpl in H. assert (Some x = Some y) by (apply H; lia). congruence.
  - apply IH; [lia|]. intros i Hi. apply (H (S i)). simpl. lia.
Qed.
(** ** the list of a one-variable factor *)
Lemma single_cpt cd f phi v a : repr cd f phi -> f_scope f = [v] -> f_cpt f = map (fun x => phi (upd a v x)) (seq 0 (cd v)).
Proof.
  intros [W L] S. pose proof (wf_len _ _ W) as Hl. rewrite S in Hl. simpl in Hl. rewrite Nat.mul_1_r in Hl.
  destruct (wf_ord _ _ W) as (ord & P & R). rewrite S in P. apply Permutation_sym, Permutation_length_1_inv in P. subst ord. destruct R as [R _].
  apply nth_error_ext_list; [now rewrite map_length, seq_length|]. intros x Hx. rewrite Hl in Hx.
  assert (V : valid cd (f_scope f) (upd a v x)) by (rewrite S; intros u [<-|[]]; now rewrite upd_same).
  specialize (L _ V). unfold lookup, offset in L. rewrite S in L. simpl in L. rewrite R, upd_same in L.
  replace (x * 1 + 0) with x in L by lia. rewrite L. rewrite nth_error_map, (nth_error_nth' _ 0) by (rewrite seq_length; lia).
  now rewrite seq_nth by lia.
Qed.

(** the dictionary / row holds the value numbers of [a] for the nodes of [vs] *)
Definition holds (bn : bayesnet) (get : name -> res name) (a : asg) (vs : list name) : Prop :=
  forall p, In p vs -> a p < ncard bn p /\ get p = Ok (nth (a p) (nvalues bn p) (NInt 0)).

Lemma reduce_parents_ok bn get a ps : wfnet bn -> incl ps (bn_V bn) -> NoDup ps -> holds bn get a ps -> forall o f phi,
  repr (ncard bn) f phi -> f_bn f = bn -> incl ps (f_scope f) ->
  exists f', reduce_parents o get f ps = Ok f' /\ repr (ncard bn) f' (fun b => phi (override b ps a)) /\ f_bn f' = bn /\
    forall w, In w (f_scope f') <-> In w (f_scope f) /\ ~ In w ps.
Proof.
  intros W. induction ps as [|p r IH]; intros I ND H o f phi R B IS.
  - exists f. split; [reflexivity|]. split; [exact R|]. split; [exact B|]. intros w. simpl. tauto.
  - inversion ND as [|? ? Np NDr]. destruct (H p (or_introl eq_refl)) as [La Ga].
    assert (Hp : In p (bn_V bn)) by (apply I; now left).
    destruct (wn_F _ W p Hp) as [d Hd].
    assert (Hx : index_of (nth (a p) (nvalues bn p) (NInt 0)) (f_values d) = Some (a p)).
    { assert (Q : nvalues bn p = f_values d) by (unfold nvalues; now rewrite Hd). rewrite <- Q. apply index_of_nth; [now apply (wn_vals _ W)|].
      apply nth_error_nth'. rewrite <- nvalues_card. exact La. }
    destruct (reduce_ok (ncard bn) (sub o 0) f phi p (nth (a p) (nvalues bn p) (NInt 0)) (a p) R) as (f1 & E1 & R1 & S1 & B1).
    { apply IS. now left. } { intros d' Hd'. rewrite B in Hd'. congruence. } { rewrite B. congruence. } { exact La. }
    assert (NDs : NoDup (f_scope f)) by apply R.
    destruct (IH) with (o := sub o 1) (f := f1) (phi := fun b => phi (upd b p (a p))) as (f' & E' & R' & B' & S'); try assumption.
    + intros q Hq. apply I. now right.
    + intros q Hq. apply H. now right.
    + congruence.
    + intros q Hq. rewrite S1. apply In_remove1; [assumption|]. split; [apply IS; now right|]. intros ->. contradiction.
    + exists f'. cbn [reduce_parents]. rewrite Ga. cbn [bind]. rewrite E1. cbn [bind]. split; [exact E'|]. split; [|split; [exact B'|]].
      * apply (repr_congr _ f' _ _ R'). intros b Vb. apply (repr_ext _ f phi _ _ R).
        -- intros w Hw. destruct (name_eqb_spec w p) as [-> |Ne]; [now rewrite upd_same|]. rewrite upd_other by assumption.
           unfold override. destruct (mem_spec w r) as [M|M]; [apply H; now right|]. apply Vb, S'. rewrite S1.
           split; [apply In_remove1; [assumption|now split]|assumption].
        -- intros w _. unfold override, upd. simpl. destruct (name_eqb_spec w p) as [-> |Ne]; reflexivity.
      * intros w. rewrite S', S1, In_remove1 by assumption. simpl. intuition congruence.
Qed.

Lemma reduced_cpt_ok bn get a v o : wfnet bn -> In v (bn_V bn) -> holds bn get a (nparents bn v) ->
  reduced_cpt o bn v get = Ok (map (fun x => getq (cond_prob bn v (upd a v x))) (seq 0 (ncard bn v))).
Proof.
  intros W Hv H. unfold reduced_cpt. destruct (init_ok bn v W Hv) as (f & E & S & _ & B & _ & _ & R). rewrite E. cbn [bind].
  rewrite bn_parents_ok by assumption. cbn [bind].
  assert (ND := wn_scope _ W v Hv). inversion ND as [|? ? Nv NDp].
  destruct (reduce_parents_ok bn get a (nparents bn v) W (wn_par _ W v Hv) NDp H o f _ R B) as (f' & E' & R' & B' & S').
  { rewrite S. intros w Hw. now right. }
  rewrite E'. cbn [bind]. f_equal.
  assert (Sc : f_scope f' = [v]).
  { apply Permutation_length_1_inv. apply Permutation_sym. apply NoDup_Permutation; [apply R'|repeat constructor; intros []|].
    intros w. rewrite S', S. simpl. split.
    - intros [[<-|K] N]; [now left|contradiction].
    - intros [<-|[]]. split; [now left|assumption]. }
  rewrite (single_cpt _ f' _ v a R' Sc). apply map_ext_in. intros y Hy. f_equal. apply cond_prob_ext. intros w Hw. unfold override.
  destruct (mem_spec w (nparents bn v)) as [M|M]; [|reflexivity].
  rewrite upd_other; [reflexivity|]. intros ->. contradiction.
Qed.
(** a parent without a value: KeyError (the other parents being known or not) *)
Lemma reduced_cpt_key bn (s : dict name) a v o : wfnet bn -> In v (bn_V bn) ->
  (forall p, In p (nparents bn v) -> dget s p = None \/ (a p < ncard bn p /\ dget s p = Some (nth (a p) (nvalues bn p) (NInt 0)))) ->
  (exists p, In p (nparents bn v) /\ dget s p = None) ->
  reduced_cpt o bn v (getitem s) = Raise KeyError.
Proof.
  intros W Hv H Ex. unfold reduced_cpt. destruct (init_ok bn v W Hv) as (f & E & S & _ & B & _ & _ & R). rewrite E. cbn [bind].
  rewrite bn_parents_ok by assumption. cbn [bind].
  assert (ND := wn_scope _ W v Hv). inversion ND as [|? ? Nv NDp].
  assert (I := wn_par _ W v Hv). assert (IS : incl (nparents bn v) (f_scope f)) by (rewrite S; intros w Hw; now right).
  assert (G : forall ps o f phi, repr (ncard bn) f phi -> f_bn f = bn -> incl ps (f_scope f) -> incl ps (nparents bn v) -> NoDup ps ->
     (exists p, In p ps /\ dget s p = None) -> reduce_parents o (getitem s) f ps = Raise KeyError).
  { clear f E S B R IS o Ex. induction ps as [|p r IH]; intros o f phi R B IS IP NDps (q & Hq & Dq); [destruct Hq|].
    cbn [reduce_parents]. destruct (H p) as [N|[La D]]; [apply IP; now left| |].
    - unfold getitem at 1. rewrite N. reflexivity.
    - rewrite (getitem_Some _ _ _ D). cbn [bind]. inversion NDps as [|? ? Np NDr].
      assert (Hp : In p (bn_V bn)) by (apply I, IP; now left). destruct (wn_F _ W p Hp) as [d Hd].
      assert (Hx : index_of (nth (a p) (nvalues bn p) (NInt 0)) (f_values d) = Some (a p)).
      { assert (Q : nvalues bn p = f_values d) by (unfold nvalues; now rewrite Hd). rewrite <- Q. apply index_of_nth; [now apply (wn_vals _ W)|].
        apply nth_error_nth'. rewrite <- nvalues_card. exact La. }
      destruct (reduce_ok (ncard bn) (sub o 0) f phi p (nth (a p) (nvalues bn p) (NInt 0)) (a p) R) as (f1 & E1 & R1 & S1 & B1).
      { apply IS. now left. } { intros d' Hd'. rewrite B in Hd'. congruence. } { rewrite B. congruence. } { exact La. }
      rewrite E1. cbn [bind]. apply (IH (sub o 1) f1 _ R1).
      + congruence.
      + intros w Hw. rewrite S1. apply In_remove1; [apply R|]. split; [apply IS; now right|]. intros ->. contradiction.
      + intros w Hw. apply IP. now right.
      + assumption.
      + exists q. destruct Hq as [<-|Hq]; [congruence|]. now split. }
  rewrite (G (nparents bn v) o f _ R B IS (incl_refl _) NDp Ex). reflexivity.
Qed.

(** ** np.random.choice *)
Lemma search_right_spec total u : (0 < total)%Qc -> forall p acc, (forall x, In x p -> 0 <= x)%Qc ->
  (u < (acc + qsum p) / total)%Qc -> (acc / total <= u)%Qc ->
  let k := search_right total u acc p in
  k < length p /\ ((acc + qsum (firstn k p)) / total <= u)%Qc /\ (u < (acc + qsum (firstn (S k) p)) / total)%Qc.
Proof.
  intros Ht. induction p as [|x r IH]; intros acc Hp Hu Ha; cbn zeta.
  - simpl in Hu. exfalso. replace (acc + 0)%Qc with acc in Hu by ring. qclra.
  - cbn [search_right]. destruct (qleb_spec ((acc + x) / total) u) as [L|L].
    + destruct (IH (acc + x)%Qc) as (A & B & C).
      * intros y Hy. apply Hp. now right.
      * simpl in Hu. replace (acc + x + qsum r)%Qc with (acc + (x + qsum r))%Qc by ring. exact Hu.
      * exact L.
      * split; [simpl; lia|]. cbn [firstn]. cbn [qsum fold_right]. fold (qsum (firstn (search_right total u (acc + x) r) r)).
        fold (qsum (firstn (S (search_right total u (acc + x) r)) r)).
        split; [rewrite Qcplus_assoc; exact B|rewrite Qcplus_assoc; exact C].
    + split; [simpl; lia|]. split; [simpl; now replace (acc + 0)%Qc with acc by ring|].
      cbn [firstn]. simpl. replace (acc + (x + 0))%Qc with (acc + x)%Qc by ring. qclra.
Qed.

Definition dist (bn : bayesnet) (v : name) (a : asg) : list Qc := map (fun x => getq (cond_prob bn v (upd a v x))) (seq 0 (ncard bn v)).
Lemma cum_upd bn v a k n : cum bn v (upd a v k) n = cum bn v a n.
Proof.
  unfold cum. apply qsum_map_ext. intros x _. f_equal. apply cond_prob_ext. intros w _. unfold upd. destruct (name_eqb w v); reflexivity.
Qed.
Lemma cum_ext bn v a b n : (forall w, In w (nparents bn v) -> a w = b w) -> cum bn v a n = cum bn v b n.
Proof.
  intros H. unfold cum. apply qsum_map_ext. intros x _. f_equal. apply cond_prob_ext. intros w [<-|Hw].
  - now rewrite !upd_same.
  - unfold upd. destruct (name_eqb w v); [reflexivity|now apply H].
Qed.
Lemma drawn_by_ext bn v a b u : (forall w, In w (v :: nparents bn v) -> a w = b w) -> drawn_by bn v a u -> drawn_by bn v b u.
Proof.
  intros H. unfold drawn_by. rewrite (H v) by now left.
  assert (C : forall n, cum bn v a n = cum bn v b n) by (intros n; apply cum_ext; intros w Hw; apply H; now right).
  now rewrite !C.
Qed.
Lemma dist_firstn bn v a k : k <= ncard bn v -> qsum (firstn k (dist bn v a)) = cum bn v a k.
Proof.
  intros L. unfold dist, cum. rewrite firstn_map. f_equal. f_equal.
  replace (ncard bn v) with (k + (ncard bn v - k)) by lia. rewrite seq_app, firstn_app, seq_length, Nat.sub_diag, firstn_all2 by (rewrite seq_length; lia).
  simpl. apply app_nil_r.
Qed.
Lemma dist_sum bn v a : qsum (dist bn v a) = cum bn v a (ncard bn v).
Proof. reflexivity. Qed.

(** the hypotheses under which every draw succeeds *)
Definition samplable (bn : bayesnet) : Prop := wfnet bn /\ nonneg_net bn /\ nearly_normalised bn.

(** normalisation only depends on the parents: any assignment valid on them will do *)
Lemma near_cum bn v a : samplable bn -> In v (bn_V bn) -> valid (ncard bn) (nparents bn v) a ->
  (1 - choice_tol <= cum bn v a (ncard bn v) /\ cum bn v a (ncard bn v) <= 1 + choice_tol)%Qc.
Proof.
  intros (W & _ & N) Hv V. set (b := fun w => if mem w (nparents bn v) then a w else 0).
  rewrite (cum_ext bn v a b).
  - apply N; [assumption|]. intros w Hw. unfold b. destruct (mem_spec w (nparents bn v)) as [M|M]; [now apply V|]. now apply card_pos.
  - intros w Hw. unfold b. apply mem_In in Hw. now rewrite Hw.
Qed.

Lemma np_choice_ok bn v a u : samplable bn -> In v (bn_V bn) -> valid (ncard bn) (nparents bn v) a -> (0 <= u /\ u < 1)%Qc ->
  exists k, np_choice u (nvalues bn v) (dist bn v a) = Ok (nth k (nvalues bn v) (NInt 0)) /\ drawn_by bn v (upd a v k) u.
Proof.
  intros Sm Hv V [U0 U1]. destruct (near_cum bn v a Sm Hv V) as [N1 N2]. pose proof Sm as (W & NN & _).
  assert (Cp := card_pos bn v W Hv). assert (tol : (this choice_tol == 1 # 100000000)%Q) by reflexivity.
  assert (one : this 1%Qc = 1%Q) by reflexivity. assert (zero : this 0%Qc = 0%Q) by reflexivity.
  assert (Ln : length (dist bn v a) = ncard bn v) by (unfold dist; now rewrite map_length, seq_length).
  assert (NNd : forall x, In x (dist bn v a) -> (0 <= x)%Qc).
  { intros x Hx. unfold dist in Hx. apply in_map_iff in Hx as (y & <- & _). now apply cond_prob_nonneg. }
  unfold np_choice. rewrite <- nvalues_card, Ln. destruct (Nat.eqb_spec (ncard bn v) 0); [lia|]. rewrite Nat.eqb_refl. cbn [negb].
  assert (X : existsb (fun x => qltb x 0) (dist bn v a) = false).
  { apply Bool.not_true_is_false. intros H. apply existsb_exists in H as (x & Hx & L). destruct (qltb_spec x 0) as [L'|]; [|discriminate].
    specialize (NNd x Hx). qclra. }
  rewrite X, dist_sum. set (T := cum bn v a (ncard bn v)) in *.
  destruct (qltb_spec choice_tol (T - 1)) as [L|_]; [exfalso; clear - L N2; qclra|].
  destruct (qltb_spec choice_tol (1 - T)) as [L|_]; [exfalso; clear - L N1; qclra|]. cbn [orb].
  assert (Tp : (0 < T)%Qc) by (clear - N1 tol one zero; qclra).
  assert (NZ : T <> 0%Qc) by (intros Z; rewrite Z in Tp; discriminate).
  destruct (search_right_spec T u Tp (dist bn v a) 0%Qc NNd) as (A & B & C).
  { rewrite dist_sum. fold T. replace ((0 + T) / T)%Qc with 1%Qc by (field; assumption). assumption. }
  { replace (0 / T)%Qc with 0%Qc by (field; assumption). assumption. }
  set (k := search_right T u 0 (dist bn v a)) in *. rewrite Ln in A.
  exists k. split.
  - unfold nget. rewrite (nth_error_nth' _ (NInt 0)) by (rewrite <- nvalues_card; exact A). reflexivity.
  - unfold drawn_by. rewrite upd_same, !cum_upd. fold T. split; [exact A|].
    rewrite dist_firstn in B by lia. rewrite dist_firstn in C by lia.
    replace (0 + cum bn v a k)%Qc with (cum bn v a k) in B by ring. replace (0 + cum bn v a (S k))%Qc with (cum bn v a (S k)) in C by ring.
    now split.
Qed.

(** a drawn value has positive probability *)
Lemma cum_S bn v a k : cum bn v a (S k) = (cum bn v a k + getq (cond_prob bn v (upd a v k)))%Qc.
Proof. unfold cum. rewrite seq_S, map_app, qsum_app. simpl. ring. Qed.
Lemma drawn_positive bn v a u : samplable bn -> In v (bn_V bn) -> valid (ncard bn) (nparents bn v) a -> drawn_by bn v a u ->
  (0 < getq (cond_prob bn v a))%Qc.
Proof.
  intros Sm Hv V (L & A & B). destruct (near_cum bn v a Sm Hv V) as [N1 N2].
  assert (tol : (this choice_tol == 1 # 100000000)%Q) by reflexivity. assert (one : this 1%Qc = 1%Q) by reflexivity.
  set (T := cum bn v a (ncard bn v)) in *. assert (Tp : (0 < T)%Qc) by (assert (zero : this 0%Qc = 0%Q) by reflexivity; clear - N1 tol one zero; qclra).
  rewrite cum_S in B. replace (cond_prob bn v (upd a v (a v))) with (cond_prob bn v a) in B.
  2:{ apply cond_prob_ext. intros w _. unfold upd. destruct (name_eqb_spec w v) as [-> |]; reflexivity. }
  set (p := getq (cond_prob bn v a)) in *. set (c := cum bn v a (a v)) in *.
  destruct (Qclt_le_dec 0 p) as [|P]; [assumption|]. exfalso.
  assert (E : ((c + p) / T = c / T + p / T)%Qc) by (field; intros Z; rewrite Z in Tp; discriminate).
  rewrite E in B. assert (Q : (0 < p / T)%Qc) by (clear - A B; qclra).
  assert (R : (p / T * T = p)%Qc) by (field; intros Z; rewrite Z in Tp; discriminate).
  assert (0 < p / T * T)%Qc by (clear - Q Tp; revert Q Tp; generalize (p / T)%Qc; intros; qcnra). rewrite R in H. qclra.
Qed.

(** ** tables of counters *)
Lemma dset_map_key {A} (eqb : A -> A -> bool) (eqb_spec : forall x y, reflect (x = y) (eqb x y)) {B} (key : A -> name) (h : A -> B) l k y :
  NoDup l -> In k l -> (forall x, In x l -> key x = key k -> x = k) ->
  dset (map (fun x => (key x, h x)) l) (key k) y = map (fun x => (key x, if eqb x k then y else h x)) l.
Proof.
  induction l as [|x r IH]; intros ND Hk Inj; [destruct Hk|]. apply NoDup_cons_iff in ND as [Nx NDr]. simpl.
  destruct (name_eqb_spec (key k) (key x)) as [E|N].
  - assert (x = k) by (apply Inj; [now left|congruence]). subst x. destruct (eqb_spec k k); [|congruence]. f_equal.
    apply map_ext_in. intros z Hz. destruct (eqb_spec z k) as [-> |]; [contradiction|reflexivity].
  - destruct (eqb_spec x k) as [-> |Nk]; [congruence|]. f_equal. destruct Hk as [->|Hk]; [congruence|]. apply IH; [assumption|assumption|].
    intros z Hz. apply Inj. now right.
Qed.
Lemma dget_map_key {A} {B} (key : A -> name) (h : A -> B) l k :
  In k l -> (forall x, In x l -> key x = key k -> x = k) -> dget (map (fun x => (key x, h x)) l) (key k) = Some (h k).
Proof.
  induction l as [|x r IH]; intros Hk Inj; [destruct Hk|]. simpl. destruct (name_eqb_spec (key k) (key x)) as [E|N].
  - f_equal. f_equal. apply Inj; [now left|congruence].
  - destruct Hk as [->|Hk]; [congruence|]. apply IH; [assumption|]. intros z Hz. apply Inj. now right.
Qed.
Lemma answer_ext {A} bn (c c' : name -> nat -> A) : (forall v x, In v (bn_V bn) -> x < ncard bn v -> c v x = c' v x) -> answer bn c = answer bn c'.
Proof.
  intros H. unfold answer. apply map_ext_in. intros v Hv. f_equal. apply map_ext_in. intros x Hx. apply in_seq in Hx. f_equal. apply H; [assumption|lia].
Qed.
Lemma value_inj bn v x k : wfnet bn -> In v (bn_V bn) -> x < ncard bn v -> k < ncard bn v ->
  nth x (nvalues bn v) (NInt 0) = nth k (nvalues bn v) (NInt 0) -> x = k.
Proof.
  intros W Hv Hx Hk E. apply (NoDup_nth (nvalues bn v) (NInt 0)); [now apply (wn_vals _ W)| | |assumption]; now rewrite <- nvalues_card.
Qed.
Definition addc (c : name -> nat -> Qc) (v : name) (k : nat) (w : Qc) : name -> nat -> Qc :=
  fun v' x => if name_eqb v' v && (x =? k) then (c v' x + w)%Qc else c v' x.
Lemma answer_get {A} bn (c : name -> nat -> A) v : wfnet bn -> In v (bn_V bn) ->
  dget (answer bn c) v = Some (map (fun x => (nth x (nvalues bn v) (NInt 0), c v x)) (seq 0 (ncard bn v))).
Proof.
  intros W Hv. unfold answer.
  apply (dget_map_key (fun v => v) (fun v => map (fun x => (nth x (nvalues bn v) (NInt 0), c v x)) (seq 0 (ncard bn v)))); [assumption|auto].
Qed.
Lemma answer_get2 {A} bn (c : name -> nat -> A) v k : wfnet bn -> In v (bn_V bn) -> k < ncard bn v ->
  dget (map (fun x => (nth x (nvalues bn v) (NInt 0), c v x)) (seq 0 (ncard bn v))) (nth k (nvalues bn v) (NInt 0)) = Some (c v k).
Proof.
  intros W Hv Hk. apply (dget_map_key (fun x => nth x (nvalues bn v) (NInt 0)) (fun x => c v x)); [apply in_seq; lia|].
  intros x Hx. apply in_seq in Hx. apply (value_inj bn); auto. lia.
Qed.
Lemma tally_ok bn c v k w : wfnet bn -> In v (bn_V bn) -> k < ncard bn v ->
  tally (answer bn c) v (nth k (nvalues bn v) (NInt 0)) w = Ok (answer bn (addc c v k w)).
Proof.
  intros W Hv Hk. unfold tally. rewrite (getitem_Some _ _ _ (answer_get bn c v W Hv)). cbn [bind].
  rewrite (getitem_Some _ _ _ (answer_get2 bn c v k W Hv Hk)). cbn [bind]. f_equal.
  rewrite (dset_map_key Nat.eqb Nat.eqb_spec (fun x => nth x (nvalues bn v) (NInt 0)) (fun x => c v x)).
  - unfold answer. rewrite (dset_map_key name_eqb name_eqb_spec (fun v => v) (fun v => map (fun x => (nth x (nvalues bn v) (NInt 0), c v x)) (seq 0 (ncard bn v)))).
    + apply map_ext. intros u. unfold addc. destruct (name_eqb_spec u v) as [-> |N]; [|reflexivity]. f_equal.
      apply map_ext. intros x. cbn [andb]. destruct (Nat.eqb_spec x k) as [-> |]; reflexivity.
    + apply W.
    + assumption.
    + auto.
  - apply seq_NoDup.
  - apply in_seq. lia.
  - intros x Hx. apply in_seq in Hx. apply (value_inj bn); auto. lia.
Qed.
Lemma dict_of_NoDup {A} (l : list (name * A)) : NoDup (map fst l) -> dict_of l = l.
Proof. intros ND. unfold dict_of. rewrite dupdate_fresh; [reflexivity|exact ND|]. intros x _ []. Qed.
Lemma mapM_map {A B C} (f : B -> res C) (g : A -> B) l : mapM f (map g l) = mapM (fun x => f (g x)) l.
Proof. induction l as [|x r IH]; [reflexivity|]. cbn [map mapM]. destruct (f (g x)); cbn [bind]; [|reflexivity]. now rewrite IH. Qed.
Lemma map_nth_seq {A} (l : list A) d : l = map (fun i => nth i l d) (seq 0 (length l)).
Proof.
  apply nth_error_ext_list; [now rewrite map_length, seq_length|]. intros i Hi.
  rewrite nth_error_map, (nth_error_nth' (seq _ _) 0) by (now rewrite seq_length). rewrite seq_nth by assumption. simpl. now apply nth_error_nth'.
Qed.
Lemma bn_values_ok bn v : wfnet bn -> In v (bn_V bn) -> bn_values bn v = Ok (nvalues bn v).
Proof. intros W Hv. destruct (wn_F _ W v Hv) as [d D]. unfold bn_values, nvalues. now rewrite (getitem_Some _ _ _ D), D. Qed.
Lemma empty_tally_ok bn : wfnet bn -> empty_tally bn = Ok (answer bn (fun _ _ => 0%Qc)).
Proof.
  intros W. unfold empty_tally, answer, bn_nodes. apply mapM_ok. intros v Hv. rewrite bn_values_ok by assumption. cbn [bind]. f_equal. f_equal.
  rewrite dict_of_NoDup.
  - rewrite nvalues_card. rewrite (map_nth_seq (nvalues bn v) (NInt 0)) at 1. rewrite map_map. reflexivity.
  - rewrite map_map, map_id. now apply (wn_vals _ W).
Qed.
Lemma map_tally_ok {A} bn (g : Qc -> res A) (g' : Qc -> A) c : (forall v x, In v (bn_V bn) -> x < ncard bn v -> g (c v x) = Ok (g' (c v x))) ->
  map_tally g (answer bn c) = Ok (answer bn (fun v x => g' (c v x))).
Proof.
  intros H. unfold map_tally, answer. rewrite (mapM_map _ _ (bn_V bn)). apply mapM_ok. intros v Hv. cbn [fst snd].
  rewrite (mapM_map _ _ (seq 0 (ncard bn v))).
  rewrite (mapM_ok _ (fun x => (nth x (nvalues bn v) (NInt 0), g' (c v x)))); [reflexivity|].
  intros x Hx. apply in_seq in Hx. cbn [fst snd]. rewrite H by (assumption || lia). reflexivity.
Qed.
