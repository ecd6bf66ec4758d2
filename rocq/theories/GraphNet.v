(** GraphNet.v -- set_structure, stride, cpt_indices. *)
From Verif Require Import Py Num BayesNet Factor SpecFactor SpecInference Radix FactorMul FactorOut SpecGraph Graph GraphTheory GraphTopsort.
Open Scope nat_scope.

Lemma getitem_Some {A} (d : dict A) k v : dget d k = Some v -> getitem d k = Ok v.
Proof. intros H. unfold getitem. now rewrite H. Qed.

Lemma mapM_ok' {A B} (f : A -> res B) l : (forall x, In x l -> exists y, f x = Ok y) -> exists ys, mapM f l = Ok ys.
Proof.
  induction l as [|x r IH]; intros H; simpl; [eauto|].
  destruct (H x) as [y Hy]; [now left|]. rewrite Hy. cbn [bind].
  destruct IH as [ys E]; [intros; apply H; now right|]. rewrite E. simpl. eauto.
Qed.

(** ** set_structure *)
Lemma set_structure_ok E vd V : closed_edges E -> topsort E None = Ok V ->
  (forall v, In v V -> match vd with Some d => exists l, dget d v = Some l | None => True end) ->
  exists bn, set_structure E vd = Ok bn /\ bn_V bn = V /\ bn_E bn = E /\
    (forall v, In v V -> exists d, dget (bn_F bn) v = Some d /\
       f_parents d = filter (fun p => edge_in E p v) V /\ f_cptl d = [] /\
       f_values d = match vd with Some m => match dget m v with Some l => l | None => [] end | None => [] end).
Proof.
  intros C T Hvd. unfold set_structure. rewrite T. cbn [bind].
  assert (IV : incl V (dkeys E)).
  { unfold topsort in T. destruct (topsort_from_ok E (topsort_roots E) C) as (out & T' & (_ & R & _)).
    { intros x Hx. apply In_topsort_roots in Hx; [apply Hx|apply C]. }
    rewrite T in T'. inversion T'; subst. intros x Hx. apply R in Hx as (s & Hs & Hr).
    apply In_topsort_roots in Hs; [|apply C]. apply rt_cases in Hr as [<-|P]; [apply Hs|].
    apply tc_last in P as (w & _ & Hw). now apply (proj2 C) in Hw. }
  set (step := fun F rv => _).
  set (fd := fun v => mkF (filter (fun p => edge_in E p v) V)
       (match vd with Some m => match dget m v with Some l => l | None => [] end | None => [] end) []).
  assert (G : forall l F, incl l V -> exists F', foldM step l F = Ok F' /\
     forall v, dget F' v = if mem v l then Some (fd v) else dget F v).
  { induction l as [|rv r IH]; intros F Il; [exists F; split; [reflexivity|intros; reflexivity]|].
    simpl foldM. unfold step at 1.
    rewrite (mapM_ok _ (fun p => (p, edge_in E p rv))).
    2:{ intros p Hp. destruct (In_dget E p (IV p Hp)) as [c D]. unfold edge_in. rewrite (getitem_Some _ _ _ D), D. reflexivity. }
    cbn [bind].
    assert (Ps : map fst (filter snd (map (fun p => (p, edge_in E p rv)) V)) = filter (fun p => edge_in E p rv) V).
    { clear. induction V as [|p V IH]; [reflexivity|]. simpl. destruct (edge_in E p rv); simpl; now rewrite IH. }
    rewrite Ps.
    assert (Vs : exists l, (match vd with Some vd => getitem vd rv | None => Ok [] end) = Ok l /\
                 l = match vd with Some m => match dget m rv with Some l => l | None => [] end | None => [] end).
    { specialize (Hvd rv (Il rv (or_introl eq_refl))). destruct vd as [m|]; [|eauto].
      destruct Hvd as [l' Hl]. rewrite (getitem_Some _ _ _ Hl), Hl. eauto. }
    destruct Vs as (l' & -> & ->). cbn [bind].
    destruct (IH (dset F rv (fd rv))) as (F' & E' & D'); [intros x Hx; apply Il; now right|].
    exists F'. split; [exact E'|]. intros v. rewrite D'. simpl. destruct (mem v r); [now rewrite orb_true_r|].
    rewrite orb_false_r, dget_dset. destruct (name_eqb_spec v rv) as [->|]; reflexivity. }
  destruct (G V [] (fun x H => H)) as (F & E' & D). rewrite E'. cbn [bind]. eexists. split; [reflexivity|]. simpl.
  split; [reflexivity|]. split; [reflexivity|]. intros v Hv. exists (fd v). split; [|repeat split].
  rewrite D. apply mem_In in Hv. now rewrite Hv.
Qed.

(** ** Strides *)
Lemma bn_card_ok bn v : wfnet bn -> In v (bn_V bn) -> bn_card bn v = Ok (ncard bn v).
Proof.
  intros W Hv. unfold bn_card, ncard. destruct (wn_F _ W v Hv) as [d D]. rewrite (getitem_Some _ _ _ D), D. reflexivity.
Qed.
Lemma bn_parents_ok bn v : wfnet bn -> In v (bn_V bn) -> bn_parents bn v = Ok (nparents bn v).
Proof.
  intros W Hv. unfold bn_parents, nparents. destruct (wn_F _ W v Hv) as [d D]. rewrite (getitem_Some _ _ _ D), D. reflexivity.
Qed.
Lemma bn_cpt_ok bn v : wfnet bn -> In v (bn_V bn) -> bn_cpt bn v = Ok (ncpt bn v).
Proof.
  intros W Hv. unfold bn_cpt, ncpt. destruct (wn_F _ W v Hv) as [d D]. rewrite (getitem_Some _ _ _ D), D. reflexivity.
Qed.
Lemma bn_scope_ok bn v : wfnet bn -> In v (bn_V bn) -> bn_scope bn v = Ok (v :: nparents bn v).
Proof. intros W Hv. unfold bn_scope. now rewrite bn_parents_ok. Qed.

Lemma bn_stride_ok bn v p n q : wfnet bn -> In v (bn_V bn) -> v :: nparents bn v = p ++ n :: q ->
  bn_stride bn v n = Ok (size (ncard bn) p).
Proof.
  intros W Hv E. pose proof (wn_scope _ W v Hv) as ND. unfold bn_stride.
  destruct p as [|x p]; simpl in E; inversion E; subst.
  - now rewrite name_eqb_refl.
  - assert (Nn : name_eqb n x = false).
    { apply name_eqb_neq. intros ->. rewrite E in ND. simpl in ND. inversion ND; subst. apply H2. apply in_or_app. right. now left. }
    rewrite Nn, bn_card_ok, bn_parents_ok by assumption. cbn [bind].
    rewrite (mapM_ok _ (ncard bn)).
    2:{ intros y Hy. apply bn_card_ok; [assumption|]. now apply (wn_par _ W x Hv). }
    cbn [bind]. unfold list_index. rewrite H1.
    rewrite (index_of_nth (p ++ n :: q) (length p) n).
    + cbn [bind]. f_equal. unfold size. change (ncard bn x :: map (ncard bn) (p ++ n :: q)) with (map (ncard bn) (x :: p ++ n :: q)).
      rewrite firstn_map. f_equal. f_equal. rewrite Nat.add_1_r. simpl. f_equal.
      rewrite firstn_app, Nat.sub_diag, firstn_all. simpl. apply app_nil_r.
    + rewrite E in ND. now inversion ND.
    + rewrite nth_error_app2, Nat.sub_diag by lia. reflexivity.
Qed.

(** ** cpt_indices *)
Lemma In_zrange n a i : In i (zrange n a (a + Z.of_nat n)) <-> (a <= i < a + Z.of_nat n)%Z.
Proof.
  assert (G : forall k a b, (b - a <= Z.of_nat k)%Z -> forall i, In i (zrange k a b) <-> (a <= i < b)%Z).
  { clear. induction k as [|k IH]; intros a b L i; cbn [zrange].
    - split; [intros []|lia].
    - destruct (Z.ltb_spec a b) as [H|H].
      + simpl. rewrite IH by lia. lia.
      + split; [intros []|lia]. }
  apply G. lia.
Qed.
Lemma rv_rows_ok fuel : forall s stride step len, (0 < stride)%Z -> (0 < step)%Z -> (len <= s + Z.of_nat fuel * step)%Z ->
  exists l, rv_rows fuel s stride step len = Ok l /\
    forall i, In i l <-> exists m, (0 <= m)%Z /\ (s + m * step < len)%Z /\ (s + m * step <= i < s + m * step + stride)%Z.
Proof.
  induction fuel as [|k IH]; intros s stride step len Hs Hp L; cbn [rv_rows]; destruct (Z.ltb_spec s len) as [H|H]; try lia.
  - exists []. split; [reflexivity|]. intros i. split; [intros []|]. intros (m & M0 & M1 & _). nia.
  - destruct (IH (s + step)%Z stride step len Hs Hp) as (l & E & Hl); [nia|]. rewrite E. cbn [bind].
    eexists. split; [reflexivity|]. intros i. rewrite in_app_iff, Hl.
    replace (zrange (Z.to_nat stride) s (s + stride)) with (zrange (Z.to_nat stride) s (s + Z.of_nat (Z.to_nat stride)))
      by (rewrite Z2Nat.id by lia; reflexivity).
    rewrite In_zrange, Z2Nat.id by lia. split.
    + intros [K|(m & M0 & M1 & M2)]; [exists 0%Z; lia|]. exists (m + 1)%Z. lia.
    + intros (m & M0 & M1 & M2). destruct (Z.eq_dec m 0) as [->|Nm]; [left; lia|]. right. exists (m - 1)%Z. lia.
  - exists []. split; [reflexivity|]. intros i. split; [intros []|]. intros (m & M0 & M1 & _). nia.
Qed.

(** the value index the program uses for [rv = x]: that of the last value when x is unknown *)
Definition used_index (bn : bayesnet) (rv x : name) : nat :=
  match val_index bn rv x with Some j => j | None => ncard bn rv - 1 end.

Lemma radix_digit cd p n q a : valid cd (p ++ n :: q) a ->
  (radix cd (p ++ n :: q) a / size cd p) mod cd n = a n.
Proof.
  intros V. rewrite radix_app. apply valid_app in V as [V1 V2]. apply valid_cons in V2 as [V2 V3].
  pose proof (radix_lt cd p a V1) as L. simpl radix.
  rewrite Nat.mul_comm, Nat.div_add by lia. rewrite Nat.div_small by assumption. simpl.
  rewrite Nat.mul_comm, Nat.mod_add by lia. now apply Nat.mod_small.
Qed.

Lemma row_match s c j i len vi : 0 < s -> 0 < c -> j < c -> i < len ->
  (vi = Z.of_nat j \/ (vi = -1)%Z /\ j = c - 1) ->
  ((exists m, (0 <= m)%Z /\ (vi * Z.of_nat s + m * (Z.of_nat s * Z.of_nat c) < Z.of_nat len)%Z /\
     (vi * Z.of_nat s + m * (Z.of_nat s * Z.of_nat c) <= Z.of_nat i <
      vi * Z.of_nat s + m * (Z.of_nat s * Z.of_nat c) + Z.of_nat s)%Z) <-> (i / s) mod c = j).
Proof.
  intros Hs Hc Hj Hi Hvi.
  pose proof (Nat.div_mod i s ltac:(lia)) as D1. pose proof (Nat.mod_upper_bound i s ltac:(lia)) as B1.
  pose proof (Nat.div_mod (i / s) c ltac:(lia)) as D2. pose proof (Nat.mod_upper_bound (i / s) c ltac:(lia)) as B2.
  set (q := i / s) in *. set (r := i mod s) in *. set (q2 := q / c) in *. set (r2 := q mod c) in *.
  split.
  - intros (m & M0 & M1 & M2 & M3).
    assert (Q : Z.of_nat q = (vi + m * Z.of_nat c)%Z).
    { assert (X : (Z.of_nat i = Z.of_nat s * Z.of_nat q + Z.of_nat r)%Z) by lia. nia. }
    destruct Hvi as [->|[-> ->]].
    + symmetry. apply (Nat.mod_unique q c (Z.to_nat m) j Hj). nia.
    + symmetry. apply (Nat.mod_unique q c (Z.to_nat (m - 1)) (c - 1)); [lia|].
      assert (0 < m)%Z by nia. nia.
  - intros R. assert (X : (Z.of_nat i = Z.of_nat s * Z.of_nat q + Z.of_nat r)%Z) by lia.
    assert (Y : (Z.of_nat q = Z.of_nat c * Z.of_nat q2 + Z.of_nat j)%Z) by lia.
    destruct Hvi as [->|[-> Ej]].
    + exists (Z.of_nat q2). split; [lia|]. nia.
    + exists (Z.of_nat q2 + 1)%Z. split; [lia|]. assert (Z.of_nat j = Z.of_nat c - 1)%Z by lia. nia.
Qed.

Lemma dget_dict_of_scope {A} (g : name -> A) l k : In k l -> dget (dict_of (map (fun n => (n, g n)) l)) k = Some (g k).
Proof. intros H. rewrite dget_dict_of. apply mem_In in H. now rewrite H. Qed.

Lemma mapM_ok2 {A B} (f : A -> res B) l ys : Forall2 (fun x y => f x = Ok y) l ys -> mapM f l = Ok ys.
Proof. induction 1 as [|x y l ys H _ IH]; simpl; [reflexivity|]. now rewrite H, IH. Qed.

Definition sstride (bn : bayesnet) (target n : name) : nat := match bn_stride bn target n with Ok s => s | Raise _ => 0 end.

Lemma cpt_indices_ok bn target vd : wfnet bn -> In target (bn_V bn) -> incl (map fst vd) (target :: nparents bn target) ->
  exists idx, cpt_indices bn target vd = Ok idx /\ NoDup idx /\
    forall i, In i idx <-> exists a, valid (ncard bn) (target :: nparents bn target) a /\
        radix (ncard bn) (target :: nparents bn target) a = i /\
        forall rv x, In (rv, x) vd -> a rv = used_index bn rv x.
Proof.
  intros W Ht Ivd. set (sc := target :: nparents bn target) in *. set (cd := ncard bn).
  assert (Isc : incl sc (bn_V bn)) by (intros x [<-|Hx]; [assumption|now apply (wn_par _ W target Ht)]).
  assert (NDs : NoDup sc) by now apply (wn_scope _ W).
  assert (Pos : forall v, In v sc -> 0 < cd v).
  { intros v Hv. apply Isc in Hv. destruct (wn_vals _ W v Hv) as [_ K]. unfold cd, ncard, nvalues in *.
    destruct (wn_F _ W v Hv) as [d D]. rewrite D in *. destruct (f_values d); [congruence|simpl; lia]. }
  assert (St : forall n, In n sc -> exists p q, sc = p ++ n :: q /\ bn_stride bn target n = Ok (size cd p) /\ sstride bn target n = size cd p).
  { intros n Hn. apply in_split in Hn as (p & q & E). exists p, q. split; [assumption|].
    assert (X := bn_stride_ok bn target p n q W Ht E). split; [exact X|]. unfold sstride. now rewrite X. }
  assert (Len : length (ncpt bn target) = size cd sc) by (unfold size; now apply (wn_cpt _ W)).
  unfold cpt_indices. rewrite bn_scope_ok by assumption. cbn [bind]. fold sc.
  rewrite (mapM_ok _ (fun n => (n, sstride bn target n))).
  2:{ intros n Hn. destruct (St n Hn) as (p & q & _ & -> & E). cbn [bind]. now rewrite E. }
  cbn [bind]. rewrite (mapM_ok _ (fun n => (n, cd n))).
  2:{ intros n Hn. rewrite bn_card_ok; [reflexivity|assumption|now apply Isc]. }
  cbn [bind]. rewrite bn_cpt_ok by assumption. cbn [bind].
  set (cpt := ncpt bn target) in *. set (step := fun idx kv => _).
  assert (G : forall vd idx, incl (map fst vd) sc -> NoDup idx -> (forall i, In i idx -> i < length cpt) ->
    exists idx', foldM step vd idx = Ok idx' /\ NoDup idx' /\
      forall i, In i idx' <-> In i idx /\ forall rv x, In (rv, x) vd ->
         (i / sstride bn target rv) mod cd rv = used_index bn rv x).
  { clear vd Ivd. induction vd as [|[rv x] vd IH]; intros idx Iv ND B.
    - exists idx. split; [reflexivity|]. split; [assumption|]. intros i. split; [intros H; split; [assumption|intros ? ? []]|tauto].
    - assert (Hrv : In rv sc) by (apply Iv; now left). simpl foldM. unfold step at 1. cbn [fst snd].
      assert (Hval : exists vi, bn_value_idx bn rv x = Ok vi /\
                (vi = Z.of_nat (used_index bn rv x) \/ (vi = -1)%Z /\ used_index bn rv x = cd rv - 1) /\ used_index bn rv x < cd rv).
      { pose proof (Pos rv Hrv) as P. unfold bn_value_idx, used_index, val_index, nvalues. unfold cd, ncard in *.
        destruct (wn_F _ W rv (Isc rv Hrv)) as [d D]. rewrite (getitem_Some _ _ _ D), D in *. cbn [bind].
        destruct (index_of x (f_values d)) as [j|] eqn:J.
        - exists (Z.of_nat j). split; [reflexivity|]. split; [now left|]. now apply index_of_lt in J.
        - exists (-1)%Z. split; [reflexivity|]. split; [right; split; reflexivity|]. lia. }
      destruct Hval as (vi & -> & Hvi & Hu). cbn [bind].
      rewrite (getitem_Some _ _ _ (dget_dict_of_scope (sstride bn target) sc rv Hrv)). cbn [bind].
      destruct (St rv Hrv) as (p & q & Esc & _ & Es).
      assert (Sp : 0 < sstride bn target rv).
      { rewrite Es. apply size_pos. intros v Hv. apply Pos. rewrite Esc. apply in_or_app. now left. }
      set (s := sstride bn target rv) in *. set (c := cd rv) in *.
      assert (Hc : 0 < c) by now apply Pos.
      assert (Rows : exists l, (if (vi * Z.of_nat s <? Z.of_nat (length cpt))%Z
                then do c0 <- getitem (dict_of (map (fun n => (n, cd n)) sc)) rv;;
                     rv_rows (length cpt + 2) (vi * Z.of_nat s) (Z.of_nat s) (Z.of_nat s * Z.of_nat c0) (Z.of_nat (length cpt))
                else Ok []) = Ok l /\
              forall i, i < length cpt -> existsb (Z.eqb (Z.of_nat i)) l = true <-> (i / s) mod c = used_index bn rv x).
      { rewrite (getitem_Some _ _ _ (dget_dict_of_scope cd sc rv Hrv)). cbn [bind]. fold c.
        assert (Ex : forall l i, existsb (Z.eqb (Z.of_nat i)) l = true <-> In (Z.of_nat i) l).
        { intros l i. rewrite existsb_exists. split.
          - intros (z & Hz & Q). apply Z.eqb_eq in Q. now subst.
          - intros H. exists (Z.of_nat i). split; [assumption|apply Z.eqb_refl]. }
        destruct (rv_rows_ok (length cpt + 2) (vi * Z.of_nat s)%Z (Z.of_nat s) (Z.of_nat s * Z.of_nat c)%Z (Z.of_nat (length cpt)))
          as (l & El & Hl); [lia|nia| |].
        { assert (-1 <= vi)%Z by (destruct Hvi as [->|[-> _]]; lia).
          assert (Z.of_nat s <= Z.of_nat s * Z.of_nat c)%Z by nia. 
          assert (Z.of_nat (length cpt + 2) <= Z.of_nat (length cpt + 2) * Z.of_nat s)%Z by nia.
          assert (Z.of_nat (length cpt + 2) * Z.of_nat s <= Z.of_nat (length cpt + 2) * (Z.of_nat s * Z.of_nat c))%Z by nia.
          nia. }
        destruct (Z.ltb_spec (vi * Z.of_nat s) (Z.of_nat (length cpt))) as [H|H].
        - exists l. split; [exact El|]. intros i Hi. rewrite Ex, Hl. now apply (row_match s c _ i (length cpt) vi).
        - exists []. split; [reflexivity|]. intros i Hi. rewrite Ex.
          rewrite <- (row_match s c _ i (length cpt) vi Sp Hc Hu Hi Hvi). split; [intros []|]. intros (m & M0 & M1 & _). nia. }
      destruct Rows as (l & -> & Hl). cbn [bind].
      destruct (IH (filter (fun i => existsb (Z.eqb (Z.of_nat i)) l) idx)) as (idx' & E' & ND' & H').
      + intros y Hy. apply Iv. now right.
      + now apply NoDup_filter.
      + intros i Hi. apply filter_In in Hi as [Hi _]. now apply B.
      + exists idx'. split; [exact E'|]. split; [exact ND'|]. intros i. rewrite H', filter_In. split.
        * intros [[K1 K2] K3]. split; [assumption|]. intros rv' x' [Q|Q]; [|now apply K3].
          inversion Q; subst. apply Hl; auto.
        * intros [K1 K2]. split; [split; [assumption|]|intros; apply K2; now right]. apply Hl; auto. apply K2. now left. }
  destruct (G vd (seq 0 (length cpt)) Ivd (seq_NoDup _ _)) as (idx & E & ND & H).
  { intros i Hi. apply in_seq in Hi. lia. }
  exists idx. split; [exact E|]. split; [exact ND|]. intros i. rewrite H, in_seq. split.
  - intros [L K]. destruct (digits_ok cd sc i NDs) as [V R]; [rewrite <- Len; fold cpt; lia|].
    exists (digits cd sc i). split; [assumption|]. split; [assumption|]. intros rv x Hx.
    rewrite <- (K rv x Hx). assert (Hrv : In rv sc) by (apply Ivd, in_map_iff; exists (rv, x); auto).
    destruct (St rv Hrv) as (p & q & Esc & _ & ->). rewrite <- R at 2. rewrite Esc. symmetry. apply radix_digit. now rewrite <- Esc.
  - intros (a & V & R & K). split; [split; [lia|]|].
    + simpl. rewrite <- R. fold cpt in Len. rewrite Len. now apply radix_lt.
    + intros rv x Hx. rewrite <- (K rv x Hx). assert (Hrv : In rv sc) by (apply Ivd, in_map_iff; exists (rv, x); auto).
      destruct (St rv Hrv) as (p & q & Esc & _ & ->). rewrite <- R. rewrite Esc. apply radix_digit. now rewrite <- Esc.
Qed.
