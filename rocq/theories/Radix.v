(** Radix.v -- mixed-radix arithmetic used by all factor proofs. *)
From Verif Require Import Py Num BayesNet Factor SpecFactor.
Open Scope nat_scope.

Definition size (cd : name -> nat) (vs : list name) : nat := nprod (map cd vs).

Lemma size_app cd p q : size cd (p ++ q) = size cd p * size cd q.
Proof. unfold size. rewrite map_app. apply nprod_app. Qed.
Lemma size_perm cd p q : Permutation p q -> size cd p = size cd q.
Proof. intros H. apply nprod_perm. now apply Permutation_map. Qed.
Lemma size_pos cd p : (forall v, In v p -> 0 < cd v) -> 0 < size cd p.
Proof. intros H. apply nprod_pos. intros x Hx. apply in_map_iff in Hx as (v & <- & Hv). auto. Qed.

Lemma valid_cons cd v r a : valid cd (v :: r) a <-> a v < cd v /\ valid cd r a.
Proof. unfold valid. simpl. split; [intros H; split; auto | intros [H1 H2] w [->|Hw]; auto]. Qed.
Lemma valid_incl cd p q a : incl p q -> valid cd q a -> valid cd p a.
Proof. intros H V v Hv. apply V. now apply H. Qed.
Lemma valid_perm cd p q a : Permutation p q -> valid cd q a -> valid cd p a.
Proof. intros H. apply valid_incl. intros v Hv. eapply Permutation_in; eassumption. Qed.
Lemma valid_app cd p q a : valid cd (p ++ q) a <-> valid cd p a /\ valid cd q a.
Proof.
  unfold valid. split.
  - intros H. split; intros v Hv; apply H; apply in_or_app; auto.
  - intros [H1 H2] v Hv. apply in_app_or in Hv as [Hv|Hv]; auto.
Qed.
Lemma upd_same a v x : upd a v x v = x.
Proof. unfold upd. now rewrite name_eqb_refl. Qed.
Lemma upd_other a v x w : w <> v -> upd a v x w = a w.
Proof. intros H. unfold upd. apply name_eqb_neq in H. now rewrite H. Qed.
Lemma valid_upd cd vs a v x : (In v vs -> x < cd v) -> valid cd (remove1 v vs) a -> NoDup vs -> valid cd vs (upd a v x).
Proof.
  intros Hx H ND w Hw. destruct (name_eqb_spec w v) as [->|E].
  - rewrite upd_same. auto.
  - rewrite upd_other by assumption. apply H. apply In_remove1; auto.
Qed.
Lemma valid_upd' cd vs a v x : x < cd v -> valid cd vs a -> valid cd vs (upd a v x).
Proof.
  intros Hx H w Hw. destruct (name_eqb_spec w v) as [->|E].
  - now rewrite upd_same.
  - rewrite upd_other by assumption. auto.
Qed.

Lemma radix_lt cd ord a : valid cd ord a -> radix cd ord a < size cd ord.
Proof.
  unfold size. induction ord as [|v r IH]; simpl; intros H; [lia|].
  apply valid_cons in H as [H1 H2]. specialize (IH H2). nia.
Qed.

Lemma radix_ext cd ord a b : (forall v, In v ord -> a v = b v) -> radix cd ord a = radix cd ord b.
Proof.
  induction ord as [|v r IH]; simpl; intros H; [reflexivity|].
  rewrite (H v) by auto. rewrite IH; auto.
Qed.

Lemma radix_inj cd ord a b : valid cd ord a -> valid cd ord b ->
  radix cd ord a = radix cd ord b -> forall v, In v ord -> a v = b v.
Proof.
  induction ord as [|w r IH]; simpl; intros Va Vb E v Hv; [tauto|].
  apply valid_cons in Va as [Va1 Va2]. apply valid_cons in Vb as [Vb1 Vb2].
  destruct (Nat.div_mod_unique (cd w) (radix cd r a) (radix cd r b) (a w) (b w)) as [E2 E1]; try lia.
  destruct Hv as [->|Hv]; auto.
Qed.

Lemma radix_app cd p q a : radix cd (p ++ q) a = radix cd p a + size cd p * radix cd q a.
Proof.
  unfold size. induction p as [|v r IH]; simpl; [lia|]. rewrite IH. lia.
Qed.

(** digits of an index *)
Fixpoint digits (cd : name -> nat) (ord : list name) (i : nat) : asg :=
  match ord with
  | [] => fun _ => 0
  | v :: r => upd (digits cd r (i / cd v)) v (i mod cd v)
  end.

Lemma digits_ok cd ord i : NoDup ord -> i < size cd ord ->
  valid cd ord (digits cd ord i) /\ radix cd ord (digits cd ord i) = i.
Proof.
  unfold size. revert i. induction ord as [|v r IH]; simpl; intros i ND H.
  - split; [intros w []|lia].
  - inversion ND as [|? ? Hn Hr]; subst.
    assert (Hc : cd v <> 0) by (intros E; rewrite E in H; simpl in H; lia).
    assert (Hi : i / cd v < nprod (map cd r)) by (apply Nat.div_lt_upper_bound; lia).
    destruct (IH _ Hr Hi) as [V E]. split.
    + intros w [->|Hw].
      * rewrite upd_same. now apply Nat.mod_upper_bound.
      * rewrite upd_other by congruence. auto.
    + rewrite upd_same.
      rewrite (radix_ext cd r _ (digits cd r (i / cd v))).
      * rewrite E. pose proof (Nat.div_mod i (cd v) Hc). lia.
      * intros w Hw. apply upd_other. congruence.
Qed.

(** dot product of an assignment with strides over a list of variables *)
Definition dot (st : name -> nat) (vs : list name) (a : asg) : nat := nsum (map (fun v => a v * st v) vs).
Lemma dot_perm st p q a : Permutation p q -> dot st p a = dot st q a.
Proof. intros H. apply nsum_perm. now apply Permutation_map. Qed.
Lemma dot_ext st st' vs a b : (forall v, In v vs -> a v = b v /\ st v = st' v) -> dot st vs a = dot st' vs b.
Proof.
  intros H. unfold dot. f_equal. apply map_ext_in. intros v Hv. destruct (H v Hv) as [-> ->]. reflexivity.
Qed.
Lemma dot_app st p q a : dot st (p ++ q) a = dot st p a + dot st q a.
Proof. unfold dot. rewrite map_app. apply nsum_app. Qed.

Definition sk := stride_key.
Lemma offset_dot f a : offset f a = dot (stride_key (f_stride f)) (f_scope f) a.
Proof. reflexivity. Qed.

Lemma running_dot cd st ord s a : running cd st ord s -> dot (stride_key st) ord a = s * radix cd ord a.
Proof.
  revert s. induction ord as [|v r IH]; simpl; intros s H; [unfold dot; simpl; lia|].
  destruct H as [H1 H2]. unfold dot in *. simpl. rewrite (IH _ H2).
  unfold stride_key at 1. rewrite H1. lia.
Qed.

Lemma running_app cd st p q s :
  running cd st (p ++ q) s <-> running cd st p s /\ running cd st q (s * size cd p).
Proof.
  unfold size. revert s. induction p as [|v r IH]; simpl; intros s.
  - rewrite Nat.mul_1_r. tauto.
  - rewrite IH. rewrite Nat.mul_assoc. tauto.
Qed.

Lemma running_ext cd st st' ord s : (forall v, In v ord -> dget st v = dget st' v) ->
  running cd st ord s -> running cd st' ord s.
Proof.
  revert s. induction ord as [|v r IH]; simpl; intros s H; [tauto|].
  intros [H1 H2]. split; [rewrite <- H by auto; assumption|]. apply IH; auto.
Qed.

Lemma wf_offset cd f a : wf cd f -> exists ord, Permutation ord (f_scope f) /\
  running cd (f_stride f) ord 1 /\ offset f a = radix cd ord a.
Proof.
  intros W. destruct (wf_ord _ _ W) as (ord & P & R). exists ord. split; [assumption|]. split; [assumption|].
  rewrite offset_dot, <- (dot_perm _ _ _ _ P), (running_dot _ _ _ _ _ R). lia.
Qed.

Lemma wf_offset_lt cd f a : wf cd f -> valid cd (f_scope f) a -> offset f a < length (f_cpt f).
Proof.
  intros W V. destruct (wf_offset cd f a W) as (ord & P & R & E). rewrite E, (wf_len _ _ W).
  change (radix cd ord a < size cd (f_scope f)). rewrite <- (size_perm _ _ _ P).
  apply radix_lt. eapply valid_perm; eassumption.
Qed.

Lemma lookup_some cd f a : wf cd f -> valid cd (f_scope f) a -> exists x, lookup f a = Some x.
Proof.
  intros W V. pose proof (wf_offset_lt _ _ _ W V) as L. unfold lookup.
  destruct (nth_error (f_cpt f) (offset f a)) eqn:E; [eauto|].
  apply nth_error_None in E. lia.
Qed.

(** every well-formed factor denotes a function *)
Definition val (f : factor) (a : asg) : Qc := getq (lookup f a).
Lemma repr_val cd f : wf cd f -> repr cd f (val f).
Proof.
  intros W. split; [assumption|]. intros a V. destruct (lookup_some _ _ _ W V) as [x E].
  unfold val. rewrite E. reflexivity.
Qed.

Lemma offset_ext f a b : (forall v, In v (f_scope f) -> a v = b v) -> offset f a = offset f b.
Proof. intros H. rewrite !offset_dot. apply dot_ext. auto. Qed.
Lemma lookup_ext f a b : (forall v, In v (f_scope f) -> a v = b v) -> lookup f a = lookup f b.
Proof. intros H. unfold lookup. now rewrite (offset_ext f a b H). Qed.

Lemma repr_ext cd f phi a b : repr cd f phi -> valid cd (f_scope f) a ->
  (forall v, In v (f_scope f) -> a v = b v) -> phi a = phi b.
Proof.
  intros [W H] Va E.
  assert (Vb : valid cd (f_scope f) b) by (intros v Hv; rewrite <- E by assumption; auto).
  assert (Some (phi a) = Some (phi b)) as X; [|congruence].
  rewrite <- !H by assumption. now apply lookup_ext.
Qed.

Lemma repr_unique cd f phi psi a : repr cd f phi -> repr cd f psi -> valid cd (f_scope f) a -> phi a = psi a.
Proof. intros [_ H1] [_ H2] V. specialize (H1 a V). specialize (H2 a V). congruence. Qed.

Lemma repr_congr cd f phi psi : repr cd f phi -> (forall a, valid cd (f_scope f) a -> phi a = psi a) -> repr cd f psi.
Proof. intros [W H] E. split; [assumption|]. intros a V. rewrite <- E by assumption. auto. Qed.

(** every cell is hit by exactly one assignment (up to its values on the scope) *)
Lemma wf_offset_inj cd f a b : wf cd f -> valid cd (f_scope f) a -> valid cd (f_scope f) b ->
  offset f a = offset f b -> forall v, In v (f_scope f) -> a v = b v.
Proof.
  intros W Va Vb E v Hv. destruct (wf_ord _ _ W) as (ord & P & R).
  rewrite !offset_dot, <- !(dot_perm _ _ _ _ P), !(running_dot _ _ _ _ _ R) in E.
  apply (radix_inj cd ord a b); try lia.
  - eapply valid_perm; eassumption.
  - eapply valid_perm; eassumption.
  - eapply Permutation_in; [symmetry; eassumption|assumption].
Qed.
Lemma wf_offset_surj cd f i : wf cd f -> i < length (f_cpt f) ->
  exists a, valid cd (f_scope f) a /\ offset f a = i.
Proof.
  intros W L. destruct (wf_ord _ _ W) as (ord & P & R). rewrite (wf_len _ _ W) in L.
  change (i < size cd (f_scope f)) in L. rewrite <- (size_perm _ _ _ P) in L.
  assert (ND : NoDup ord) by (eapply Permutation_NoDup; [symmetry; eassumption|apply (wf_nodup _ _ W)]).
  destruct (digits_ok cd ord i ND L) as [V E]. exists (digits cd ord i). split.
  - eapply valid_perm; [symmetry; eassumption|assumption].
  - rewrite offset_dot, <- (dot_perm _ _ _ _ P), (running_dot _ _ _ _ _ R). lia.
Qed.
