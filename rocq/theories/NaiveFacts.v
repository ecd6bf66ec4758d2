(** NaiveFacts.v -- the network built by naive_bayes. *)
From Verif Require Import Py Num BayesNet SpecFactor Rounding Graph SpecGraph GraphNet Data SpecLearn ParamLearn ParamFacts ParamMain.
Open Scope nat_scope.

(** the feature columns, in increasing order *)
Definition features (n target : nat) : list name := map NInt (filter (fun i => negb (i =? target)) (seq 0 n)).

Lemma filter_none {A} (l : list A) : filter (fun _ => false) l = [].
Proof. induction l; [reflexivity|assumption]. Qed.
Lemma dset_fresh {A} (d : dict A) k v : ~ In k (dkeys d) -> dset d k v = d ++ [(k, v)].
Proof.
  unfold dkeys. induction d as [|[q w] r IH]; simpl; intros H; [reflexivity|].
  destruct (name_eqb_spec k q) as [-> |N]; [exfalso; apply H; now left|]. rewrite IH; [reflexivity|]. intros I. apply H. now right.
Qed.
Lemma dupdate_fresh {A} (e d : dict A) : NoDup (dkeys e) -> (forall x, In x (dkeys e) -> ~ In x (dkeys d)) -> dupdate d e = d ++ e.
Proof.
  unfold dupdate. revert d. induction e as [|[k v] r IH]; simpl; intros d ND H; [now rewrite app_nil_r|].
  inversion ND as [|? ? Nk NDr]. rewrite dset_fresh by (apply H; now left). rewrite IH; [now rewrite <- app_assoc|assumption|].
  intros z Hz I. unfold dkeys in I. rewrite map_app in I. apply in_app_or in I as [I|[E|[]]].
  - apply (H z); [now right|exact I].
  - simpl in E. subst z. contradiction.
Qed.

Definition nb_edges (n target : nat) : dict (list name) := (NInt target, features n target) :: map (fun v => (v, [])) (features n target).

Lemma features_In n target v : In v (features n target) <-> exists i, v = NInt i /\ i < n /\ i <> target.
Proof.
  unfold features. rewrite in_map_iff. split.
  - intros (i & <- & H). apply filter_In in H as [H N]. apply in_seq in H. exists i. split; [reflexivity|]. split; [lia|].
    intros ->. rewrite Nat.eqb_refl in N. discriminate.
  - intros (i & -> & L & N). exists i. split; [reflexivity|]. apply filter_In. split; [apply in_seq; lia|].
    destruct (Nat.eqb_spec i target); [contradiction|reflexivity].
Qed.
Lemma features_NoDup n target : NoDup (features n target).
Proof.
  unfold features. apply FinFun.Injective_map_NoDup; [intros i j H; now inversion H|]. apply NoDup_filter, seq_NoDup.
Qed.
Lemma features_no_target n target : ~ In (NInt target) (features n target).
Proof. rewrite features_In. intros (i & H & _ & N). inversion H. congruence. Qed.

Lemma dkeys_map_nil {A} (l : list name) (x : A) : dkeys (map (fun v => (v, x)) l) = l.
Proof. unfold dkeys. rewrite map_map. simpl. apply map_id. Qed.
Lemma nb_keys n target : dkeys (nb_edges n target) = NInt target :: features n target.
Proof. unfold nb_edges. cbn [dkeys map fst]. f_equal. apply dkeys_map_nil. Qed.
Lemma nb_dget_feature n target v : In v (features n target) -> dget (nb_edges n target) v = Some [].
Proof.
  intros H. unfold nb_edges. cbn [dget]. destruct (name_eqb_spec v (NInt target)) as [-> |N]; [now apply features_no_target in H|].
  induction (features n target) as [|x r IH]; [destruct H|]. simpl. destruct (name_eqb_spec v x) as [-> |N2]; [reflexivity|].
  apply IH. destruct H as [H|H]; [now subst|assumption].
Qed.
Lemma nb_dget_target n target : dget (nb_edges n target) (NInt target) = Some (features n target).
Proof. unfold nb_edges. cbn [dget]. now rewrite name_eqb_refl. Qed.
Lemma nb_edge n target u v : edge (nb_edges n target) u v <-> u = NInt target /\ In v (features n target).
Proof.
  split.
  - intros (c & D & H). assert (K : In u (NInt target :: features n target)).
    { rewrite <- nb_keys. destruct (in_dec name_eq_dec u (dkeys (nb_edges n target))) as [I|I]; [exact I|]. apply dget_None in I. congruence. }
    destruct K as [<-|K].
    + rewrite nb_dget_target in D. inversion D; subst. now split.
    + rewrite nb_dget_feature in D by assumption. inversion D; subst. destruct H.
  - intros [-> H]. exists (features n target). split; [apply nb_dget_target|assumption].
Qed.
Lemma nb_closed n target : closed_edges (nb_edges n target).
Proof.
  split.
  - rewrite nb_keys. constructor; [apply features_no_target|apply features_NoDup].
  - intros u v H. apply nb_edge in H as [_ H]. rewrite nb_keys. now right.
Qed.
Lemma edge_in_iff (E : dict (list name)) u v : edge_in E u v = true <-> edge E u v.
Proof.
  unfold edge_in, edge. destruct (dget E u) as [c|].
  - rewrite mem_In. split; [eauto|]. intros (c' & Q & H). inversion Q; now subst.
  - split; [discriminate|]. intros (c & Q & _). discriminate.
Qed.
Lemma nb_roots n target : topsort_roots (nb_edges n target) = [NInt target].
Proof.
  unfold topsort_roots. rewrite nb_keys. cbn [filter].
  assert (H : existsb (fun p => edge_in (nb_edges n target) p (NInt target)) (NInt target :: features n target) = false).
  { apply Bool.not_true_is_false. intros H. apply existsb_exists in H as (u & _ & H). apply edge_in_iff, nb_edge in H as [_ H]. now apply features_no_target in H. }
  rewrite H. cbn [negb]. f_equal. rewrite (filter_ext_in _ (fun _ => false)).
  - apply filter_none.
  - intros v Hv. apply Bool.negb_false_iff. apply existsb_exists. exists (NInt target). split; [now left|]. apply edge_in_iff, nb_edge. now split.
Qed.
Lemma topsort_loop_leaves E : forall q fuel vis, length q <= fuel -> NoDup q -> (forall v, In v q -> ~ In v vis /\ dget E v = Some []) ->
  topsort_loop fuel E q vis = Ok (vis ++ q).
Proof.
  induction q as [|v q IH]; intros fuel vis L ND H.
  - destruct fuel; simpl; now rewrite app_nil_r.
  - destruct fuel as [|k]; simpl in L; [lia|]. inversion ND as [|? ? Nv NDq]. cbn [topsort_loop].
    destruct (H v) as [Nvis D]; [now left|]. assert (mem v vis = false) as -> by (apply Bool.not_true_is_false; now rewrite mem_In).
    rewrite (getitem_Some _ _ _ D). cbn [bind]. rewrite app_nil_r. rewrite IH; [now rewrite <- app_assoc|lia|assumption|].
    intros w Hw. destruct (H w) as [Nw Dw]; [now right|]. split; [|assumption]. intros I. apply in_app_or in I as [I|[<-|[]]]; [now apply Nw|contradiction].
Qed.
Lemma nb_topsort n target : topsort (nb_edges n target) None = Ok (NInt target :: features n target).
Proof.
  unfold topsort. rewrite nb_roots. unfold topsort_from, topsort_fuel. cbn [length].
  cbn [Nat.add topsort_loop mem existsb]. rewrite (getitem_Some _ _ _ (nb_dget_target n target)). cbn [bind app].
  rewrite topsort_loop_leaves; [reflexivity| | |].
  - unfold nb_edges. cbn [map snd]. simpl nsum. lia.
  - apply features_NoDup.
  - intros v Hv. split; [|now apply nb_dget_feature]. intros [<-|[]]. now apply features_no_target in Hv.
Qed.

Lemma nb_structure t target : table_ok t -> target < t_ncols t ->
  exists bn, naive_bayes_structure t target = Ok bn /\ bn_V bn = NInt target :: features (t_ncols t) target /\
    bn_E bn = nb_edges (t_ncols t) target /\
    forall v, In v (bn_V bn) -> exists d, dget (bn_F bn) v = Some d /\ f_parents d = if name_eqb v (NInt target) then [] else [NInt target].
Proof.
  intros T L. unfold naive_bayes_structure.
  rewrite (mapM_ok _ (fun i => (NInt i, np_unique (colu t i)))).
  2:{ intros i Hi. apply in_seq in Hi. rewrite (column_ok t i T) by lia. reflexivity. }
  cbn [bind]. set (cols := map _ (seq 0 (t_ncols t))).
  assert (K : dkeys cols = map NInt (seq 0 (t_ncols t))) by (unfold cols, dkeys; rewrite map_map; reflexivity).
  assert (F : filter (fun v => negb (name_eqb v (NInt target))) (dkeys cols) = features (t_ncols t) target).
  { rewrite K. clear. unfold features. induction (seq 0 (t_ncols t)) as [|i r IH]; [reflexivity|]. cbn [map filter]. rewrite IH.
    cbn [name_eqb]. destruct (i =? target); reflexivity. }
  rewrite F. rewrite dupdate_fresh.
  2:{ rewrite dkeys_map_nil. apply features_NoDup. }
  2:{ rewrite dkeys_map_nil. intros x Hx [<-|[]]. now apply features_no_target in Hx. }
  change ([(NInt target, features (t_ncols t) target)] ++ map (fun v => (v, [])) (features (t_ncols t) target)) with (nb_edges (t_ncols t) target).
  destruct (set_structure_ok (nb_edges (t_ncols t) target) (Some cols) _ (nb_closed _ _) (nb_topsort _ _)) as (bn & E & HV & HE & HF).
  { intros v Hv. apply In_dget. rewrite K. destruct Hv as [<-|Hv]; [apply in_map, in_seq; lia|].
    apply features_In in Hv as (i & -> & Li & _). apply in_map, in_seq. lia. }
  exists bn. split; [exact E|]. split; [exact HV|]. split; [exact HE|]. rewrite HV. intros v Hv. destruct (HF v Hv) as (d & D & P & _ & _).
  exists d. split; [exact D|]. rewrite P. cbn [filter].
  assert (Z : filter (fun p => edge_in (nb_edges (t_ncols t) target) p v) (features (t_ncols t) target) = []).
  { rewrite (filter_ext_in _ (fun _ => false)); [apply filter_none|].
    intros u Hu. apply Bool.not_true_is_false. intros H. apply edge_in_iff, nb_edge in H as [-> _]. now apply features_no_target in Hu. }
  rewrite Z. destruct (edge_in (nb_edges (t_ncols t) target) (NInt target) v) eqn:Ev.
  - apply edge_in_iff, nb_edge in Ev as [_ Hf]. destruct (name_eqb_spec v (NInt target)) as [-> |]; [now apply features_no_target in Hf|reflexivity].
  - destruct Hv as [<-|Hv]; [now rewrite name_eqb_refl|]. exfalso. revert Ev. apply Bool.not_false_iff_true. apply edge_in_iff, nb_edge. now split.
Qed.
Lemma nb_skeleton t target bn : table_ok t -> target < t_ncols t -> naive_bayes_structure t target = Ok bn ->
  skeleton bn /\ (forall v, In v (bn_V bn) -> exists c, dget (bn_E bn) v = Some c) /\
  (forall v, In v (bn_V bn) -> nparents bn v = filter (fun u => edge_in (bn_E bn) u v) (bn_V bn)) /\
  (forall v, In v (bn_V bn) -> in_cols t v) /\ length (bn_V bn) <= t_ncols t /\
  (forall v, In v (bn_V bn) -> nparents bn v = if name_eqb v (NInt target) then [] else [NInt target]).
Proof.
  intros T L E. destruct (nb_structure t target T L) as (bn' & E' & HV & HE & HF). rewrite E in E'. inversion E'; subst bn'. clear E'.
  assert (P : forall v, In v (bn_V bn) -> nparents bn v = if name_eqb v (NInt target) then [] else [NInt target]).
  { intros v Hv. destruct (HF v Hv) as (d & D & Q). unfold nparents. now rewrite D. }
  assert (ND : NoDup (bn_V bn)) by (rewrite HV; constructor; [apply features_no_target|apply features_NoDup]).
  split; [|split; [|split; [|split; [|split]]]].
  - constructor.
    + exact ND.
    + intros v Hv. destruct (HF v Hv) as (d & D & _). eauto.
    + intros v Hv. rewrite (P v Hv). destruct (name_eqb_spec v (NInt target)) as [-> |N]; [repeat constructor; intros []|].
      constructor; [intros [H|[]]; congruence|repeat constructor; intros []].
    + intros v Hv u Hu. rewrite (P v Hv) in Hu. destruct (name_eqb v (NInt target)); [destruct Hu|]. destruct Hu as [<-|[]]. rewrite HV. now left.
  - intros v Hv. rewrite HE. apply In_dget. rewrite nb_keys. now rewrite HV in Hv.
  - intros v Hv. rewrite (P v Hv), HE, HV. cbn [filter]. rewrite HV in Hv.
    assert (Z : filter (fun p => edge_in (nb_edges (t_ncols t) target) p v) (features (t_ncols t) target) = []).
    { rewrite (filter_ext_in _ (fun _ => false)); [apply filter_none|].
      intros u Hu. apply Bool.not_true_is_false. intros H. apply edge_in_iff, nb_edge in H as [-> _]. now apply features_no_target in Hu. }
    rewrite Z. destruct (edge_in (nb_edges (t_ncols t) target) (NInt target) v) eqn:Ev.
    + apply edge_in_iff, nb_edge in Ev as [_ Hf]. destruct (name_eqb_spec v (NInt target)) as [-> |]; [now apply features_no_target in Hf|reflexivity].
    + destruct Hv as [<-|Hv]; [now rewrite name_eqb_refl|]. exfalso. revert Ev. apply Bool.not_false_iff_true. apply edge_in_iff, nb_edge. now split.
  - intros v Hv. rewrite HV in Hv. destruct Hv as [<-|Hv]; [exact L|]. apply features_In in Hv as (i & -> & Li & _). exact Li.
  - apply (NoDup_incl_length (l' := map NInt (seq 0 (t_ncols t)))) in ND.
    + rewrite map_length, seq_length in ND. exact ND.
    + intros v Hv. rewrite HV in Hv. destruct Hv as [<-|Hv]; [apply in_map, in_seq; lia|].
      apply features_In in Hv as (i & -> & Li & _). apply in_map, in_seq. lia.
  - exact P.
Qed.
