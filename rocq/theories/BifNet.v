(** BifNet.v -- the network read from a well-formed document. *)
From Verif Require Import Py Num Text BayesNet SpecFactor SpecGraph Radix Graph GraphNet GraphTheory NaiveFacts HeapEdit IO SpecIO BifFacts Properties_Graph.
Open Scope nat_scope.
Open Scope string_scope.

Lemma nth_error_rows {A} c (L : list (list A)) : (forall l, In l L -> length l = c) -> forall i j l, j < c -> nth_error L i = Some l -> nth_error (concat L) (j + c * i) = nth_error l j.
Proof.
  induction L as [|x L IH]; intros H i j l Hj Hi; [destruct i; discriminate|]. assert (Lx : length x = c) by (apply H; now left). destruct i as [|i].
  - injection Hi as ->. rewrite Nat.mul_0_r, Nat.add_0_r. simpl. rewrite nth_error_app1; [reflexivity|lia].
  - simpl. rewrite nth_error_app2 by nia. rewrite Lx. replace (j + c * S i - c) with (j + c * i) by nia. apply IH; auto. intros; apply H; now right.
Qed.
Lemma concat_length {A} c (L : list (list A)) : (forall l, In l L -> length l = c) -> length (concat L) = c * length L.
Proof. induction L as [|x L IH]; intros H; [simpl; lia|]. simpl. rewrite app_length, (H x (or_introl eq_refl)), IH by (intros; apply H; now right). nia. Qed.
Lemma nth_inj (l : list string) i j : NoDup l -> i < length l -> j < length l -> nth i l "" = nth j l "" -> i = j.
Proof. intros N Hi Hj E. now apply (proj1 (NoDup_nth l "") N). Qed.
Lemma label_inj d ps : (forall p, In p ps -> NoDup (vals_of d p) /\ vals_of d p <> []) ->
  forall n m, n < nprod (map (fun q => length (vals_of d q)) ps) -> m < nprod (map (fun q => length (vals_of d q)) ps) -> label_of d ps n = label_of d ps m -> n = m.
Proof.
  induction ps as [|p ps IH]; intros H n m Ln Lm E; simpl in *; [lia|]. destruct (H p (or_introl eq_refl)) as [N NE].
  set (c := length (vals_of d p)) in *. assert (Hc : c <> 0) by (unfold c; destruct (vals_of d p); [congruence|discriminate]).
  assert (E1 : nth (n mod c) (vals_of d p) "" = nth (m mod c) (vals_of d p) "") by congruence. assert (E2 : label_of d ps (n / c) = label_of d ps (m / c)) by congruence.
  apply nth_inj in E1; [|assumption|apply Nat.mod_upper_bound; exact Hc|apply Nat.mod_upper_bound; exact Hc].
  apply IH in E2; [|intros; apply H; now right|apply Nat.div_lt_upper_bound; assumption|apply Nat.div_lt_upper_bound; assumption].
  rewrite (Nat.div_mod n c Hc), (Nat.div_mod m c Hc). congruence.
Qed.
Lemma label_radix d cd ps a : (forall p, In p ps -> cd (NStr p) = length (vals_of d p)) -> valid cd (map NStr ps) a ->
  label_of d ps (radix cd (map NStr ps) a) = map (fun q => nth (a (NStr q)) (vals_of d q) "") ps.
Proof.
  induction ps as [|p ps IH]; intros H V; [reflexivity|]. cbn [map radix label_of] in *. apply valid_cons in V as [V1 V2]. rewrite <- (H p (or_introl eq_refl)).
  rewrite (Nat.mul_comm (cd (NStr p))), Nat.mod_add, Nat.mod_small by lia. rewrite Nat.div_add, Nat.div_small by lia. simpl Nat.add. rewrite IH; auto. intros; apply H; now right.
Qed.
Lemma last_n_app {A} (l m : list A) k : length m = k -> k <> 0 -> last_n k (l ++ m) = m.
Proof.
  intros E N. unfold last_n. destruct (Nat.eqb_spec k 0); [contradiction|]. rewrite app_length, E. replace (length l + k - k) with (length l) by lia.
  rewrite skipn_app, Nat.sub_diag, skipn_all. reflexivity.
Qed.
Lemma in_tables fl d p : In p (d_probs d) -> In (p, map (fun r => map (num fl) (taken d p r)) (bp_rows p)) (combine (d_probs d) (tables fl d)).
Proof. unfold tables. induction (d_probs d) as [|q l IH]; intros H; [destruct H|]. destruct H as [->|H]; [now left|right; auto]. Qed.

(** the network described by a document *)
Lemma doc_network count fl d bn :
  bif_ok count d -> bif_net fl d -> (forall v, ~ clos_trans string (doc_edge d) v v) ->
  (forall p r, In p (d_probs d) -> In r (bp_rows p) -> taken d p r = snd r) ->
  Permutation (dkeys (bn_F bn)) (map NStr (map bv_name (d_vars d))) -> dkeys (bn_E bn) = dkeys (bn_F bn) ->
  (forall p t, In (p, t) (combine (d_probs d) (tables fl d)) -> dget (bn_F bn) (NStr (bp_child p)) = Some (mkF (map NStr (bp_parents p)) (map NStr (vals_of d (bp_child p))) (concat t))) ->
  (forall u v, edge (bn_E bn) u v <-> exists a b, u = NStr a /\ v = NStr b /\ doc_edge d a b) ->
  topsort (bn_E bn) None = Ok (bn_V bn) ->
  Permutation (bn_V bn) (map NStr (map bv_name (d_vars d))) /\ wfnet bn /\ agree bn /\
  (forall p, In p (d_probs d) -> nparents bn (NStr (bp_child p)) = map NStr (bp_parents p) /\ nvalues bn (NStr (bp_child p)) = map NStr (vals_of d (bp_child p))) /\
  (forall p r j x a, In p (d_probs d) -> In r (bp_rows p) -> nth_error (snd r) j = Some x -> a (NStr (bp_child p)) = j -> valid (ncard bn) (map NStr (bp_parents p)) a ->
     fst r = map (fun q => nth (a (NStr q)) (vals_of d q) "") (bp_parents p) -> cond_prob bn (NStr (bp_child p)) a = Some (num fl x)).
Proof.
  intros K B Ac Tk PF KE DF EE TV. pose proof (bo_names _ _ K) as ND.
  assert (NE : NoDup (dkeys (bn_E bn))) by (rewrite KE; eapply Permutation_NoDup; [symmetry; exact PF|now apply NoDup_NStr]).
  assert (C : closed_edges (bn_E bn)).
  { split; [exact NE|]. intros u v H. apply EE in H as (a & b & -> & -> & p & Hp & <- & Ha). rewrite KE. eapply Permutation_in; [symmetry; exact PF|]. apply in_map.
    eapply Permutation_in; [apply (bo_probs _ _ K)|now apply in_map]. }
  assert (A : acyclic (bn_E bn)).
  { intros v P. assert (G : forall u w, path (bn_E bn) u w -> exists a b, u = NStr a /\ w = NStr b /\ clos_trans string (doc_edge d) a b).
    { intros u w H. induction H as [u w H|u w z _ IH1 _ IH2]; [apply EE in H as (a & b & -> & -> & H); exists a, b; split; [reflexivity|split; [reflexivity|now constructor]]|].
      destruct IH1 as (a & b & -> & -> & H1), IH2 as (b' & c & E & -> & H2). injection E as <-. exists a, c. split; [reflexivity|]. split; [reflexivity|]. eapply t_trans; eassumption. }
    destruct (G v v P) as (a & b & -> & E & H). injection E as <-. exact (Ac a H). }
  destruct (C20_topsort_acyclic _ C A) as (V & TV' & PV). rewrite TV in TV'. injection TV' as <-.
  assert (PN : Permutation (bn_V bn) (map NStr (map bv_name (d_vars d)))) by (rewrite PV, KE; exact PF).
  split; [exact PN|].
  (* facts about one table *)
  assert (CH : forall v, In v (bn_V bn) -> exists p, In p (d_probs d) /\ v = NStr (bp_child p)).
  { intros v Hv. eapply Permutation_in in Hv; [|exact PN]. apply in_map_iff in Hv as (x & <- & Hx). eapply Permutation_in in Hx; [|symmetry; apply (bo_probs _ _ K)].
    apply in_map_iff in Hx as (p & <- & Hp). eauto. }
  assert (DP : forall p, In p (d_probs d) -> dget (bn_F bn) (NStr (bp_child p)) = Some (mkF (map NStr (bp_parents p)) (map NStr (vals_of d (bp_child p))) (concat (map (fun r => map (num fl) (snd r)) (bp_rows p))))).
  { intros p Hp. rewrite (DF p _ (in_tables fl d p Hp)). do 3 f_equal. apply map_ext_in. intros r Hr. now rewrite Tk. }
  assert (VO : forall v, In v (map bv_name (d_vars d)) -> NoDup (vals_of d v) /\ vals_of d v <> []).
  { intros v Hv. apply in_map_iff in Hv as (b & <- & Hb). unfold vals_of. destruct (find (fun b0 => String.eqb (bv_name b0) (bv_name b)) (d_vars d)) as [b'|] eqn:Ef.
    - apply find_some in Ef as [Hb' _]. exact (bn_vals _ _ B b' Hb').
    - eapply find_none in Ef; [|exact Hb]. simpl in Ef. rewrite String.eqb_refl in Ef. discriminate. }
  assert (CN : forall p, In p (d_probs d) -> In (bp_child p) (map bv_name (d_vars d))) by (intros p Hp; eapply Permutation_in; [apply (bo_probs _ _ K)|now apply in_map]).
  assert (NC : forall v, In v (map bv_name (d_vars d)) -> ncard bn (NStr v) = length (vals_of d v)).
  { intros v Hv. eapply Permutation_in in Hv; [|symmetry; apply (bo_probs _ _ K)]. apply in_map_iff in Hv as (p & <- & Hp). unfold ncard. rewrite (DP p Hp). simpl. apply map_length. }
  assert (PC : forall p, In p (d_probs d) -> map (ncard bn) (map NStr (bp_parents p)) = map (fun q => length (vals_of d q)) (bp_parents p)).
  { intros p Hp. rewrite map_map. apply map_ext_in. intros q Hq. apply NC. now apply (bo_par _ _ K p Hp). }
  assert (RL : forall p, In p (d_probs d) -> length (bp_rows p) = nprod (map (fun q => length (vals_of d q)) (bp_parents p))).
  { intros p Hp. rewrite <- (map_length fst), (bn_rows _ _ B p Hp), map_length, seq_length. reflexivity. }
  assert (RC : forall p l, In p (d_probs d) -> In l (map (fun r => map (num fl) (snd r)) (bp_rows p)) -> length l = length (vals_of d (bp_child p))).
  { intros p l Hp Hl. apply in_map_iff in Hl as (r & <- & Hr). rewrite map_length. apply (bn_nums _ _ B p r Hp Hr). }
  split; [|split; [|split]].
  - split.
    + eapply Permutation_NoDup; [symmetry; exact PN|now apply NoDup_NStr].
    + intros v Hv. destruct (CH v Hv) as (p & Hp & ->). eauto.
    + intros v Hv. destruct (CH v Hv) as (p & Hp & ->). unfold nparents. rewrite (DP p Hp). cbn [f_parents]. change (NStr (bp_child p) :: map NStr (bp_parents p)) with (map NStr (bp_child p :: bp_parents p)).
      apply NoDup_NStr, (bn_pars _ _ B p Hp).
    + intros v Hv. destruct (CH v Hv) as (p & Hp & ->). unfold nparents. rewrite (DP p Hp). cbn [f_parents]. intros u Hu. eapply Permutation_in; [symmetry; exact PN|].
      apply in_map_iff in Hu as (q & <- & Hq). apply in_map. now apply (bo_par _ _ K p Hp).
    + intros v Hv. destruct (CH v Hv) as (p & Hp & ->). unfold nvalues. rewrite (DP p Hp). cbn [f_values]. destruct (VO _ (CN p Hp)) as [V1 V2]. split; [now apply NoDup_NStr|].
      destruct (vals_of d (bp_child p)); [congruence|discriminate].
    + intros v Hv. destruct (CH v Hv) as (p & Hp & ->). unfold ncpt, nparents. rewrite (DP p Hp). cbn [f_cptl f_parents].
      rewrite (concat_length (length (vals_of d (bp_child p)))) by (intros l; now apply RC). rewrite map_length, (RL p Hp). cbn [map]. change (nprod (ncard bn (NStr (bp_child p)) :: map (ncard bn) (map NStr (bp_parents p)))) with (ncard bn (NStr (bp_child p)) * nprod (map (ncard bn) (map NStr (bp_parents p)))).
      rewrite (PC p Hp), (NC _ (CN p Hp)). reflexivity.
  - intros u v Hu Hv. destruct (CH v Hv) as (p & Hp & ->). rewrite EE. unfold nparents. rewrite (DP p Hp). cbn [f_parents]. split.
    + intros I. apply in_map_iff in I as (q & <- & Hq). exists q, (bp_child p). split; [reflexivity|]. split; [reflexivity|]. exists p. auto.
    + intros (a & b & -> & E & p' & Hp' & E' & Ha). injection E as <-. apply in_map. assert (p' = p) as ->; [|exact Ha].
      assert (NDc : NoDup (map bp_child (d_probs d))) by (eapply Permutation_NoDup; [symmetry; apply (bo_probs _ _ K)|exact ND]).
      clear -NDc Hp Hp' E'. induction (d_probs d) as [|q l IH]; [destruct Hp|]. simpl in NDc. inversion NDc; subst.
      destruct Hp as [->|Hp], Hp' as [->|Hp']; auto; exfalso; apply H1; [rewrite <- E'|rewrite E']; now apply in_map.
  - intros p Hp. unfold nparents, nvalues. rewrite (DP p Hp). auto.
  - intros p r j x a Hp Hr Hx Ej Va Fr. unfold cond_prob, ncpt, nparents. rewrite (DP p Hp). cbn [f_cptl f_parents radix]. rewrite Ej, (NC _ (CN p Hp)).
    set (i := radix (ncard bn) (map NStr (bp_parents p)) a).
    assert (Hi : i < nprod (map (fun q => length (vals_of d q)) (bp_parents p))) by (rewrite <- (PC p Hp); apply (radix_lt _ _ _ Va)).
    assert (Ei : label_of d (bp_parents p) i = fst r).
    { rewrite Fr. apply label_radix; [|exact Va]. intros q Hq. apply NC. now apply (bo_par _ _ K p Hp). }
    apply In_nth_error in Hr as (i' & Hi'). assert (Li : i' < length (bp_rows p)) by (apply nth_error_Some; congruence).
    assert (E' : fst r = label_of d (bp_parents p) i').
    { pose proof (map_nth_error fst _ _ Hi') as H. rewrite (bn_rows _ _ B p Hp) in H. rewrite nth_error_map in H.
      rewrite (nth_error_nth' _ 0) in H by (rewrite seq_length, <- (RL p Hp); exact Li). rewrite seq_nth in H by (rewrite <- (RL p Hp); exact Li). simpl in H. congruence. }
    assert (i = i') as <-.
    { apply (label_inj d (bp_parents p)); [intros q Hq; apply VO; now apply (bo_par _ _ K p Hp)|exact Hi|rewrite <- (RL p Hp); exact Li|congruence]. }
    assert (Lr : length (snd r) = length (vals_of d (bp_child p))) by (apply (bn_nums _ _ B p r Hp); eapply nth_error_In; eassumption).
    rewrite (nth_error_rows _ _ (fun l => RC p l Hp) i j (map (num fl) (snd r))).
    + now apply map_nth_error.
    + rewrite <- Lr. apply nth_error_Some. congruence.
    + now apply (map_nth_error (fun r => map (num fl) (snd r))).
Qed.

(** ** Decision procedures for the examples *)
Definition tokenb (t : string) : bool := negb (String.eqb t "") && schars (fun c => negb (separator c)) t.
Lemma tokenb_ok t : tokenb t = true -> token t.
Proof. unfold tokenb. intros H. apply andb_prop in H as [H1 H2]. split; [|exact H2]. intros ->. discriminate. Qed.
Fixpoint snodup (l : list string) : bool := match l with [] => true | x :: r => negb (existsb (String.eqb x) r) && snodup r end.
Lemma snodup_ok l : snodup l = true -> NoDup l.
Proof.
  induction l as [|x l IH]; intros H; [constructor|]. simpl in H. apply andb_prop in H as [H1 H2]. constructor; [|auto]. intros I.
  apply negb_true_iff in H1. assert (existsb (String.eqb x) l = true) by (apply existsb_exists; exists x; split; [assumption|apply String.eqb_refl]). congruence.
Qed.
Definition bif_okb (count : bvar -> string) (d : bifdoc) : bool :=
  snodup (map bv_name (d_vars d)) &&
  forallb (fun v => tokenb (bv_name v) && negb (contains "variable" (bv_name v)) && negb (contains "probability" (bv_name v)) && tokenb (count v) && forallb tokenb (bv_vals v)) (d_vars d) &&
  (snodup (map bp_child (d_probs d)) && forallb (fun x => existsb (String.eqb x) (map bv_name (d_vars d))) (map bp_child (d_probs d)) && (length (d_probs d) =? length (d_vars d))%nat) &&
  forallb (fun p => forallb (fun x => existsb (String.eqb x) (map bv_name (d_vars d))) (bp_parents p) && forallb (fun r => forallb tokenb (fst r ++ snd r)) (bp_rows p) &&
    match bp_parents p, bp_rows p with [], [([], _)] => true | [], _ => false | _, _ => true end) (d_probs d).
Lemma existsb_str x l : existsb (String.eqb x) l = true -> In x l.
Proof. intros H. apply existsb_exists in H as (y & Hy & E). apply String.eqb_eq in E. now subst. Qed.
Lemma bif_okb_ok count d : bif_okb count d = true -> bif_ok count d.
Proof.
  unfold bif_okb. intros H. apply andb_prop in H as [H H4]. apply andb_prop in H as [H H3]. apply andb_prop in H as [H1 H2]. rewrite forallb_forall in H2, H4.
  apply andb_prop in H3 as [H3 H3c]. apply andb_prop in H3 as [H3a H3b]. rewrite forallb_forall in H3b. apply Nat.eqb_eq in H3c. split.
  - now apply snodup_ok.
  - intros v Hv. specialize (H2 v Hv). apply andb_prop in H2 as [H2 _]. apply andb_prop in H2 as [H2 _]. apply andb_prop in H2 as [H2 Hb]. apply andb_prop in H2 as [H2 Ha].
    apply negb_true_iff in Ha, Hb. split; [now apply tokenb_ok|auto].
  - intros v Hv. specialize (H2 v Hv). apply andb_prop in H2 as [H2 H5]. apply andb_prop in H2 as [_ H2]. split; [now apply tokenb_ok|]. rewrite forallb_forall in H5. intros x Hx. now apply tokenb_ok, H5.
  - apply NoDup_Permutation_bis; [now apply snodup_ok|rewrite !map_length; lia|]. intros x Hx. apply existsb_str. now apply H3b.
  - intros p Hp x Hx. specialize (H4 p Hp). apply andb_prop in H4 as [H4 _]. apply andb_prop in H4 as [H4 _]. rewrite forallb_forall in H4. now apply existsb_str, H4.
  - intros p r Hp Hr x Hx. specialize (H4 p Hp). apply andb_prop in H4 as [H4 _]. apply andb_prop in H4 as [_ H4]. rewrite forallb_forall in H4. specialize (H4 r Hr). rewrite forallb_forall in H4. now apply tokenb_ok, H4.
  - intros p Hp E. specialize (H4 p Hp). apply andb_prop in H4 as [_ H4]. rewrite E in H4. destruct (bp_rows p) as [|[[|] nums] [|]]; try discriminate. eauto.
Qed.
(** a rank function decreasing along edges shows acyclicity *)
Lemma rank_acyclic d (rank : string -> nat) : (forall u v, doc_edge d u v -> rank u < rank v) -> forall v, ~ clos_trans string (doc_edge d) v v.
Proof.
  intros H. assert (G : forall u v, clos_trans string (doc_edge d) u v -> rank u < rank v) by (intros u v P; induction P; [auto|lia]). intros v P. apply G in P. lia.
Qed.
Definition bif_netb (fl : string -> option Qc) (d : bifdoc) : bool :=
  forallb (fun v => snodup (bv_vals v) && negb (length (bv_vals v) =? 0)%nat) (d_vars d) &&
  forallb (fun p => snodup (bp_child p :: bp_parents p) &&
    (if list_eq_dec (list_eq_dec string_dec) (map fst (bp_rows p)) (map (label_of d (bp_parents p)) (seq 0 (nprod (map (fun q => length (vals_of d q)) (bp_parents p))))) then true else false) &&
    forallb (fun r => (length (snd r) =? length (vals_of d (bp_child p)))%nat && forallb (fun x => match fl x with Some _ => true | None => false end) (snd r)) (bp_rows p)) (d_probs d).
Lemma bif_netb_ok fl d : bif_netb fl d = true -> bif_net fl d.
Proof.
  unfold bif_netb. intros H. apply andb_prop in H as [H1 H2]. rewrite forallb_forall in H1, H2. split.
  - intros v Hv. specialize (H1 v Hv). apply andb_prop in H1 as [H1 H3]. split; [now apply snodup_ok|]. destruct (bv_vals v); [discriminate|congruence].
  - intros p Hp. specialize (H2 p Hp). apply andb_prop in H2 as [H2 _]. apply andb_prop in H2 as [H2 _]. now apply snodup_ok.
  - intros p Hp. specialize (H2 p Hp). apply andb_prop in H2 as [H2 _]. apply andb_prop in H2 as [_ H2]. destruct (list_eq_dec _ _ _); [assumption|discriminate].
  - intros p r Hp Hr. specialize (H2 p Hp). apply andb_prop in H2 as [_ H2]. rewrite forallb_forall in H2. specialize (H2 r Hr). apply andb_prop in H2 as [H2 H3]. apply Nat.eqb_eq in H2. split; [exact H2|].
    rewrite forallb_forall in H3. intros x Hx E. specialize (H3 x Hx). rewrite E in H3. discriminate.
Qed.
