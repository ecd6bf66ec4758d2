(** HeapNet.v -- copy() observes the same network; edits of an unshared network refine value-level edits. *)
From Verif Require Import Py Num BayesNet SpecFactor SpecGraph BayesNetHeap HeapFrame.
Open Scope nat_scope.

(** ** Monotonicity of observations under allocation *)
Lemma names_app h l r x : get_names h r = Some x -> get_names (h ++ l) r = Some x.
Proof.
  unfold get_names. destruct (nth_error h r) as [o|] eqn:E; [|discriminate].
  rewrite nth_error_app1 by (apply nth_error_Some; congruence). now rewrite E.
Qed.
Lemma nums_app h l r x : get_nums h r = Some x -> get_nums (h ++ l) r = Some x.
Proof.
  unfold get_nums. destruct (nth_error h r) as [o|] eqn:E; [|discriminate].
  rewrite nth_error_app1 by (apply nth_error_Some; congruence). now rewrite E.
Qed.
Lemma nth_app {A} (h l : list A) r o : nth_error h r = Some o -> nth_error (h ++ l) r = Some o.
Proof. intros E. rewrite nth_error_app1; [assumption|]. apply nth_error_Some. congruence. Qed.
Lemma data_app h l r x : get_data h r = Some x -> get_data (h ++ l) r = Some x.
Proof.
  unfold get_data. destruct (nth_error h r) as [o|] eqn:E; [|discriminate]. rewrite (nth_app h l r o E).
  destruct o as [| | |c p v|]; try discriminate.
  destruct (get_names h p) as [ps|] eqn:Ep; [|discriminate]. destruct (get_names h v) as [vs|] eqn:Ev; [|discriminate].
  destruct (get_nums h c) as [cs|] eqn:Ec; [|discriminate].
  now rewrite (names_app h l p ps Ep), (names_app h l v vs Ev), (nums_app h l c cs Ec).
Qed.

Definition ent {A} (g : ref -> option A) (kr : name * ref) : option (name * A) :=
  match g (snd kr) with Some a => Some (fst kr, a) | None => None end.
Lemma get_dict_ent {A} h (g : ref -> option A) r : get_dict h g r =
  match nth_error h r with Some (ODict d) => mapO (ent g) d | _ => None end.
Proof. reflexivity. Qed.
Lemma mapO_dget {A} (g : ref -> option A) d d' k : mapO (ent g) d = Some d' ->
  dget d' k = match dget d k with Some r => g r | None => None end.
Proof.
  revert d'. induction d as [|[k' r] t IH]; intros d' H; simpl in H; [inversion H; subst; reflexivity|].
  unfold ent in H at 1. simpl in H. destruct (g r) as [a|] eqn:E; [|discriminate]. destruct (mapO (ent g) t) as [t'|]; [|discriminate].
  inversion H; subst. simpl. destruct (name_eqb k k'); [now rewrite E|now apply IH].
Qed.
Lemma mapO_keys {A} (g : ref -> option A) d d' : mapO (ent g) d = Some d' -> dkeys d' = dkeys d.
Proof.
  revert d'. induction d as [|[k r] t IH]; intros d' H; simpl in H; [inversion H; reflexivity|].
  unfold ent in H at 1. simpl in H. destruct (g r) as [a|]; [|discriminate]. destruct (mapO (ent g) t) as [t'|]; [|discriminate].
  inversion H; subst. unfold dkeys in *. simpl. f_equal. now apply IH.
Qed.
Lemma mapO_total {A B} (f : A -> option B) l : (forall x, In x l -> f x <> None) -> exists l', mapO f l = Some l'.
Proof.
  induction l as [|x r IH]; intros H; [exists []; reflexivity|]. simpl. destruct (f x) as [y|] eqn:E.
  - destruct IH as (l' & ->); [intros z Hz; apply H; now right|]. eauto.
  - exfalso. apply (H x); [now left|assumption].
Qed.
Lemma mapO_defined {A B} (f : A -> option B) l l' : mapO f l = Some l' -> forall x, In x l -> f x <> None.
Proof.
  revert l'. induction l as [|y r IH]; intros l' H x Hx; [destruct Hx|]. simpl in H.
  destruct (f y) as [b|] eqn:E; [|discriminate]. destruct (mapO f r) as [r'|]; [|discriminate].
  destruct Hx as [->|Hx]; [congruence|]. now apply (IH r' eq_refl).
Qed.
Lemma mapO_ext' {A} (g g' : ref -> option A) d d' : mapO (ent g) d = Some d' -> (forall r x, g r = Some x -> g' r = Some x) -> mapO (ent g') d = Some d'.
Proof.
  revert d'. induction d as [|[k r] t IH]; intros d' H E; simpl in *; [assumption|]. unfold ent in H at 1. simpl in H.
  destruct (g r) as [a|] eqn:Eg; [|discriminate]. destruct (mapO (ent g) t) as [t'|]; [|discriminate]. inversion H; subst.
  unfold ent at 1. simpl. rewrite (E r a Eg), (IH t' eq_refl E). reflexivity.
Qed.

(** ** copy *)
Definition ext (h h' : heap) : Prop := exists l, h' = h ++ l.
Lemma ext_refl h : ext h h. Proof. exists []. now rewrite app_nil_r. Qed.
Lemma ext_trans a b c : ext a b -> ext b c -> ext a c.
Proof. intros (l & ->) (m & ->). exists (l ++ m). now rewrite app_assoc. Qed.
Lemma ext_names h h' r x : ext h h' -> get_names h r = Some x -> get_names h' r = Some x.
Proof. intros (l & ->). apply names_app. Qed.
Lemma ext_nums h h' r x : ext h h' -> get_nums h r = Some x -> get_nums h' r = Some x.
Proof. intros (l & ->). apply nums_app. Qed.
Lemma ext_data h h' r x : ext h h' -> get_data h r = Some x -> get_data h' r = Some x.
Proof. intros (l & ->). apply data_app. Qed.
Lemma ext_nth (h h' : heap) r o : ext h h' -> nth_error h r = Some o -> nth_error h' r = Some o.
Proof. intros (l & ->). apply nth_app. Qed.

Lemma nth_new (h : heap) o : nth_error (h ++ [o]) (length h) = Some o.
Proof. rewrite nth_error_app2 by lia. now rewrite Nat.sub_diag. Qed.
Lemma leaf_names h r l : get_names h r = Some l -> exists h', deep_leaf r h = (h', Ok (length h)) /\ ext h h' /\ get_names h' (length h) = Some l.
Proof.
  unfold get_names, deep_leaf, bindM, load. destruct (nth_error h r) as [o|] eqn:E; [|discriminate]. destruct o; try discriminate.
  intros H. inversion H; subst. exists (h ++ [ONames l]). split; [reflexivity|]. split; [now exists [ONames l]|]. now rewrite nth_new.
Qed.
Lemma leaf_nums h r l : get_nums h r = Some l -> exists h', deep_leaf r h = (h', Ok (length h)) /\ ext h h' /\ get_nums h' (length h) = Some l.
Proof.
  unfold get_nums, deep_leaf, bindM, load. destruct (nth_error h r) as [o|] eqn:E; [|discriminate]. destruct o; try discriminate.
  intros H. inversion H; subst. exists (h ++ [ONums l]). split; [reflexivity|]. split; [now exists [ONums l]|]. now rewrite nth_new.
Qed.
Lemma items_ok d : forall memo h d0, mapO (ent (get_names h)) d = Some d0 ->
  (forall a b, memo_get memo a = Some b -> exists l, get_names h a = Some l /\ get_names h b = Some l) ->
  exists h' d', deep_items d memo h = (h', Ok d') /\ ext h h' /\ mapO (ent (get_names h')) d' = Some d0.
Proof.
  induction d as [|[k r] t IH]; intros memo h d0 H Hm; simpl in *.
  - exists h, []. split; [reflexivity|]. split; [apply ext_refl|exact H].
  - unfold ent in H at 1. simpl in H. destruct (get_names h r) as [a|] eqn:Er; [|discriminate].
    destruct (mapO (ent (get_names h)) t) as [t0|] eqn:Et; [|discriminate]. inversion H; subst. clear H.
    destruct (memo_get memo r) as [r'|] eqn:Em.
    + destruct (IH memo h t0 Et Hm) as (h' & d' & E & X & O). unfold bindM. rewrite E.
      exists h', ((k, r') :: d'). split; [reflexivity|]. split; [exact X|]. simpl. unfold ent at 1. simpl.
      destruct (Hm r r' Em) as (l & L1 & L2). assert (l = a) by congruence. subst.
      rewrite (ext_names h h' r' a X L2), O. reflexivity.
    + destruct (leaf_names h r a Er) as (h1 & E1 & X1 & N1).
      destruct (IH ((r, length h) :: memo) h1 t0) as (h' & d' & E & X & O).
      * apply (mapO_ext' (get_names h)); [assumption|]. intros x l Hx. now apply (ext_names h h1).
      * intros x y. simpl. destruct (Nat.eqb_spec r x) as [<-|N]; intros Hxy.
        -- inversion Hxy; subst. exists a. split; [now apply (ext_names h h1)|assumption].
        -- destruct (Hm x y Hxy) as (l & L1 & L2). exists l. split; now apply (ext_names h h1).
      * unfold bindM at 1. rewrite E1. unfold bindM at 1. match goal with |- context [let (_, _) := ?m in _] => replace m with (h', Ok d') by (symmetry; exact E) end. exists h', ((k, length h) :: d'). split; [reflexivity|]. split; [now apply (ext_trans h h1)|].
        simpl. unfold ent at 1. simpl. rewrite (ext_names h1 h' (length h) a X N1), O. reflexivity.
Qed.

(** well-typed view of a network *)
Lemma observe_inv h b bn : observe h b = Some bn -> exists V E F dE dF,
  nth_error h b = Some (ONet V E F) /\ get_names h V = Some (bn_V bn) /\
  nth_error h E = Some (ODict dE) /\ mapO (ent (get_names h)) dE = Some (bn_E bn) /\
  nth_error h F = Some (ODict dF) /\ mapO (ent (get_data h)) dF = Some (bn_F bn).
Proof.
  unfold observe. destruct (nth_error h b) as [o|] eqn:Eb; [|discriminate]. destruct o as [| | | |V E F]; try discriminate.
  destruct (get_names h V) as [vs|] eqn:EV; [|discriminate]. rewrite !get_dict_ent.
  destruct (nth_error h E) as [o|] eqn:EE; [|discriminate]. destruct o as [| |dE| |]; try discriminate.
  destruct (mapO (ent (get_names h)) dE) as [es|] eqn:ME; [|discriminate].
  destruct (nth_error h F) as [o|] eqn:EF; [|discriminate]. destruct o as [| |dF| |]; try discriminate.
  destruct (mapO (ent (get_data h)) dF) as [fs|] eqn:MF; [|discriminate].
  intros H. inversion H; subst. simpl. exists V, E, F, dE, dF. auto 10.
Qed.
Lemma observe_intro h b bn V E F dE dF : nth_error h b = Some (ONet V E F) -> get_names h V = Some (bn_V bn) ->
  nth_error h E = Some (ODict dE) -> mapO (ent (get_names h)) dE = Some (bn_E bn) ->
  nth_error h F = Some (ODict dF) -> mapO (ent (get_data h)) dF = Some (bn_F bn) -> observe h b = Some bn.
Proof.
  intros H1 H2 H3 H4 H5 H6. unfold observe. rewrite H1, H2, !get_dict_ent, H3, H4, H5, H6. now destruct bn.
Qed.

Lemma F_at_ok h b V E F dF v : nth_error h b = Some (ONet V E F) -> nth_error h F = Some (ODict dF) ->
  F_at b v h = (h, getitem dF v).
Proof.
  intros H1 H2. unfold F_at, net_F, load_net, load_dict, bindM, load, ret, lift. rewrite H1. simpl. now rewrite H2.
Qed.
Lemma E_at_ok h b V E F dE v : nth_error h b = Some (ONet V E F) -> nth_error h E = Some (ODict dE) ->
  E_at b v h = (h, getitem dE v).
Proof.
  intros H1 H2. unfold E_at, net_E, load_net, load_dict, bindM, load, ret, lift. rewrite H1. simpl. now rewrite H2.
Qed.
Lemma get_data_inv h r d : get_data h r = Some d -> exists c p v, nth_error h r = Some (ODat c p v) /\
  get_names h p = Some (f_parents d) /\ get_names h v = Some (f_values d) /\ get_nums h c = Some (f_cptl d).
Proof.
  unfold get_data. destruct (nth_error h r) as [o|] eqn:E; [|discriminate]. destruct o as [| | |c p v|]; try discriminate.
  destruct (get_names h p) as [ps|] eqn:Ep; [|discriminate]. destruct (get_names h v) as [vs|] eqn:Ev; [|discriminate].
  destruct (get_nums h c) as [cs|] eqn:Ec; [|discriminate]. intros H. inversion H; subst. simpl. exists c, p, v. auto.
Qed.
Lemma get_data_intro h r d c p v : nth_error h r = Some (ODat c p v) ->
  get_names h p = Some (f_parents d) -> get_names h v = Some (f_values d) -> get_nums h c = Some (f_cptl d) -> get_data h r = Some d.
Proof. intros H1 H2 H3 H4. unfold get_data. rewrite H1, H2, H3, H4. now destruct d. Qed.
Lemma load_dat_ok h r c p v : nth_error h r = Some (ODat c p v) -> load_dat r h = (h, Ok (c, p, v)).
Proof. intros H. unfold load_dat, bindM, load, ret. now rewrite H. Qed.
Lemma load_names_ok h r l : get_names h r = Some l -> load_names r h = (h, Ok l).
Proof. unfold get_names, load_names, bindM, load, ret. destruct (nth_error h r) as [o|]; [|discriminate]. destruct o; try discriminate. intros H. now inversion H. Qed.

Lemma copy_F_ok h b V E F dF fs vs : nth_error h b = Some (ONet V E F) -> nth_error h F = Some (ODict dF) ->
  mapO (ent (get_data h)) dF = Some fs -> (forall v, In v vs -> In v (dkeys fs)) ->
  forall h1 F1, ext h h1 -> (forall k r, dget F1 k = Some r -> exists d, get_data h1 r = Some d /\ dget fs k = Some d) ->
  exists h2 F2, copy_F b vs F1 h1 = (h2, Ok F2) /\ ext h1 h2 /\
    (forall k r, dget F2 k = Some r -> exists d, get_data h2 r = Some d /\ dget fs k = Some d) /\
    (forall k, In k (dkeys F2) <-> In k vs \/ In k (dkeys F1)).
Proof.
  intros Hb HF HM. induction vs as [|v t IH]; intros Hvs h1 F1 X HI; simpl copy_F.
  - exists h1, F1. split; [reflexivity|]. split; [apply ext_refl|]. split; [exact HI|]. intros k. simpl. tauto.
  - destruct (In_dget fs v (Hvs v (or_introl eq_refl))) as (dv & Hdv).
    assert (Hr := mapO_dget _ _ _ v HM). rewrite Hdv in Hr. destruct (dget dF v) as [r|] eqn:Er; [|discriminate].
    symmetry in Hr. destruct (get_data_inv h1 r dv (ext_data h h1 r dv X Hr)) as (c & p & w & Ed & Np & Nv & Nc).
    unfold bindM at 1. rewrite (F_at_ok h1 b V E F dF v (ext_nth h h1 _ _ X Hb) (ext_nth h h1 _ _ X HF)). unfold getitem. rewrite Er.
    unfold bindM at 1. rewrite (load_dat_ok h1 r c p w Ed). simpl fst. simpl snd.
    destruct (leaf_nums h1 c _ Nc) as (ha & Ea & Xa & Na). unfold bindM at 1. rewrite Ea.
    destruct (leaf_names ha p _ (ext_names h1 ha _ _ Xa Np)) as (hb & Eb & Xb & Nb). unfold bindM at 1. rewrite Eb.
    assert (Xab : ext h1 hb) by now apply (ext_trans h1 ha).
    destruct (leaf_names hb w _ (ext_names h1 hb _ _ Xab Nv)) as (hc & Ec & Xc & Nc'). unfold bindM at 1. rewrite Ec.
    set (hd := hc ++ [ODat (length h1) (length ha) (length hb)]).
    assert (Xd : ext hc hd) by now exists [ODat (length h1) (length ha) (length hb)].
    assert (X1d : ext h1 hd) by (apply (ext_trans h1 hb); [exact Xab|now apply (ext_trans hb hc)]).
    unfold bindM at 1. unfold alloc. fold hd.
    assert (Dd : get_data hd (length hc) = Some dv).
    { apply (get_data_intro _ _ _ (length h1) (length ha) (length hb)); [unfold hd; apply nth_new| | |].
      - apply (ext_names hb hd); [now apply (ext_trans hb hc)|exact Nb].
      - now apply (ext_names hc hd).
      - apply (ext_nums ha hd); [apply (ext_trans ha hb); [exact Xb|now apply (ext_trans hb hc)]|exact Na]. }
    destruct (IH (fun x Hx => Hvs x (or_intror Hx)) hd (dset F1 v (length hc))) as (h2 & F2 & E2 & X2 & H2 & K2).
    + now apply (ext_trans h h1).
    + intros k r' Hk. rewrite dget_dset in Hk. destruct (name_eqb_spec k v) as [->|N].
      * inversion Hk; subst. exists dv. auto.
      * destruct (HI k r' Hk) as (d & D1 & D2). exists d. split; [now apply (ext_data h1 hd)|assumption].
    + exists h2, F2. split; [exact E2|]. split; [now apply (ext_trans h1 hd)|]. split; [exact H2|].
      intros k. rewrite K2, In_dkeys_dset. simpl. firstorder congruence.
Qed.

Lemma copy_ok h b bn : observe h b = Some bn -> incl (bn_V bn) (dkeys (bn_F bn)) ->
  exists h1 c bn', h_copy b h = (h1, Ok c) /\ observe h1 c = Some bn' /\
    bn_V bn' = bn_V bn /\ bn_E bn' = bn_E bn /\ (forall v, In v (bn_V bn) -> dget (bn_F bn') v = dget (bn_F bn) v) /\
    (forall v, In v (dkeys (bn_F bn')) <-> In v (bn_V bn)).
Proof.
  intros O I. destruct (observe_inv h b bn O) as (V & E & F & dE & dF & Hb & HV & HE & ME & HF & MF).
  unfold h_copy. unfold bindM at 1. unfold net_V, load_net, bindM at 1 2, load, ret. rewrite Hb. simpl fst.
  destruct (leaf_names h V _ HV) as (h1 & E1 & X1 & N1). unfold bindM at 1. rewrite E1.
  unfold bindM at 1. unfold net_E, load_net, bindM at 1 2, load, ret. rewrite (ext_nth h h1 _ _ X1 Hb). simpl fst. simpl snd.
  unfold bindM at 1. unfold deep_dict. unfold bindM at 1. unfold load_dict, bindM at 1, load. rewrite (ext_nth h h1 _ _ X1 HE). unfold ret at 1.
  destruct (items_ok dE [] h1 (bn_E bn)) as (h2 & d2 & E2 & X2 & M2).
  { apply (mapO_ext' (get_names h)); [assumption|]. intros r x. now apply ext_names. }
  { discriminate. }
  unfold bindM at 1. rewrite E2. unfold alloc at 1. set (h3 := h2 ++ [ODict d2]).
  assert (X3 : ext h2 h3) by now exists [ODict d2].
  assert (X13 : ext h1 h3) by now apply (ext_trans h1 h2). assert (X03 : ext h h3) by now apply (ext_trans h h1).
  unfold bindM at 1. rewrite (load_names_ok h3 (length h) (bn_V bn)) by now apply (ext_names h1 h3).
  destruct (copy_F_ok h b V E F dF (bn_F bn) (bn_V bn) Hb HF MF I h3 [] X03) as (h4 & F4 & E4 & X4 & H4 & K4).
  { intros k r Hk. discriminate. }
  unfold bindM at 1. rewrite E4. unfold bindM at 1. unfold alloc at 1. set (h5 := h4 ++ [ODict F4]).
  assert (X5 : ext h4 h5) by now exists [ODict F4].
  unfold alloc. set (h6 := h5 ++ [ONet (length h) (length h2) (length h4)]).
  assert (X6 : ext h5 h6) by now exists [ONet (length h) (length h2) (length h4)].
  assert (X36 : ext h3 h6) by (apply (ext_trans h3 h4); [exact X4|now apply (ext_trans h4 h5)]).
  assert (X46 : ext h4 h6) by now apply (ext_trans h4 h5).
  destruct (mapO_total (ent (get_data h6)) F4) as (fs' & Mfs).
  { intros [k r] Hk. unfold ent. simpl.
    assert (D : exists r', dget F4 k = Some r') by (apply In_dget, in_map_iff; exists (k, r); auto).
    (* keys of F4 are distinct *)
    assert (ND : NoDup (dkeys F4)).
    { clear - E4. assert (G : forall vs h F h' F', copy_F b vs F h = (h', Ok F') -> NoDup (dkeys F) -> NoDup (dkeys F')).
      { induction vs as [|v t IH]; intros h F h' F' E ND; simpl in E; [inversion E; subst; assumption|].
        unfold bindM in E. repeat (match type of E with context [match ?m with (_, _) => _ end] => destruct m as [? [?|?]]; [|discriminate] end).
        eapply IH; [exact E|]. now apply NoDup_dkeys_dset. }
      apply (G _ _ _ _ _ E4). constructor. }
    assert (Dk : dget F4 k = Some r).
    { clear - Hk ND. induction F4 as [|[k' r'] t IH]; [destruct Hk|]. simpl. inversion ND; subst. destruct Hk as [Hk|Hk].
      - inversion Hk; subst. now rewrite name_eqb_refl.
      - destruct (name_eqb_spec k k') as [->|N]; [|now apply IH]. exfalso. apply H1. apply in_map_iff. exists (k', r). auto. }
    destruct (H4 k r Dk) as (d & D1 & _). rewrite (ext_data h4 h6 r d X46 D1). discriminate. }
  exists h6, (length h5), (mkBN (bn_V bn) (bn_E bn) fs'). split; [reflexivity|]. split; [|split; [reflexivity|split; [reflexivity|split]]].
  - apply (observe_intro _ _ _ (length h) (length h2) (length h4) d2 F4); simpl.
    + unfold h6. apply nth_new.
    + apply (ext_names h1 h6); [now apply (ext_trans h1 h3)|exact N1].
    + apply (ext_nth h3 h6); [exact X36|]. unfold h3. apply nth_new.
    + apply (mapO_ext' (get_names h2)); [exact M2|]. intros r x. apply ext_names. now apply (ext_trans h2 h3).
    + apply (ext_nth h5 h6); [exact X6|]. unfold h5. apply nth_new.
    + exact Mfs.
  - intros v Hv. simpl. rewrite (mapO_dget _ _ _ v Mfs).
    assert (Kv : In v (dkeys F4)) by (apply K4; now left). destruct (In_dget F4 v Kv) as (r & Hr). rewrite Hr.
    destruct (H4 v r Hr) as (d & D1 & D2). rewrite (ext_data h4 h6 r d X46 D1). congruence.
  - intros v. simpl. rewrite (mapO_keys _ _ _ Mfs), K4. simpl. tauto.
Qed.
