(** HeapSet.v -- set_cpt / set_parents / set_values change one field of one node. *)
From Verif Require Import Py Num BayesNet SpecFactor SpecGraph BayesNetHeap HeapFrame HeapNet HeapEdit HeapBuild.
Open Scope nat_scope.

Section StoreDat.
  Variable h : heap. Variable x : ref. Variable c0 p0 w0 c p w : ref.
  Hypothesis Hx : nth_error h x = Some (ODat c0 p0 w0).
  Let h' := upd_nth x (ODat c p w) h.
  Lemma sd_nth y : nth_error h' y = if x =? y then Some (ODat c p w) else nth_error h y.
  Proof.
    unfold h'. rewrite nth_error_upd_nth. assert (L : x < length h) by (apply nth_error_Some; congruence).
    destruct (Nat.eqb_spec x y); simpl; [|reflexivity]. destruct (Nat.ltb_spec x (length h)); [reflexivity|lia].
  Qed.
  Lemma sd_names y : get_names h' y = get_names h y.
  Proof. unfold get_names. rewrite sd_nth. destruct (Nat.eqb_spec x y) as [<-|]; [now rewrite Hx|reflexivity]. Qed.
  Lemma sd_nums y : get_nums h' y = get_nums h y.
  Proof. unfold get_nums. rewrite sd_nth. destruct (Nat.eqb_spec x y) as [<-|]; [now rewrite Hx|reflexivity]. Qed.
  Lemma sd_other y o : nth_error h y = Some o -> (forall a b d, o <> ODat a b d) -> nth_error h' y = Some o.
  Proof. intros E N. rewrite sd_nth. destruct (Nat.eqb_spec x y) as [<-|]; [|assumption]. rewrite Hx in E. inversion E; subst. exfalso. now apply (N c0 p0 w0). Qed.
  Lemma sd_data y : y <> x -> get_data h' y = get_data h y.
  Proof. intros N. unfold get_data. rewrite sd_nth. destruct (Nat.eqb_spec x y); [congruence|]. destruct (nth_error h y) as [[]|]; try reflexivity. now rewrite !sd_names, sd_nums. Qed.
End StoreDat.

Lemma NoDup_app_inv {A} (l m : list A) : NoDup (l ++ m) -> NoDup l /\ NoDup m /\ forall x, In x l -> ~ In x m.
Proof.
  induction l as [|a l IH]; simpl; intros H; [split; [constructor|split; [assumption|intros x []]]|]. inversion H; subst.
  destruct (IH H3) as (A1 & A2 & A3). split; [constructor; [intros K; apply H2, in_or_app; now left|assumption]|]. split; [assumption|].
  intros x [<-|Hx]; [intros K; apply H2, in_or_app; now right|now apply A3].
Qed.

Lemma NoDup_app_intro {A} (l m : list A) : NoDup l -> NoDup m -> (forall x, In x l -> ~ In x m) -> NoDup (l ++ m).
Proof.
  induction l as [|a l IH]; simpl; intros H1 H2 H3; [assumption|]. inversion H1; subst. constructor.
  - intros K. apply in_app_or in K as [K|K]; [contradiction|]. apply (H3 a); [now left|assumption].
  - apply IH; [assumption|assumption|]. intros x Hx. apply H3. now right.
Qed.
Lemma nodup_map_inj_on {A B} (f : A -> B) l : (forall x y, In x l -> In y l -> f x = f y -> x = y) -> NoDup l -> NoDup (map f l).
Proof.
  induction l as [|a l IH]; simpl; intros I H; [constructor|]. inversion H; subst. constructor.
  - intros K. apply in_map_iff in K as (y & E & Hy). assert (y = a) by (apply I; auto). congruence.
  - apply IH; [|assumption]. intros x y Hx Hy. apply I; now right.
Qed.

(** rebinding fields of one data dict to new or old objects *)
Lemma rebind h b bn rv d r c0 p0 w0 hx c p w d' : observe h b = Some bn -> unshared h b -> dget (bn_F bn) rv = Some d ->
  F_at b rv h = (h, Ok r) -> nth_error h r = Some (ODat c0 p0 w0) -> ext h hx ->
  get_nums hx c = Some (f_cptl d') -> get_names hx p = Some (f_parents d') -> get_names hx w = Some (f_values d') ->
  (p = p0 \/ length h <= p) -> (w = w0 \/ length h <= w) -> p <> w ->
  observe (upd_nth r (ODat c p w) hx) b = Some (bn_with_F bn (dset (bn_F bn) rv d')) /\ unshared (upd_nth r (ODat c p w) hx) b.
Proof.
  intros O (V & E & F & dE & dF & Hb & HE & HF & ND & W) D Er Hr X Gc Gp Gw Pp Pw Npw.
  destruct (observe_inv h b bn O) as (V' & E' & F' & dE' & dF' & Hb' & HV & HE' & ME & HF' & MF).
  rewrite Hb in Hb'. inversion Hb'; subst V' E' F'. rewrite HE in HE'. inversion HE'; subst dE'. rewrite HF in HF'. inversion HF'; subst dF'. clear Hb' HE' HF'.
  rewrite (F_at_ok h b V E F dF rv Hb HF) in Er. unfold getitem in Er. destruct (dget dF rv) as [r'|] eqn:Du; [|discriminate]. inversion Er; subst r'. clear Er.
  assert (Ir : In r (map snd dF)) by now apply dget_snd in Du.
  assert (Hrx : nth_error hx r = Some (ODat c0 p0 w0)) by now apply (ext_nth h hx).
  assert (Hb' : nth_error hx b = Some (ONet V E F)) by now apply (ext_nth h hx).
  assert (HE' : nth_error hx E = Some (ODict dE)) by now apply (ext_nth h hx).
  assert (HF' : nth_error hx F = Some (ODict dF)) by now apply (ext_nth h hx).
  assert (ND' := ND). change (NoDup ([V] ++ (map snd dE ++ map (parent_ref h) (map snd dF)))) in ND'. apply NoDup_app_inv in ND' as (_ & ND2 & NV). apply NoDup_app_inv in ND2 as (_ & NDP & Dis).
  assert (NDF : NoDup (map snd dF)) by now apply NoDup_map_inv in NDP.
  set (hf := upd_nth r (ODat c p w) hx).
  assert (Ldat : forall y, In y (map snd dF) -> exists c1 p1 w1, nth_error h y = Some (ODat c1 p1 w1) /\ p1 < length h /\ w1 < length h).
  { intros y Hy. apply in_map_iff in Hy as ([k y'] & <- & Hk). pose proof (mapO_defined _ _ _ MF (k, y') Hk) as N. unfold ent in N. simpl in *.
    destruct (get_data h y') as [dy|] eqn:Ey; [|congruence]. destruct (get_data_inv h y' dy Ey) as (c1 & p1 & w1 & K1 & K2 & K3 & _). exists c1, p1, w1.
    split; [assumption|]. split; [now apply (names_lt h p1 (f_parents dy))|now apply (names_lt h w1 (f_values dy))]. }
  split.
  - apply (observe_intro _ _ _ V E F dE dF); simpl.
    + now apply (sd_other hx r c0 p0 w0).
    + unfold hf. rewrite (sd_names hx r c0 p0 w0) by assumption. now apply (ext_names h hx).
    + now apply (sd_other hx r c0 p0 w0).
    + apply (mapO_same (get_names hx)); [apply (mapO_ext' (get_names h)); [exact ME|]; intros q y; now apply ext_names|].
      intros y _. unfold hf. now apply (sd_names hx r c0 p0 w0).
    + now apply (sd_other hx r c0 p0 w0).
    + apply (mapO_upd (get_data hx) _ rv r d' dF); try assumption.
      * apply (mapO_ext' (get_data h)); [exact MF|]. intros q y. now apply ext_data.
      * intros y Ny _. unfold hf. now apply (sd_data hx r c0 p0 w0).
      * apply (get_data_intro _ _ _ c p w).
        -- unfold hf. rewrite (sd_nth hx r c0 p0 w0) by assumption. now rewrite Nat.eqb_refl.
        -- unfold hf. now rewrite (sd_names hx r c0 p0 w0).
        -- unfold hf. now rewrite (sd_names hx r c0 p0 w0).
        -- unfold hf. now rewrite (sd_nums hx r c0 p0 w0).
  - assert (Pe : forall y, In y (map snd dF) -> parent_ref hf y = if r =? y then p else parent_ref h y).
    { intros y Hy. unfold parent_ref, hf. rewrite (sd_nth hx r c0 p0 w0) by assumption. destruct (r =? y); [reflexivity|].
      destruct (Ldat y Hy) as (c1 & p1 & w1 & K1 & _). now rewrite (ext_nth h hx y _ X K1), K1. }
    assert (P0 : parent_ref h r = p0) by (unfold parent_ref; now rewrite Hr).
    assert (Plt : forall y, In y (map snd dF) -> parent_ref h y < length h).
    { intros y Hy. destruct (Ldat y Hy) as (c1 & p1 & w1 & K1 & K2 & _). unfold parent_ref. now rewrite K1. }
    assert (Inj : forall y z, In y (map snd dF) -> In z (map snd dF) -> parent_ref h y = parent_ref h z -> y = z).
    { clear - NDP. induction (map snd dF) as [|a t IH]; intros y z Hy Hz Q; [destruct Hy|]. simpl in NDP. inversion NDP as [|? ? H1 H2].
      destruct Hy as [<-|Hy], Hz as [<-|Hz]; [reflexivity| | |now apply IH].
      - exfalso. apply H1. rewrite Q. now apply in_map.
      - exfalso. apply H1. rewrite <- Q. now apply in_map. }
    assert (Iq : forall q, In q (map (parent_ref hf) (map snd dF)) -> q = p \/ exists y, In y (map snd dF) /\ y <> r /\ q = parent_ref h y).
    { intros q Hq. apply in_map_iff in Hq as (y & <- & Hy). rewrite (Pe y Hy). destruct (Nat.eqb_spec r y) as [<-|N]; [now left|]. right. exists y. auto. }
    assert (NVp : p <> V /\ forall y, In y (map snd dE) -> y <> p).
    { split.
      - intros ->. destruct Pp as [->|L]; [|pose proof (names_lt h V _ HV); lia]. apply (NV p0); [now left|]. apply in_or_app. right. apply in_map_iff. exists r. auto.
      - intros y Hy ->. destruct Pp as [->|L]; [|pose proof (mapO_names_lt _ _ _ ME p Hy); lia]. apply (Dis p0 Hy). apply in_map_iff. exists r. auto. }
    exists V, E, F, dE, dF. split; [now apply (sd_other hx r c0 p0 w0)|]. split; [now apply (sd_other hx r c0 p0 w0)|]. split; [now apply (sd_other hx r c0 p0 w0)|].
    assert (NDn : NoDup (map (parent_ref hf) (map snd dF))).
    { apply nodup_map_inj_on; [|exact NDF]. intros y z Hy Hz Q. rewrite (Pe y Hy), (Pe z Hz) in Q.
      destruct (Nat.eqb_spec r y) as [Ey|Ny], (Nat.eqb_spec r z) as [Ez|Nz].
      - congruence.
      - exfalso. destruct Pp as [Pp|L]; [|specialize (Plt z Hz); lia]. apply Nz. apply Inj; congruence.
      - exfalso. destruct Pp as [Pp|L]; [|specialize (Plt y Hy); lia]. apply Ny. apply Inj; congruence.
      - now apply Inj. }
    split.
    + constructor.
      * intros K. apply in_app_or in K as [K|K]; [apply (NV V); [now left|]; apply in_or_app; now left|].
        apply Iq in K as [K|(y & Hy & _ & K)]; [now apply NVp|]. apply (NV V); [now left|]. apply in_or_app. right. rewrite K. now apply in_map.
      * assert (NDE : NoDup (map snd dE)) by (change (NoDup ([V] ++ (map snd dE ++ map (parent_ref h) (map snd dF)))) in ND; apply NoDup_app_inv in ND as (_ & Z & _); now apply NoDup_app_inv in Z).
        apply NoDup_app_intro; [assumption|assumption|]. intros y Hy K. apply Iq in K as [->|(z & Hz & _ & ->)]; [now apply (proj2 NVp p)|].
        apply (Dis _ Hy). now apply in_map.
    + intros y c1 p1 w1 Hy Hd. unfold hf in Hd. rewrite (sd_nth hx r c0 p0 w0) in Hd by assumption.
      assert (Wp : forall q, In q [w0] \/ (exists y c1 p1, In y (map snd dF) /\ nth_error h y = Some (ODat c1 p1 q)) -> q < length h /\ q <> V /\ ~ In q (map snd dE) /\ forall z, In z (map snd dF) -> q <> parent_ref h z).
      { intros q Hq. assert (Z : exists y c1 p1, In y (map snd dF) /\ nth_error h y = Some (ODat c1 p1 q)) by (destruct Hq as [[<-|[]]|Hq]; [exists r, c0, p0; auto|assumption]).
        destruct Z as (z & c2 & p2 & Hz & Kz). destruct (Ldat z Hz) as (c3 & p3 & w3 & K1 & _ & K3). rewrite Kz in K1. inversion K1; subst c3 p3 w3.
        split; [assumption|]. pose proof (W z c2 p2 q Hz Kz) as NW. split; [intros ->; apply NW; now left|]. split; [intros K; apply NW; right; apply in_or_app; now left|].
        intros t Ht ->. apply NW. right. apply in_or_app. right. now apply in_map. }
      destruct (Nat.eqb_spec r y) as [<-|N].
      * inversion Hd; subst c1 p1 w1. clear Hd. intros [K|K].
        -- subst w. destruct Pw as [->|L]; [destruct (Wp w0) as (_ & Q & _); [left; now left|congruence]|pose proof (names_lt h V _ HV); lia].
        -- apply in_app_or in K as [K|K].
           ++ destruct Pw as [->|L]; [destruct (Wp w0) as (_ & _ & Q & _); [left; now left|contradiction]|pose proof (mapO_names_lt _ _ _ ME w K); lia].
           ++ apply Iq in K as [K|(z & Hz & _ & K)]; [congruence|]. destruct Pw as [->|L]; [destruct (Wp w0) as (_ & _ & _ & Q); [left; now left|now apply (Q z)]|].
              specialize (Plt z Hz). lia.
      * destruct (Ldat y Hy) as (c2 & p2 & w2 & K1 & _). rewrite (ext_nth h hx y _ X K1) in Hd. inversion Hd; subst c2 p2 w2.
        destruct (Wp w1) as (Q1 & Q2 & Q3 & Q4); [right; exists y, c1, p1; auto|]. intros [K|K]; [congruence|]. apply in_app_or in K as [K|K]; [contradiction|].
        apply Iq in K as [K|(z & Hz & _ & K)]; [|now apply (Q4 z)]. destruct Pp as [Pp|L]; [|lia]. apply (Q4 r Ir). congruence.
Qed.

Lemma set_field_frame h b bn rv d : observe h b = Some bn -> dget (bn_F bn) rv = Some d ->
  exists r c p w, F_at b rv h = (h, Ok r) /\ nth_error h r = Some (ODat c p w) /\ p < length h /\ w < length h /\
    get_nums h c = Some (f_cptl d) /\ get_names h p = Some (f_parents d) /\ get_names h w = Some (f_values d).
Proof.
  intros O D. destruct (observe_inv h b bn O) as (V & E & F & dE & dF & Hb & HV & HE & ME & HF & MF).
  rewrite (mapO_dget _ _ _ rv MF) in D. destruct (dget dF rv) as [r|] eqn:Du; [|discriminate].
  destruct (get_data_inv h r d D) as (c & p & w & K1 & K2 & K3 & K4). exists r, c, p, w.
  split; [rewrite (F_at_ok h b V E F dF rv Hb HF); unfold getitem; now rewrite Du|]. split; [assumption|].
  split; [now apply (names_lt h p (f_parents d))|]. split; [now apply (names_lt h w (f_values d))|]. auto.
Qed.
Lemma unshared_pw h b bn rv r c p w : observe h b = Some bn -> unshared h b -> F_at b rv h = (h, Ok r) -> nth_error h r = Some (ODat c p w) -> p <> w.
Proof.
  intros O (V & E & F & dE & dF & Hb & HE & HF & ND & W) Er Hr ->.
  rewrite (F_at_ok h b V E F dF rv Hb HF) in Er. unfold getitem in Er. destruct (dget dF rv) as [r'|] eqn:Du; [|discriminate]. inversion Er; subst r'.
  apply dget_snd in Du. apply (W r c w w Du Hr). right. apply in_or_app. right. apply in_map_iff. exists r. split; [unfold parent_ref; now rewrite Hr|assumption].
Qed.
Lemma F_at_app h l b rv r : F_at b rv h = (h, Ok r) -> (exists bn, observe h b = Some bn) -> F_at b rv (h ++ l) = (h ++ l, Ok r).
Proof.
  intros Er (bn & O). destruct (observe_inv h b bn O) as (V & E & F & dE & dF & Hb & HV & HE & ME & HF & MF).
  rewrite (F_at_ok h b V E F dF rv Hb HF) in Er. rewrite (F_at_ok (h ++ l) b V E F dF rv); [|now apply nth_app|now apply nth_app]. congruence.
Qed.
Lemma store_dat_ok h r o o' : nth_error h r = Some o -> store r o' h = (upd_nth r o' h, Ok tt).
Proof. intros H. unfold store. assert (L : r < length h) by (apply nth_error_Some; congruence). destruct (Nat.ltb_spec r (length h)); [reflexivity|lia]. Qed.

Definition setter_value (e : edit) (bn : bayesnet) : res bayesnet :=
  match e with
  | ESetCpt _ rv l => bn_set_cpt bn rv l
  | ESetParents _ rv l => bn_set_parents bn rv l
  | ESetValues _ rv l => bn_set_values bn rv l
  | _ => Ok bn
  end.
Definition is_setter (b : ref) (e : edit) : Prop :=
  match e with ESetCpt b' _ _ => b' = b | ESetParents b' _ _ => b' = b | ESetValues b' _ _ => b' = b | _ => False end.
Lemma setter_ok h b bn e bn' : observe h b = Some bn -> unshared h b -> is_setter b e -> setter_value e bn = Ok bn' ->
  exists h', do_edit e h = (h', Ok tt) /\ observe h' b = Some bn' /\ unshared h' b.
Proof.
  intros O U S H. destruct e; simpl in S; try contradiction; subst b0; simpl in H.
  - unfold bn_set_cpt, getitem in H. destruct (dget (bn_F bn) rv) as [d|] eqn:D; cbn [bind] in H; [|discriminate]. inversion H; subst bn'. clear H.
    destruct (set_field_frame h b bn rv d O D) as (r & c & p & w & Er & Hr & Lp & Lw & Gc & Gp & Gw).
    simpl do_edit. unfold bindM at 1. unfold alloc at 1. unfold h_set_cpt. unfold bindM at 1. rewrite (F_at_app h _ b rv r Er) by eauto.
    unfold bindM. rewrite (load_dat_ok _ r c p w) by now apply nth_app. simpl fst. simpl snd.
    rewrite (store_dat_ok _ r (ODat c p w)) by now apply nth_app. eexists. split; [reflexivity|].
    apply (rebind h b bn rv d r c p w (h ++ [ONums l]) (length h) p w (mkF (f_parents d) (f_values d) l) O U D Er Hr); simpl; auto.
    + apply ext_app.
    + unfold get_nums. now rewrite nth_new.
    + now apply names_app.
    + now apply names_app.
    + now apply (unshared_pw h b bn rv r c).
  - unfold bn_set_parents, getitem in H. destruct (dget (bn_F bn) rv) as [d|] eqn:D; cbn [bind] in H; [|discriminate]. inversion H; subst bn'. clear H.
    destruct (set_field_frame h b bn rv d O D) as (r & c & p & w & Er & Hr & Lp & Lw & Gc & Gp & Gw).
    simpl do_edit. unfold bindM at 1. unfold alloc at 1. unfold h_set_parents. unfold bindM at 1. rewrite (F_at_app h _ b rv r Er) by eauto.
    unfold bindM. rewrite (load_dat_ok _ r c p w) by now apply nth_app. simpl fst. simpl snd.
    rewrite (store_dat_ok _ r (ODat c p w)) by now apply nth_app. eexists. split; [reflexivity|].
    apply (rebind h b bn rv d r c p w (h ++ [ONames l]) c (length h) w (mkF l (f_values d) (f_cptl d)) O U D Er Hr); simpl; auto.
    + apply ext_app.
    + now apply nums_app.
    + unfold get_names. now rewrite nth_new.
    + now apply names_app.
    + lia.
  - unfold bn_set_values, getitem in H. destruct (dget (bn_F bn) rv) as [d|] eqn:D; cbn [bind] in H; [|discriminate]. inversion H; subst bn'. clear H.
    destruct (set_field_frame h b bn rv d O D) as (r & c & p & w & Er & Hr & Lp & Lw & Gc & Gp & Gw).
    simpl do_edit. unfold bindM at 1. unfold alloc at 1. unfold h_set_values. unfold bindM at 1. rewrite (F_at_app h _ b rv r Er) by eauto.
    unfold bindM. rewrite (load_dat_ok _ r c p w) by now apply nth_app. simpl fst. simpl snd.
    rewrite (store_dat_ok _ r (ODat c p w)) by now apply nth_app. eexists. split; [reflexivity|].
    apply (rebind h b bn rv d r c p w (h ++ [ONames l]) c p (length h) (mkF (f_parents d) l (f_cptl d)) O U D Er Hr); simpl; auto.
    + apply ext_app.
    + now apply nums_app.
    + now apply names_app.
    + unfold get_names. now rewrite nth_new.
    + lia.
Qed.
