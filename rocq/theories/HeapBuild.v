(** HeapBuild.v -- BayesNet(E, value_dict) builds an unshared network around the caller's dict. *)
From Verif Require Import Py Num BayesNet SpecFactor Graph SpecGraph GraphTopsort BayesNetHeap HeapFrame HeapNet HeapEdit.
Open Scope nat_scope.

Lemma load_edges_ok h d E : mapO (ent (get_names h)) d = Some E -> load_edges d h = (h, Ok E).
Proof.
  revert E. induction d as [|[k r] t IH]; intros E H; simpl in H; [inversion H; reflexivity|]. unfold ent in H at 1. simpl in H.
  destruct (get_names h r) as [l|] eqn:Er; [|discriminate]. destruct (mapO (ent (get_names h)) t) as [t0|]; [|discriminate]. inversion H; subst.
  simpl. unfold bindM at 1. rewrite (load_names_ok h r l Er). unfold bindM. rewrite (IH t0 eq_refl). reflexivity.
Qed.
Lemma mapO_dset {A} (g : ref -> option A) k r a d d0 : mapO (ent g) d = Some d0 -> g r = Some a -> mapO (ent g) (dset d k r) = Some (dset d0 k a).
Proof.
  revert d0. induction d as [|[k' r'] t IH]; intros d0 H Hr; simpl in H.
  - inversion H; subst. simpl. unfold ent. simpl. now rewrite Hr.
  - unfold ent in H at 1. simpl in H. destruct (g r') as [a'|] eqn:E; [|discriminate]. destruct (mapO (ent g) t) as [t0|] eqn:Et; [|discriminate]. inversion H; subst.
    simpl. destruct (name_eqb k k'); simpl; unfold ent at 1; simpl.
    + now rewrite Hr, Et.
    + rewrite E. now rewrite (IH t0 eq_refl Hr).
Qed.
Lemma ext_app (h l : heap) : ext h (h ++ l). Proof. now exists l. Qed.
Lemma ext_len (h h' : heap) : ext h h' -> length h <= length h'.
Proof. intros (l & ->). rewrite app_length. lia. Qed.
Lemma names_lt h r l : get_names h r = Some l -> r < length h.
Proof. unfold get_names. intros H. apply nth_error_Some. destruct (nth_error h r); [discriminate|discriminate]. Qed.
Lemma mapO_names_lt h d d0 : mapO (ent (get_names h)) d = Some d0 -> forall r, In r (map snd d) -> r < length h.
Proof.
  intros H r Hr. apply in_map_iff in Hr as ([k r'] & <- & Hk). pose proof (mapO_defined _ _ _ H (k, r') Hk) as N. unfold ent in N. simpl in *.
  destruct (get_names h r') as [l|] eqn:E; [|congruence]. now apply (names_lt h r' l).
Qed.
Lemma parent_ext h h' r c p w : ext h h' -> nth_error h r = Some (ODat c p w) -> parent_ref h' r = p.
Proof. intros X H. unfold parent_ref. now rewrite (ext_nth h h' r _ X H). Qed.

Section Build.
  Variable h0 : heap.                (* heap when the loop starts *)
  Variable own : list ref.           (* V and the children lists *)
  Variable E : edict. Variable V : list name.
  Variable vd : option ref. Variable vdv : option (dict (list name)).
  Hypothesis Hown : forall r, In r own -> r < length h0.
  Hypothesis Hvd : match vd with
    | None => vdv = None
    | Some r => exists d d0, nth_error h0 r = Some (ODict d) /\ mapO (ent (get_names h0)) d = Some d0 /\ vdv = Some d0 /\ forall x, In x (map snd d) -> ~ In x own
    end.
  Definition bstep := fun (F : dict fdata) (rv : name) =>
            do flags <- mapM (fun p => do c <- getitem E p ;; Ok (p, mem rv c)) V ;;
            let ps := map fst (filter snd flags) in
            do vs <- (match vdv with Some vd => getitem vd rv | None => Ok [] end) ;;
            Ok (dset F rv (mkF ps vs [])).
  Definition binv (h : heap) (F : dict ref) (fs : dict fdata) : Prop :=
    ext h0 h /\ mapO (ent (get_data h)) F = Some fs /\ NoDup (map (parent_ref h) (map snd F)) /\
    forall r, In r (map snd F) -> exists c p w, nth_error h r = Some (ODat c p w) /\ length h0 <= p < length h /\ w < length h /\
      ~ In w own /\ ~ In w (map (parent_ref h) (map snd F)).

  Lemma binv_step h F fs rv ps vs c p w h' : binv h F fs -> ~ In rv (dkeys F) -> ext h h' ->
    nth_error h' (length h' - 1) = Some (ODat c p w) -> get_names h' p = Some ps -> get_names h' w = Some vs -> get_nums h' c = Some [] ->
    length h <= p -> p <> w -> (length h <= w \/ w < length h0 /\ ~ In w own) ->
    binv h' (dset F rv (length h' - 1)) (dset fs rv (mkF ps vs [])).
  Proof.
    intros (X & M & ND & I) Nk X' Hn Hp Hw Hc Lp Npw Ww. pose proof (ext_len _ _ X) as L0. pose proof (ext_len _ _ X') as L1.
    assert (Hfresh : forall y, In y (map (parent_ref h) (map snd F)) -> length h0 <= y < length h).
    { intros y Hy. apply in_map_iff in Hy as (r & <- & Hr). destruct (I r Hr) as (c' & p' & w' & K1 & K2 & _). unfold parent_ref. now rewrite K1. }
    assert (Pe : map (parent_ref h') (map snd F) = map (parent_ref h) (map snd F)).
    { apply map_ext_in. intros r Hr. destruct (I r Hr) as (c' & p' & w' & K1 & _). rewrite (parent_ext h h' r c' p' w' X' K1). unfold parent_ref. now rewrite K1. }
    assert (Sd : map snd (dset F rv (length h' - 1)) = map snd F ++ [length h' - 1]).
    { clear - Nk. induction F as [|[k r] t IH]; [reflexivity|]. simpl. destruct (name_eqb_spec rv k) as [->|]; [exfalso; apply Nk; now left|]. simpl. f_equal. apply IH. intros K. apply Nk. now right. }
    assert (Pn : parent_ref h' (length h' - 1) = p) by (unfold parent_ref; now rewrite Hn).
    split; [now apply (ext_trans h0 h)|]. split; [|split].
    - apply mapO_dset; [|apply (get_data_intro _ _ _ c p w); assumption]. apply (mapO_ext' (get_data h)); [assumption|]. intros r x. now apply ext_data.
    - rewrite Sd, map_app, Pe. simpl. rewrite Pn. apply NoDup_snoc; [assumption|]. intros K. apply Hfresh in K. lia.
    - intros r Hr. rewrite Sd, map_app, Pe in *. simpl. rewrite Pn. apply in_app_or in Hr as [Hr|[<-|[]]].
      + destruct (I r Hr) as (c' & p' & w' & K1 & K2 & K3 & K4 & K5). exists c', p', w'. split; [now apply (ext_nth h h')|].
        split; [lia|]. split; [lia|]. split; [assumption|]. intros K. apply in_app_or in K as [K|[K|[]]]; [contradiction|lia].
      + exists c, p, w. split; [assumption|]. pose proof (names_lt h' p ps Hp). pose proof (names_lt h' w vs Hw). split; [lia|]. split; [assumption|].
        split.
        * destruct Ww as [Ww|[_ Ww]]; [|assumption]. intros K. apply Hown in K. lia.
        * intros K. apply in_app_or in K as [K|[K|[]]]; [|congruence]. apply Hfresh in K. lia.
  Qed.

  Lemma build_F_ok vs : forall h F fs fs', NoDup vs -> (forall v, In v vs -> ~ In v (dkeys F)) -> binv h F fs ->
    foldM bstep vs fs = Ok fs' -> exists h' F', build_F E V vd vs F h = (h', Ok F') /\ binv h' F' fs'.
  Proof.
    induction vs as [|rv t IH]; intros h F fs fs' ND Nk B Hf; simpl in Hf.
    - inversion Hf; subst. exists h, F. auto.
    - unfold bstep in Hf at 1. destruct (mapM _ V) as [flags|] eqn:Ef; cbn [bind] in Hf; [|discriminate].
      simpl build_F. unfold bindM at 1. unfold lift at 1. rewrite Ef. set (ps := map fst (filter snd flags)) in *.
      unfold bindM at 1. unfold alloc at 1. unfold bindM at 1. unfold alloc at 1.
      set (h1 := (h ++ [ONames ps])). set (h2 := h1 ++ [ONums []]).
      assert (X2 : ext h h2) by (apply (ext_trans h h1); apply ext_app).
      assert (Np2 : get_names h2 (length h) = Some ps) by (apply names_app; unfold h1, get_names; now rewrite nth_new).
      assert (Nc2 : get_nums h2 (length h1) = Some []) by (unfold h2, get_nums; now rewrite nth_new).
      inversion ND as [|? ? Nr ND']; subst.
      assert (L0 : length h0 <= length h) by apply (ext_len _ _ (proj1 B)).
      assert (Q : exists h3 w vals, (match vd with None => alloc (ONames []) | Some r => mdo d <- load_dict r ;; lift (getitem d rv) end) h2 = (h3, Ok w) /\
          ext h2 h3 /\ (match vdv with Some vd => getitem vd rv | None => Ok [] end) = Ok vals /\ get_names h3 w = Some vals /\
          w <> length h /\ (length h <= w \/ w < length h0 /\ ~ In w own)).
      { destruct vd as [r|].
        - destruct Hvd as (d & d0 & K1 & K2 & K3 & K4). rewrite K3 in Hf at 1. rewrite K3.
          destruct (getitem d0 rv) as [vals|] eqn:Eg; cbn [bind] in Hf; [|discriminate].
          unfold getitem in Eg. destruct (dget d0 rv) as [vals'|] eqn:Dg; [|discriminate]. inversion Eg; subst vals'.
          rewrite (mapO_dget _ _ _ rv K2) in Dg. destruct (dget d rv) as [w|] eqn:Dw; [|discriminate].
          assert (Iw : In w (map snd d)) by now apply dget_snd in Dw.
          assert (X02 : ext h0 h2) by (apply (ext_trans h0 h); [apply B|exact X2]).
          exists h2, w, vals. split; [unfold bindM at 1, load_dict, bindM, load; rewrite (ext_nth h0 h2 _ _ X02 K1); unfold ret, lift, getitem; now rewrite Dw|].
          split; [apply ext_refl|]. split; [reflexivity|]. split; [now apply (ext_names h0 h2)|].
          pose proof (mapO_names_lt _ _ _ K2 w Iw). split; [lia|]. right. split; [assumption|]. now apply K4.
        - rewrite Hvd. exists (h2 ++ [ONames []]), (length h2), []. split; [reflexivity|]. split; [apply ext_app|]. split; [reflexivity|].
          split; [unfold get_names; now rewrite nth_new|]. pose proof (ext_len _ _ X2). unfold h2, h1. rewrite !app_length. simpl. split; [lia|left; lia]. }
      destruct Q as (h3 & w & vals & Ew & X3 & Ev & Nw & Nwp & Ww).
      unfold bindM at 1. rewrite Ew. rewrite Ev in Hf. cbn [bind] in Hf.
      unfold bindM at 1. unfold alloc at 1. set (h4 := h3 ++ [ODat (length h1) (length h) w]).
      assert (L4 : length h4 - 1 = length h3) by (unfold h4; rewrite app_length; simpl; lia).
      assert (X34 : ext h3 h4) by apply ext_app. assert (X24 : ext h2 h4) by now apply (ext_trans h2 h3).
      destruct (IH h4 (dset F rv (length h3)) (dset fs rv (mkF ps vals [])) fs') as (h' & F' & E' & B').
      + assumption.
      + intros v Hv K. apply In_dkeys_dset in K as [->|K]; [contradiction|]. apply (Nk v); [now right|assumption].
      + rewrite <- L4. apply (binv_step h F fs rv ps vals (length h1) (length h) w h4); try assumption.
        * apply Nk. now left.
        * now apply (ext_trans h h2).
        * rewrite L4. unfold h4. apply nth_new.
        * now apply (ext_names h2 h4).
        * now apply (ext_names h3 h4).
        * now apply (ext_nums h2 h4).
        * lia.
        * congruence.
      + exact Hf.
      + exists h', F'. split; [exact E'|assumption].
  Qed.
End Build.

(** the caller's objects: an edge dict [e] holding [E], all children lists different
    objects; optionally a value dict none of whose lists is a children list *)
Definition caller_dicts (h : heap) (e : ref) (vd : option ref) (E : edict) (vdv : option (dict (list name))) : Prop :=
  exists d, nth_error h e = Some (ODict d) /\ mapO (ent (get_names h)) d = Some E /\ NoDup (map snd d) /\
    match vd with
    | None => vdv = None
    | Some r => exists dv d0, nth_error h r = Some (ODict dv) /\ mapO (ent (get_names h)) dv = Some d0 /\ vdv = Some d0 /\
                  forall x, In x (map snd dv) -> ~ In x (map snd d)
    end.

Lemma set_structure_heap h e vd E vdv bn : caller_dicts h e vd E vdv -> closed_edges E -> set_structure E vdv = Ok bn ->
  exists h' b, h_set_structure e vd h = (h', Ok b) /\ observe h' b = Some bn /\ unshared h' b /\
    exists v f, nth_error h' b = Some (ONet v e f).
Proof.
  intros (d & He & Me & NDd & Hvd) C S. unfold set_structure in S. destruct (topsort E None) as [V|] eqn:ET; cbn [bind] in S; [|discriminate].
  assert (NDV : NoDup V).
  { destruct (topsort_from_ok E (topsort_roots E) C) as (l & El & ND & _); [intros x Hx; apply filter_In in Hx; tauto|].
    unfold topsort in ET. rewrite ET in El. now inversion El; subst. }
  match type of S with bind ?m _ = _ => destruct m as [fs|] eqn:EF; cbn [bind] in S; [|discriminate] end. inversion S; subst bn. clear S.
  unfold h_set_structure. unfold bindM at 1. unfold load_dict, bindM at 1, load. rewrite He. unfold ret at 1.
  unfold bindM at 1. rewrite (load_edges_ok h d E Me). unfold bindM at 1. unfold lift at 1. rewrite ET.
  unfold bindM at 1. unfold alloc at 1. set (h1 := h ++ [ONames V]).
  assert (X1 : ext h h1) by apply ext_app.
  assert (L1 : length h1 = S (length h)) by (unfold h1; rewrite app_length; simpl; lia).
  destruct (build_F_ok h1 (length h :: map snd d) E V vd vdv) with (vs := V) (h := h1) (F := @nil (name * ref)) (fs := @nil (name * fdata)) (fs' := fs) as (h2 & F2 & E2 & B2).
  - intros r [<-|Hr]; [lia|]. pose proof (mapO_names_lt _ _ _ Me r Hr). lia.
  - destruct vd as [r|]; [|assumption]. destruct Hvd as (dv & d0 & K1 & K2 & K3 & K4). exists dv, d0.
    split; [now apply (ext_nth h h1)|]. split; [apply (mapO_ext' (get_names h)); [assumption|]; intros q x; now apply ext_names|]. split; [assumption|].
    intros x Hx [<-|K]; [|now apply (K4 x)]. pose proof (mapO_names_lt _ _ _ K2 (length h) Hx). lia.
  - exact NDV.
  - intros v _ [].
  - split; [apply ext_refl|]. split; [reflexivity|]. split; [constructor|]. intros r [].
  - exact EF.
  - unfold bindM at 1. rewrite E2. unfold bindM at 1. unfold alloc at 1. unfold alloc. set (h3 := h2 ++ [ODict F2]).
    set (h4 := h3 ++ [ONet (length h) e (length h2)]).
    destruct B2 as (X2 & M2 & ND2 & I2).
    assert (X24 : ext h2 h4) by (apply (ext_trans h2 h3); apply ext_app).
    assert (X14 : ext h1 h4) by now apply (ext_trans h1 h2). assert (X04 : ext h h4) by now apply (ext_trans h h1).
    assert (Pe : map (parent_ref h4) (map snd F2) = map (parent_ref h2) (map snd F2)).
    { apply map_ext_in. intros r Hr. destruct (I2 r Hr) as (c' & p' & w' & K1 & _). rewrite (parent_ext h2 h4 r c' p' w' X24 K1). unfold parent_ref. now rewrite K1. }
    exists h4, (length h3). split; [reflexivity|].
    assert (G1 : nth_error h4 (length h3) = Some (ONet (length h) e (length h2))) by (unfold h4; apply nth_new).
    assert (G2 : nth_error h4 e = Some (ODict d)) by now apply (ext_nth h h4).
    assert (G3 : nth_error h4 (length h2) = Some (ODict F2)) by (apply nth_app; unfold h3; apply nth_new).
    split; [|split; [|eauto]].
    + apply (observe_intro _ _ _ (length h) e (length h2) d F2); simpl; try assumption.
      * apply (ext_names h1 h4); [assumption|]. unfold h1, get_names. now rewrite nth_new.
      * apply (mapO_ext' (get_names h)); [assumption|]. intros q x. now apply ext_names.
      * apply (mapO_ext' (get_data h2)); [assumption|]. intros q x. now apply ext_data.
    + exists (length h), e, (length h2), d, F2. split; [assumption|]. split; [assumption|]. split; [assumption|]. rewrite Pe.
      assert (Hp : forall x, In x (map (parent_ref h2) (map snd F2)) -> length h1 <= x).
      { intros x Hx. apply in_map_iff in Hx as (r & <- & Hr). destruct (I2 r Hr) as (c & p & w & K1 & K2 & _). unfold parent_ref. rewrite K1. lia. }
      split.
      * constructor.
        -- intros K. apply in_app_or in K as [K|K]; [pose proof (mapO_names_lt _ _ _ Me _ K); lia|apply Hp in K; lia].
        -- assert (Lt : forall x, In x (map snd d) -> x < length h) by (apply (mapO_names_lt _ _ _ Me)). clear - NDd ND2 Hp Lt L1.
           induction (map snd d) as [|x t IH]; simpl; [assumption|]. inversion NDd; subst. constructor.
           ++ intros K. apply in_app_or in K as [K|K]; [contradiction|]. apply Hp in K. specialize (Lt x (or_introl eq_refl)). lia.
           ++ apply IH; [assumption|]. intros y Hy. apply Lt. now right.
      * intros r c p w Hr Hd. destruct (I2 r Hr) as (c' & p' & w' & K1 & K2 & K3 & K4 & K5).
        rewrite (ext_nth h2 h4 r _ X24 K1) in Hd. inversion Hd; subst. intros [<-|K]; [apply K4; now left|].
        apply in_app_or in K as [K|K]; [apply K4; now right|contradiction].
Qed.
