(** HeapEdit.v -- add_edge / remove_edge on a network whose lists are not shared. *)
From Verif Require Import Py Num BayesNet SpecFactor SpecGraph BayesNetHeap HeapFrame HeapNet.
Open Scope nat_scope.

(** the 'parents' list object of a data dict *)
Definition parent_ref (h : heap) (r : ref) : ref := match nth_error h r with Some (ODat _ p _) => p | _ => r end.
(** No list object is used twice: V, the children lists, the parents lists are
    pairwise different objects, and no values list is one of them. *)
Definition unshared (h : heap) (b : ref) : Prop :=
  exists V E F dE dF, nth_error h b = Some (ONet V E F) /\ nth_error h E = Some (ODict dE) /\ nth_error h F = Some (ODict dF) /\
    NoDup (V :: map snd dE ++ map (parent_ref h) (map snd dF)) /\
    forall r c p w, In r (map snd dF) -> nth_error h r = Some (ODat c p w) ->
      ~ In w (V :: map snd dE ++ map (parent_ref h) (map snd dF)).

(** ** Storing into one list *)
Section Store.
  Variable h : heap. Variable x : ref. Variable l0 l : list name.
  Hypothesis Hx : get_names h x = Some l0.
  Let h' := upd_nth x (ONames l) h.
  Lemma xlt : x < length h.
  Proof. unfold get_names in Hx. apply nth_error_Some. destruct (nth_error h x); discriminate. Qed.
  Lemma st_nth y : nth_error h' y = if x =? y then Some (ONames l) else nth_error h y.
  Proof. unfold h'. rewrite nth_error_upd_nth. pose proof xlt. destruct (Nat.eqb_spec x y); simpl; [|reflexivity]. destruct (Nat.ltb_spec x (length h)); [reflexivity|lia]. Qed.
  Lemma st_other y o : nth_error h y = Some o -> (forall m, o <> ONames m) -> nth_error h' y = Some o.
  Proof.
    intros E N. rewrite st_nth. destruct (Nat.eqb_spec x y) as [<-|]; [|assumption]. unfold get_names in Hx. rewrite E in Hx.
    destruct o; try discriminate. exfalso. now apply (N l1).
  Qed.
  Lemma st_names y : get_names h' y = if x =? y then Some l else get_names h y.
  Proof. unfold get_names. rewrite st_nth. now destruct (x =? y). Qed.
  Lemma st_nums y : get_nums h' y = get_nums h y.
  Proof. unfold get_nums. rewrite st_nth. destruct (Nat.eqb_spec x y) as [<-|]; [|reflexivity]. unfold get_names in Hx. destruct (nth_error h x) as [[]|]; congruence. Qed.
  Lemma st_parent y : parent_ref h' y = parent_ref h y.
  Proof. unfold parent_ref. rewrite st_nth. destruct (Nat.eqb_spec x y) as [<-|]; [|reflexivity]. unfold get_names in Hx. destruct (nth_error h x) as [[]|]; congruence. Qed.
  Lemma st_dat_inv y c p w : nth_error h' y = Some (ODat c p w) -> nth_error h y = Some (ODat c p w).
  Proof. rewrite st_nth. destruct (x =? y); [discriminate|auto]. Qed.
  Lemma st_data y : (forall c p w, nth_error h y = Some (ODat c p w) -> w <> x /\ p <> x) -> get_data h' y = get_data h y.
  Proof.
    intros H. unfold get_data. rewrite st_nth. destruct (Nat.eqb_spec x y) as [<-|N].
    - unfold get_names in Hx. destruct (nth_error h x) as [[]|]; congruence.
    - destruct (nth_error h y) as [[]|]; try reflexivity. destruct (H _ _ _ eq_refl) as [H1 H2]. rewrite !st_names, st_nums.
      destruct (Nat.eqb_spec x parents); [congruence|]. destruct (Nat.eqb_spec x values); [congruence|]. reflexivity.
  Qed.
  Lemma map_parent d : map (parent_ref h') d = map (parent_ref h) d.
  Proof. apply map_ext. intros y. apply st_parent. Qed.
  Lemma st_unshared b : unshared h b -> unshared h' b.
  Proof.
    intros (V & E & F & dE & dF & Hb & HE & HF & ND & W). exists V, E, F, dE, dF.
    split; [now apply st_other|]. split; [now apply st_other|]. split; [now apply st_other|]. rewrite map_parent. split; [exact ND|].
    intros r c p w Hr Hd. apply (W r c p w Hr). now apply st_dat_inv.
  Qed.
End Store.

Lemma mapO_upd {A} (g g' : ref -> option A) k x a : forall d d0, NoDup (map snd d) -> dget d k = Some x -> mapO (ent g) d = Some d0 ->
  (forall y, y <> x -> In y (map snd d) -> g' y = g y) -> g' x = Some a -> mapO (ent g') d = Some (dset d0 k a).
Proof.
  induction d as [|[k' r] t IH]; intros d0 ND D H Hg Hx; simpl in D; [discriminate|]. simpl in H. unfold ent in H at 1. simpl in H.
  destruct (g r) as [a0|] eqn:Er; [|discriminate]. destruct (mapO (ent g) t) as [t0|] eqn:Et; [|discriminate]. inversion H; subst. clear H.
  simpl in ND. inversion ND; subst. simpl. unfold ent at 1. simpl. destruct (name_eqb_spec k k') as [->|N].
  - inversion D; subst. rewrite Hx.
    assert (Q : mapO (ent g') t = Some t0).
    { rewrite <- Et. apply mapO_ext. intros [q y] Hy. unfold ent. simpl. rewrite Hg; [reflexivity| |]; [|right; apply in_map_iff; exists (q, y); auto].
      intros ->. apply H1. apply in_map_iff. exists (q, x). auto. }
    rewrite Q. reflexivity.
  - rewrite Hg; [|intros ->; apply H1; now apply dget_snd in D|now left]. rewrite Er.
    rewrite (IH t0 H2 D eq_refl); [reflexivity| |assumption]. intros y Ny Hy. apply Hg; [assumption|now right].
Qed.
Lemma mapO_same {A} (g g' : ref -> option A) d d0 : mapO (ent g) d = Some d0 -> (forall y, In y (map snd d) -> g' y = g y) -> mapO (ent g') d = Some d0.
Proof.
  intros <- H. apply mapO_ext. intros [k y] Hy. unfold ent. simpl. rewrite H; [reflexivity|]. apply in_map_iff. exists (k, y). auto.
Qed.

Definition with_children (bn : bayesnet) (u : name) (l : list name) : bayesnet := mkBN (bn_V bn) (dset (bn_E bn) u l) (bn_F bn).
Definition with_parents (bn : bayesnet) (v : name) (d : fdata) (l : list name) : bayesnet :=
  mkBN (bn_V bn) (bn_E bn) (dset (bn_F bn) v (mkF l (f_values d) (f_cptl d))).

(** the children list of u, as an object *)
Lemma children_ref h b bn u c : observe h b = Some bn -> dget (bn_E bn) u = Some c -> exists r, E_at b u h = (h, Ok r) /\ get_names h r = Some c.
Proof.
  intros O D. destruct (observe_inv h b bn O) as (V & E & F & dE & dF & Hb & HV & HE & ME & HF & MF).
  rewrite (mapO_dget _ _ _ u ME) in D. destruct (dget dE u) as [r|] eqn:Er; [|discriminate]. exists r.
  split; [|assumption]. rewrite (E_at_ok h b V E F dE u Hb HE). unfold getitem. now rewrite Er.
Qed.
Lemma parents_ref h b bn v d : observe h b = Some bn -> dget (bn_F bn) v = Some d ->
  exists r c p w, F_at b v h = (h, Ok r) /\ load_dat r h = (h, Ok (c, p, w)) /\ get_names h p = Some (f_parents d).
Proof.
  intros O D. destruct (observe_inv h b bn O) as (V & E & F & dE & dF & Hb & HV & HE & ME & HF & MF).
  rewrite (mapO_dget _ _ _ v MF) in D. destruct (dget dF v) as [r|] eqn:Er; [|discriminate].
  destruct (get_data_inv h r d D) as (c & p & w & H1 & H2 & H3 & H4). exists r, c, p, w.
  split; [rewrite (F_at_ok h b V E F dF v Hb HF); unfold getitem; now rewrite Er|]. split; [now apply load_dat_ok|assumption].
Qed.
Lemma store_ok h x l0 l : get_names h x = Some l0 -> store x (ONames l) h = (upd_nth x (ONames l) h, Ok tt).
Proof. intros H. unfold store. pose proof (xlt h x l0 H). destruct (Nat.ltb_spec x (length h)); [reflexivity|lia]. Qed.

Lemma store_children h b bn u c r l : observe h b = Some bn -> unshared h b -> dget (bn_E bn) u = Some c -> E_at b u h = (h, Ok r) ->
  observe (upd_nth r (ONames l) h) b = Some (with_children bn u l).
Proof.
  intros O (V & E & F & dE & dF & Hb & HE & HF & ND & W) D Er.
  destruct (observe_inv h b bn O) as (V' & E' & F' & dE' & dF' & Hb' & HV & HE' & ME & HF' & MF).
  rewrite Hb in Hb'. inversion Hb'; subst V' E' F'. rewrite HE in HE'. inversion HE'; subst dE'. rewrite HF in HF'. inversion HF'; subst dF'. clear Hb' HE' HF'.
  rewrite (E_at_ok h b V E F dE u Hb HE) in Er. unfold getitem in Er. destruct (dget dE u) as [r'|] eqn:Du; [|discriminate]. inversion Er; subst r'.
  assert (Hr : get_names h r = Some c) by (rewrite (mapO_dget _ _ _ u ME), Du in D; exact D).
  assert (Ir : In r (map snd dE)) by now apply dget_snd in Du.
  inversion ND as [|? ? NV ND']; subst.
  assert (NDE : NoDup (map snd dE)) by (clear - ND'; induction (map snd dE); [constructor|]; inversion ND'; subst; constructor; [intros K; apply H1, in_or_app; now left|auto]).
  assert (Dis : forall y, In y (map snd dE) -> ~ In y (map (parent_ref h) (map snd dF))).
  { clear - ND'. induction (map snd dE) as [|z t IH]; intros y Hy K; [destruct Hy|]. inversion ND'; subst. destruct Hy as [->|Hy]; [apply H1, in_or_app; now right|now apply (IH H2 y)]. }
  apply (observe_intro _ _ _ V E F dE dF); simpl.
  - now apply (st_other h r c).
  - rewrite (st_names h r c) by assumption. destruct (Nat.eqb_spec r V) as [->|N]; [|assumption]. exfalso. apply NV, in_or_app. now left.
  - now apply (st_other h r c).
  - apply (mapO_upd (get_names h) _ u r l dE); try assumption.
    + intros y Ny Hy. rewrite (st_names h r c) by assumption. destruct (Nat.eqb_spec r y); [congruence|reflexivity].
    + rewrite (st_names h r c) by assumption. now rewrite Nat.eqb_refl.
  - now apply (st_other h r c).
  - apply (mapO_same (get_data h)); [exact MF|]. intros y Hy. apply (st_data h r c l Hr). intros c' p w Hd. split.
    + intros ->. apply (W y c' p r Hy Hd). right. apply in_or_app. now left.
    + intros ->. apply (Dis r Ir). apply in_map_iff. exists y. split; [|assumption]. unfold parent_ref. now rewrite Hd.
Qed.

Lemma store_parents h b bn v d r c p w l : observe h b = Some bn -> unshared h b -> dget (bn_F bn) v = Some d ->
  F_at b v h = (h, Ok r) -> load_dat r h = (h, Ok (c, p, w)) -> get_names h p = Some (f_parents d) ->
  observe (upd_nth p (ONames l) h) b = Some (with_parents bn v d l).
Proof.
  intros O (V & E & F & dE & dF & Hb & HE & HF & ND & W) D Er Ed Hp.
  destruct (observe_inv h b bn O) as (V' & E' & F' & dE' & dF' & Hb' & HV & HE' & ME & HF' & MF).
  rewrite Hb in Hb'. inversion Hb'; subst V' E' F'. rewrite HE in HE'. inversion HE'; subst dE'. rewrite HF in HF'. inversion HF'; subst dF'. clear Hb' HE' HF'.
  rewrite (F_at_ok h b V E F dF v Hb HF) in Er. unfold getitem in Er. destruct (dget dF v) as [r'|] eqn:Du; [|discriminate]. inversion Er; subst r'.
  assert (Hr : get_data h r = Some d) by (rewrite (mapO_dget _ _ _ v MF), Du in D; exact D).
  destruct (get_data_inv h r d Hr) as (c' & p' & w' & G1 & G2 & G3 & G4). rewrite (load_dat_ok h r c' p' w' G1) in Ed. inversion Ed; subst c' p' w'. clear Ed.
  assert (Ir : In r (map snd dF)) by now apply dget_snd in Du.
  assert (Pr : parent_ref h r = p) by (unfold parent_ref; now rewrite G1).
  assert (Ip : In p (map (parent_ref h) (map snd dF))) by (apply in_map_iff; eauto).
  inversion ND as [|? ? NV ND']; subst x l0.
  assert (NDP : NoDup (map (parent_ref h) (map snd dF))) by (clear - ND'; induction (map snd dE); [assumption|]; inversion ND'; auto).
  assert (NDF : NoDup (map snd dF)) by (clear - NDP; now apply NoDup_map_inv in NDP).
  assert (Dis : forall y, In y (map snd dE) -> ~ In y (map (parent_ref h) (map snd dF))).
  { clear - ND'. induction (map snd dE) as [|z t IH]; intros y Hy K; [destruct Hy|]. inversion ND'; subst. destruct Hy as [->|Hy]; [apply H1, in_or_app; now right|now apply (IH H2 y)]. }
  apply (observe_intro _ _ _ V E F dE dF); simpl.
  - now apply (st_other h p (f_parents d)).
  - rewrite (st_names h p (f_parents d)) by assumption. destruct (Nat.eqb_spec p V) as [->|N]; [|assumption]. exfalso. apply NV, in_or_app. now right.
  - now apply (st_other h p (f_parents d)).
  - apply (mapO_same (get_names h)); [exact ME|]. intros y Hy. rewrite (st_names h p (f_parents d)) by assumption.
    destruct (Nat.eqb_spec p y) as [->|]; [|reflexivity]. exfalso. now apply (Dis y).
  - now apply (st_other h p (f_parents d)).
  - apply (mapO_upd (get_data h) _ v r _ dF); try assumption.
    + intros y Ny Hy. apply (st_data h p (f_parents d) l Hp). intros c' p' w' Hd. split.
      * intros ->. apply (W y c' p' p Hy Hd). right. apply in_or_app. now right.
      * intros ->. apply Ny. clear - NDP Pr Hy Ir Hd.
        assert (Py : parent_ref h y = p) by (unfold parent_ref; now rewrite Hd).
        induction (map snd dF) as [|z t IH]; [destruct Hy|]. simpl in NDP. inversion NDP as [|? ? H1 H2]. destruct Hy as [Ey|Hy], Ir as [Ei|Ir]; [congruence| | |now apply IH].
        -- exfalso. apply H1. rewrite Ey, Py. apply in_map_iff. exists r. auto.
        -- exfalso. apply H1. rewrite Ei, Pr. apply in_map_iff. exists y. auto.
    + apply (get_data_intro _ _ _ c p w); simpl.
      * now apply (st_other h p (f_parents d)).
      * rewrite (st_names h p (f_parents d)) by assumption. now rewrite Nat.eqb_refl.
      * rewrite (st_names h p (f_parents d)) by assumption. destruct (Nat.eqb_spec p w) as [->|]; [|assumption].
        exfalso. apply (W r c w w Ir G1). right. apply in_or_app. now right.
      * now rewrite (st_nums h p (f_parents d)).
Qed.

Lemma E_at_store h b bn u c r l v r' : observe h b = Some bn -> dget (bn_E bn) u = Some c -> get_names h r = Some c ->
  E_at b v h = (h, Ok r') -> E_at b v (upd_nth r (ONames l) h) = (upd_nth r (ONames l) h, Ok r').
Proof.
  intros O D Hr. destruct (observe_inv h b bn O) as (V & E & F & dE & dF & Hb & HV & HE & ME & HF & MF).
  rewrite (E_at_ok h b V E F dE v Hb HE). intros K.
  rewrite (E_at_ok _ b V E F dE v); [congruence| |]; now apply (st_other h r c).
Qed.
Lemma F_at_store h b bn r c l v d : observe h b = Some bn -> get_names h r = Some c ->
  F_at b v h = (h, d) -> F_at b v (upd_nth r (ONames l) h) = (upd_nth r (ONames l) h, d).
Proof.
  intros O Hr. destruct (observe_inv h b bn O) as (V & E & F & dE & dF & Hb & HV & HE & ME & HF & MF).
  rewrite (F_at_ok h b V E F dF v Hb HF). intros K.
  rewrite (F_at_ok _ b V E F dF v); [congruence| |]; now apply (st_other h r c).
Qed.

(** ** The edits, read as value-level functions *)
(** E[u].append(v); F[v]['parents'].append(u) *)
Definition edge_added (bn : bayesnet) (u v : name) : bayesnet :=
  match dget (bn_E bn) u, dget (bn_F bn) v with
  | Some c, Some d => mkBN (bn_V bn) (dset (bn_E bn) u (c ++ [v])) (dset (bn_F bn) v (mkF (f_parents d ++ [u]) (f_values d) (f_cptl d)))
  | _, _ => bn
  end.
Definition edge_removed (bn : bayesnet) (u v : name) : bayesnet :=
  match dget (bn_E bn) u, dget (bn_F bn) v with
  | Some c, Some d => mkBN (bn_V bn) (dset (bn_E bn) u (remove1 v c)) (dset (bn_F bn) v (mkF (remove1 u (f_parents d)) (f_values d) (f_cptl d)))
  | _, _ => bn
  end.

Lemma has_node_ok h b bn v : observe h b = Some bn -> h_has_node b v h = (h, Ok (mem v (bn_V bn))).
Proof.
  intros O. destruct (observe_inv h b bn O) as (V & E & F & dE & dF & Hb & HV & _).
  unfold h_has_node, net_V, load_net. unfold bindM at 1 2 3. unfold load at 1. rewrite Hb. unfold ret at 1 2. simpl fst.
  unfold bindM. rewrite (load_names_ok h V _ HV). reflexivity.
Qed.
Lemma has_edge_ok h b bn u v c : observe h b = Some bn -> dget (bn_E bn) u = Some c -> h_has_edge b u v h = (h, Ok (mem v c)).
Proof.
  intros O D. destruct (children_ref h b bn u c O D) as (r & Er & Nr). unfold h_has_edge. unfold bindM at 1. rewrite Er.
  unfold bindM. rewrite (load_names_ok h r c Nr). reflexivity.
Qed.
Lemma append_ok h r c x : get_names h r = Some c -> append_to r x h = (upd_nth r (ONames (c ++ [x])) h, Ok tt).
Proof. intros H. unfold append_to, bindM. rewrite (load_names_ok h r c H). now apply (store_ok h r c). Qed.
Lemma remove_ok h r c x : get_names h r = Some c -> mem x c = true -> remove_from r x h = (upd_nth r (ONames (remove1 x c)) h, Ok tt).
Proof.
  intros H M. unfold remove_from, bindM. rewrite (load_names_ok h r c H). unfold lift, list_remove. rewrite M. now apply (store_ok h r c).
Qed.
Lemma remove_bad h r c x : get_names h r = Some c -> mem x c = false -> remove_from r x h = (h, Raise ValueError).
Proof.
  intros H M. unfold remove_from, bindM. rewrite (load_names_ok h r c H). unfold lift, list_remove. now rewrite M.
Qed.

Lemma add_edge_ok h b bn u v c d : observe h b = Some bn -> unshared h b -> In u (bn_V bn) -> In v (bn_V bn) ->
  dget (bn_E bn) u = Some c -> dget (bn_F bn) v = Some d ->
  exists h', h_add_edge b u v h = (h', Ok tt) /\ unshared h' b /\ (forall y o, nth_error h y = Some o -> (forall m, o <> ONames m) -> nth_error h' y = Some o) /\ observe h' b = Some (if mem v c then bn else edge_added bn u v).
Proof.
  intros O U Hu Hv Dc Dd. apply mem_In in Hu, Hv. unfold h_add_edge.
  unfold bindM at 1. rewrite (has_node_ok h b bn u O), Hu. unfold bindM at 1. unfold ret at 1.
  unfold bindM at 1. rewrite (has_node_ok h b bn v O), Hv. unfold bindM at 1. unfold ret at 1.
  unfold bindM at 1. rewrite (has_edge_ok h b bn u v c O Dc). destruct (mem v c) eqn:M; [exists h; auto|].
  destruct (children_ref h b bn u c O Dc) as (r & Er & Nr). unfold bindM at 1. rewrite Er.
  unfold bindM at 1. rewrite (append_ok h r c v Nr).
  destruct (parents_ref h b bn v d O Dd) as (q & cq & p & w & Fr & Lq & Np).
  unfold bindM at 1. rewrite (F_at_store h b bn r c (c ++ [v]) v (Ok q) O Nr Fr).
  pose proof (store_children h b bn u c r (c ++ [v]) O U Dc Er) as O1.
  pose proof (st_unshared h r c (c ++ [v]) Nr b U) as U1.
  destruct (parents_ref _ b _ v d O1 Dd) as (q' & cq' & p' & w' & Fr' & Lq' & Np').
  rewrite (F_at_store h b bn r c (c ++ [v]) v (Ok q) O Nr Fr) in Fr'. inversion Fr'; subst q'. clear Fr'.
  unfold bindM. rewrite Lq'. simpl fst. simpl snd. rewrite (append_ok _ p' _ u Np'). eexists. split; [reflexivity|]. split.
  - now apply (st_unshared _ p' (f_parents d)).
  - split; [intros y o Hy Ny; apply (st_other _ p' (f_parents d)); [exact Np'| |exact Ny]; now apply (st_other h r c)|].
    rewrite (store_parents _ b _ v d q cq' p' w' (f_parents d ++ [u]) O1 U1 Dd); [|now apply (F_at_store h b bn r c)|exact Lq'|exact Np'].
    unfold edge_added. rewrite Dc, Dd. reflexivity.
Qed.

Lemma remove_edge_ok h b bn u v c d : observe h b = Some bn -> unshared h b -> dget (bn_E bn) u = Some c -> dget (bn_F bn) v = Some d ->
  mem v c = true -> mem u (f_parents d) = true ->
  exists h', h_remove_edge b u v h = (h', Ok tt) /\ unshared h' b /\ (forall y o, nth_error h y = Some o -> (forall m, o <> ONames m) -> nth_error h' y = Some o) /\ observe h' b = Some (edge_removed bn u v).
Proof.
  intros O U Dc Dd M1 M2. unfold h_remove_edge. destruct (children_ref h b bn u c O Dc) as (r & Er & Nr). unfold bindM at 1. rewrite Er.
  unfold bindM at 1. rewrite (remove_ok h r c v Nr M1).
  destruct (parents_ref h b bn v d O Dd) as (q & cq & p & w & Fr & Lq & Np).
  unfold bindM at 1. rewrite (F_at_store h b bn r c (remove1 v c) v (Ok q) O Nr Fr).
  pose proof (store_children h b bn u c r (remove1 v c) O U Dc Er) as O1.
  pose proof (st_unshared h r c (remove1 v c) Nr b U) as U1.
  destruct (parents_ref _ b _ v d O1 Dd) as (q' & cq' & p' & w' & Fr' & Lq' & Np').
  rewrite (F_at_store h b bn r c (remove1 v c) v (Ok q) O Nr Fr) in Fr'. inversion Fr'; subst q'. clear Fr'.
  unfold bindM. rewrite Lq'. simpl fst. simpl snd. rewrite (remove_ok _ p' _ u Np' M2). eexists. split; [reflexivity|]. split.
  - now apply (st_unshared _ p' (f_parents d)).
  - split; [intros y o Hy Ny; apply (st_other _ p' (f_parents d)); [exact Np'| |exact Ny]; now apply (st_other h r c)|].
    rewrite (store_parents _ b _ v d q cq' p' w' (remove1 u (f_parents d)) O1 U1 Dd); [|now apply (F_at_store h b bn r c)|exact Lq'|exact Np'].
    unfold edge_removed. rewrite Dc, Dd. reflexivity.
Qed.
Lemma remove_edge_absent h b bn u v c : observe h b = Some bn -> dget (bn_E bn) u = Some c -> mem v c = false ->
  h_remove_edge b u v h = (h, Raise ValueError).
Proof.
  intros O Dc M. unfold h_remove_edge. destruct (children_ref h b bn u c O Dc) as (r & Er & Nr). unfold bindM at 1. rewrite Er.
  unfold bindM. now rewrite (remove_bad h r c v Nr M).
Qed.

(** ** The value-level facts *)
Lemma In_remove1 x y l : NoDup l -> (In y (remove1 x l) <-> In y l /\ y <> x).
Proof.
  induction l as [|z t IH]; intros ND; simpl; [tauto|]. inversion ND; subst. destruct (name_eqb_spec x z) as [->|N].
  - split; [intros H; split; [now right|intros ->; contradiction]|intros [[->|H] K]; [congruence|assumption]].
  - simpl. rewrite IH by assumption. intuition congruence.
Qed.
Lemma remove1_incl x l : incl (remove1 x l) l.
Proof. induction l as [|z t IH]; intros y Hy; simpl in *; [assumption|]. destruct (name_eqb x z); [now right|]. destruct Hy; [now left|right; auto]. Qed.
Lemma NoDup_remove1 x l : NoDup l -> NoDup (remove1 x l).
Proof.
  induction l as [|z t IH]; intros ND; simpl; [constructor|]. inversion ND; subst. destruct (name_eqb x z); [assumption|].
  constructor; [|auto]. intros K. apply H1. now apply (remove1_incl x).
Qed.
Lemma remove1_last x l : ~ In x l -> remove1 x (l ++ [x]) = l.
Proof.
  induction l as [|z t IH]; intros N; simpl; [now rewrite name_eqb_refl|]. destruct (name_eqb_spec x z) as [->|K]; [exfalso; apply N; now left|].
  f_equal. apply IH. intros H. apply N. now right.
Qed.
Lemma dset_same {A} (d : dict A) k v : dget d k = Some v -> dset d k v = d.
Proof.
  induction d as [|[k' w] t IH]; simpl; [discriminate|]. destruct (name_eqb_spec k k') as [->|N]; intros H; [inversion H; subst; reflexivity|]. f_equal. now apply IH.
Qed.
Lemma dset_dset {A} (d : dict A) k v w : dset (dset d k v) k w = dset d k w.
Proof.
  induction d as [|[k' x] t IH]; simpl; [now rewrite name_eqb_refl|]. destruct (name_eqb_spec k k') as [->|N]; simpl; [now rewrite name_eqb_refl|].
  destruct (name_eqb_spec k k'); [contradiction|]. now rewrite IH.
Qed.
Lemma NoDup_snoc {A} (l : list A) x : NoDup l -> ~ In x l -> NoDup (l ++ [x]).
Proof. intros H N. apply (Permutation_NoDup (l := x :: l)); [apply Permutation_cons_append|now constructor]. Qed.

Lemma edge_dset E u c l x y : dget E u = Some c -> (edge (dset E u l) x y <-> (x = u /\ In y l) \/ (x <> u /\ edge E x y)).
Proof.
  intros D. unfold edge. rewrite dget_dset. destruct (name_eqb_spec x u) as [->|N].
  - split; [intros (c' & H & K); inversion H; subst; left; auto|intros [[_ H]|[H _]]; [eauto|congruence]].
  - split; [intros H; right; auto|intros [[H _]|[_ H]]; [congruence|assumption]].
Qed.

Lemma added_ok bn u v c d : graph_ok bn -> agree bn -> In u (bn_V bn) -> In v (bn_V bn) ->
  dget (bn_E bn) u = Some c -> dget (bn_F bn) v = Some d -> ~ In v c ->
  graph_ok (edge_added bn u v) /\ agree (edge_added bn u v) /\
  forall x y, edge (bn_E (edge_added bn u v)) x y <-> (x = u /\ y = v) \/ edge (bn_E bn) x y.
Proof.
  intros G A Hu Hv Dc Dd N. unfold edge_added. rewrite Dc, Dd.
  destruct (go_E _ G u Hu) as (c' & Ec & NDc & Ic). rewrite Dc in Ec. inversion Ec; subst c'.
  destruct (go_F _ G v Hv) as (d' & Ed & NDd & Id). rewrite Dd in Ed. inversion Ed; subst d'.
  assert (Np : ~ In u (f_parents d)).
  { intros K. apply N. assert (Q : In u (nparents bn v)) by (unfold nparents; now rewrite Dd). apply (A u v Hu Hv) in Q. destruct Q as (c' & E1 & E2). congruence. }
  split; [|split].
  - constructor; simpl.
    + apply G.
    + intros x Hx. rewrite dget_dset. destruct (name_eqb_spec x u) as [->|K]; [|now apply G]. exists (c ++ [v]). split; [reflexivity|].
      split; [now apply NoDup_snoc|]. apply incl_app; [assumption|]. intros y [<-|[]]. assumption.
    + intros x Hx. rewrite dget_dset. destruct (name_eqb_spec x v) as [->|K]; [|now apply G]. eexists. split; [reflexivity|]. simpl.
      split; [now apply NoDup_snoc|]. apply incl_app; [assumption|]. intros y [<-|[]]. assumption.
  - intros x y Hx Hy. simpl. rewrite (edge_dset _ u c) by assumption. unfold nparents. simpl. rewrite dget_dset.
    specialize (A x y Hx Hy). unfold nparents in A. destruct (name_eqb_spec y v) as [->|Ny].
    + rewrite Dd in A. simpl. rewrite in_app_iff, A. simpl. destruct (name_eq_dec x u) as [->|Nx].
      * split; [intros _; left; split; [reflexivity|apply in_or_app; right; now left]|intros _; right; now left].
      * split; [intros [K|[K|[]]]; [right; auto|congruence]|intros [[K _]|[_ K]]; [congruence|now left]].
    + rewrite A. destruct (name_eq_dec x u) as [->|Nx].
      * unfold edge. rewrite Dc. split; [intros (c' & K1 & K2); left; inversion K1; subst; split; [reflexivity|apply in_or_app; now left]|].
        intros [[_ K]|[K _]]; [|congruence]. apply in_app_or in K as [K|[K|[]]]; [eauto|congruence].
      * split; [intros K; right; auto|intros [[K _]|[_ K]]; [congruence|assumption]].
  - intros x y. simpl. rewrite (edge_dset _ u c) by assumption. unfold edge at 2. destruct (name_eq_dec x u) as [->|Nx].
    + rewrite Dc. split; [intros [[_ K]|[K _]]; [|congruence]|intros [[_ ->]|(c' & K1 & K2)]].
      * apply in_app_or in K as [K|[K|[]]]; [right; eauto|left; auto].
      * left. split; [reflexivity|]. apply in_or_app. right. now left.
      * inversion K1; subst. left. split; [reflexivity|]. apply in_or_app. now left.
    + split; [intros [[K _]|[_ K]]; [congruence|right; exact K]|intros [[K _]|K]; [congruence|right; auto]].
Qed.

Lemma removed_ok bn u v c d : graph_ok bn -> agree bn -> In u (bn_V bn) -> In v (bn_V bn) ->
  dget (bn_E bn) u = Some c -> dget (bn_F bn) v = Some d ->
  graph_ok (edge_removed bn u v) /\ agree (edge_removed bn u v) /\
  forall x y, edge (bn_E (edge_removed bn u v)) x y <-> ~ (x = u /\ y = v) /\ edge (bn_E bn) x y.
Proof.
  intros G A Hu Hv Dc Dd. unfold edge_removed. rewrite Dc, Dd.
  destruct (go_E _ G u Hu) as (c' & Ec & NDc & Ic). rewrite Dc in Ec. inversion Ec; subst c'.
  destruct (go_F _ G v Hv) as (d' & Ed & NDd & Id). rewrite Dd in Ed. inversion Ed; subst d'.
  assert (EE : forall x y, edge (dset (bn_E bn) u (remove1 v c)) x y <-> ~ (x = u /\ y = v) /\ edge (bn_E bn) x y).
  { intros x y. rewrite (edge_dset _ u c) by assumption. unfold edge at 2. destruct (name_eq_dec x u) as [->|Nx].
    - rewrite Dc, (In_remove1 v y c NDc). split.
      + intros [[_ [K1 K2]]|[K _]]; [|congruence]. split; [intros [_ K]; congruence|eauto].
      + intros [K (c' & E1 & E2)]. inversion E1; subst. left. split; [reflexivity|]. split; [assumption|]. intros ->. now apply K.
    - split; [intros [[K _]|[_ K]]; [congruence|split; [intros [K1 _]; congruence|exact K]]|intros [_ K]; right; auto]. }
  split; [|split; [|exact EE]].
  - constructor; simpl.
    + apply G.
    + intros x Hx. rewrite dget_dset. destruct (name_eqb_spec x u) as [->|K]; [|now apply G]. exists (remove1 v c). split; [reflexivity|].
      split; [now apply NoDup_remove1|]. intros y Hy. apply Ic. now apply remove1_incl in Hy.
    + intros x Hx. rewrite dget_dset. destruct (name_eqb_spec x v) as [->|K]; [|now apply G]. eexists. split; [reflexivity|]. simpl.
      split; [now apply NoDup_remove1|]. intros y Hy. apply Id. now apply remove1_incl in Hy.
  - intros x y Hx Hy. simpl. rewrite EE. unfold nparents. simpl. rewrite dget_dset. specialize (A x y Hx Hy). unfold nparents in A.
    destruct (name_eqb_spec y v) as [->|Ny].
    + rewrite Dd in A. simpl. rewrite (In_remove1 u x _ NDd), A. intuition congruence.
    + rewrite A. intuition congruence.
Qed.

Lemma add_then_remove bn u v c d : graph_ok bn -> agree bn -> In u (bn_V bn) -> In v (bn_V bn) ->
  dget (bn_E bn) u = Some c -> dget (bn_F bn) v = Some d -> ~ In v c -> edge_removed (edge_added bn u v) u v = bn.
Proof.
  intros G A Hu Hv Dc Dd N.
  assert (Np : ~ In u (f_parents d)).
  { intros K. apply N. assert (Q : In u (nparents bn v)) by (unfold nparents; now rewrite Dd). apply (A u v Hu Hv) in Q. destruct Q as (c' & E1 & E2). congruence. }
  unfold edge_added. rewrite Dc, Dd. unfold edge_removed. simpl. rewrite !dget_dset, !name_eqb_refl. simpl.
  rewrite !remove1_last by assumption. rewrite !dset_dset. rewrite (dset_same (bn_E bn)) by assumption.
  rewrite (dset_same (bn_F bn)); [now destruct bn|]. rewrite Dd. now destruct d.
Qed.

(** ** Histories of add_edge / remove_edge *)
(** an edit of an edge between existing nodes of the network [b] *)
Definition edge_edit (b : ref) (V : list name) (e : edit) : Prop :=
  match e with
  | EAddEdge b' u v => b' = b /\ In u V /\ In v V
  | ERemoveEdge b' u v => b' = b /\ In u V /\ In v V
  | _ => False
  end.
(** what the last edit that mentions (x, y) said *)
Fixpoint last_say (es : list edit) (x y : name) : option bool :=
  match es with
  | [] => None
  | e :: t =>
      match last_say t x y with
      | Some r => Some r
      | None => match e with
                | EAddEdge _ u v => if name_eqb x u && name_eqb y v then Some true else None
                | ERemoveEdge _ u v => if name_eqb x u && name_eqb y v then Some false else None
                | _ => None
                end
      end
  end.

Lemma one_edit h b bn e : observe h b = Some bn -> unshared h b -> graph_ok bn -> agree bn -> edge_edit b (bn_V bn) e ->
  exists bn', observe (run1 h e) b = Some bn' /\ unshared (run1 h e) b /\
    (forall y o, nth_error h y = Some o -> (forall m, o <> ONames m) -> nth_error (run1 h e) y = Some o) /\ graph_ok bn' /\ agree bn' /\ bn_V bn' = bn_V bn /\
    (forall v, In v (bn_V bn) -> nvalues bn' v = nvalues bn v /\ ncpt bn' v = ncpt bn v) /\
    forall x y, edge (bn_E bn') x y <-> match last_say [e] x y with Some b => b = true | None => edge (bn_E bn) x y end.
Proof.
  intros O U G A H. destruct e; simpl in H; try contradiction; destruct H as (-> & Hu & Hv);
    destruct (go_E _ G u Hu) as (c & Dc & NDc & Ic); destruct (go_F _ G v Hv) as (d & Dd & NDd & Id).
  - destruct (add_edge_ok h b bn u v c d O U Hu Hv Dc Dd) as (h' & E & U' & Kp & O'). unfold run1. simpl do_edit. rewrite E. simpl fst.
    destruct (mem v c) eqn:M.
    + exists bn. split; [assumption|]. split; [assumption|]. split; [solve [auto]|]. split; [assumption|]. split; [assumption|]. split; [reflexivity|]. split; [auto|].
      intros x y. simpl. destruct (name_eqb_spec x u) as [->|]; [|tauto]. destruct (name_eqb_spec y v) as [->|]; [|tauto]. simpl.
      apply mem_In in M. split; [reflexivity|]. intros _. exists c. auto.
    + exists (edge_added bn u v). destruct (added_ok bn u v c d G A Hu Hv Dc Dd) as (G' & A' & EE); [now apply mem_false|].
      split; [assumption|]. split; [assumption|]. split; [solve [auto]|]. split; [assumption|]. split; [assumption|].
      split; [unfold edge_added; now rewrite Dc, Dd|]. split.
      * intros z Hz. unfold nvalues, ncpt, edge_added. rewrite Dc, Dd. simpl. rewrite dget_dset. destruct (name_eqb_spec z v) as [->|]; [rewrite Dd; auto|auto].
      * intros x y. rewrite EE. simpl. destruct (name_eqb_spec x u) as [->|]; [|simpl; intuition congruence].
        destruct (name_eqb_spec y v) as [->|]; simpl; [tauto|intuition congruence].
  - unfold run1. simpl do_edit. destruct (mem v c) eqn:M.
    + assert (M2 : mem u (f_parents d) = true).
      { apply mem_In. assert (Q : edge (bn_E bn) u v) by (exists c; split; [assumption|now apply mem_In]). apply (A u v Hu Hv) in Q. unfold nparents in Q. now rewrite Dd in Q. }
      destruct (remove_edge_ok h b bn u v c d O U Dc Dd M M2) as (h' & E & U' & Kp & O'). rewrite E. simpl fst.
      exists (edge_removed bn u v). destruct (removed_ok bn u v c d G A Hu Hv Dc Dd) as (G' & A' & EE).
      split; [assumption|]. split; [assumption|]. split; [solve [auto]|]. split; [assumption|]. split; [assumption|].
      split; [unfold edge_removed; now rewrite Dc, Dd|]. split.
      * intros z Hz. unfold nvalues, ncpt, edge_removed. rewrite Dc, Dd. simpl. rewrite dget_dset. destruct (name_eqb_spec z v) as [->|]; [rewrite Dd; auto|auto].
      * intros x y. rewrite EE. simpl. destruct (name_eqb_spec x u) as [->|]; [|simpl; intuition congruence].
        destruct (name_eqb_spec y v) as [->|]; simpl; [intuition congruence|intuition congruence].
    + rewrite (remove_edge_absent h b bn u v c O Dc M). simpl fst. exists bn.
      split; [assumption|]. split; [assumption|]. split; [solve [auto]|]. split; [assumption|]. split; [assumption|]. split; [reflexivity|]. split; [auto|].
      intros x y. simpl. destruct (name_eqb_spec x u) as [->|]; [|tauto]. destruct (name_eqb_spec y v) as [->|]; [|tauto]. simpl.
      apply mem_false in M. split; [|discriminate]. intros (c' & E1 & E2). congruence.
Qed.

Lemma history_ok es : forall h b bn, observe h b = Some bn -> unshared h b -> graph_ok bn -> agree bn ->
  (forall e, In e es -> edge_edit b (bn_V bn) e) ->
  exists bn', observe (run h es) b = Some bn' /\ unshared (run h es) b /\
    (forall y o, nth_error h y = Some o -> (forall m, o <> ONames m) -> nth_error (run h es) y = Some o) /\ graph_ok bn' /\ agree bn' /\ bn_V bn' = bn_V bn /\
    (forall v, In v (bn_V bn) -> nvalues bn' v = nvalues bn v /\ ncpt bn' v = ncpt bn v) /\
    forall x y, edge (bn_E bn') x y <-> match last_say es x y with Some b => b = true | None => edge (bn_E bn) x y end.
Proof.
  induction es as [|e t IH]; intros h b bn O U G A H.
  - exists bn. simpl. split; [assumption|]. split; [assumption|]. split; [solve [auto]|]. split; [assumption|]. split; [assumption|]. split; [reflexivity|]. split; [auto|]. tauto.
  - destruct (one_edit h b bn e O U G A (H e (or_introl eq_refl))) as (bn1 & O1 & U1 & K1 & G1 & A1 & V1 & D1 & E1).
    destruct (IH (run1 h e) b bn1 O1 U1 G1 A1) as (bn2 & O2 & U2 & K2 & G2 & A2 & V2 & D2 & E2).
    { intros e' He'. rewrite V1. apply H. now right. }
    exists bn2. split; [exact O2|]. split; [exact U2|]. split; [intros y o Hy Ny; simpl; apply K2; auto|]. split; [assumption|]. split; [assumption|]. split; [congruence|]. split.
    + intros v Hv. destruct (D1 v Hv) as [J1 J2]. rewrite <- V1 in Hv. destruct (D2 v Hv) as [K3 K4]. split; congruence.
    + intros x y. rewrite E2. cbn [last_say]. destruct (last_say t x y) as [r|]; [tauto|]. rewrite E1. cbn [last_say]. tauto.
Qed.
