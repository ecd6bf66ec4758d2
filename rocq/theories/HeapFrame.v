(** HeapFrame.v -- edits of one network only touch what it owns. *)
From Verif Require Import Py Num BayesNet BayesNetHeap.
Open Scope nat_scope.

Definition hclosed (h : heap) (P : ref -> Prop) : Prop :=
  forall r o x, P r -> nth_error h r = Some o -> In x (refs o) -> P x.
Definition hrange (h : heap) (P : ref -> Prop) : Prop := forall r, P r -> r < length h.

Section Frame.
  Variable h0 : heap.
  Variable P : ref -> Prop.
  Definition al (h : heap) (x : ref) : Prop := P x \/ length h0 <= x < length h.
  Definition Inv (h : heap) : Prop :=
    length h0 <= length h /\ (forall x, x < length h0 -> ~ P x -> nth_error h x = nth_error h0 x) /\
    (forall x o y, al h x -> nth_error h x = Some o -> In y (refs o) -> al h y).
  Definition safe {T} (m : M T) (h : heap) (Q : heap -> T -> Prop) : Prop :=
    let (h', r) := m h in Inv h' /\ length h <= length h' /\ match r with Ok t => Q h' t | Raise _ => True end.

  Lemma al_mono h h' x : length h <= length h' -> al h x -> al h' x.
  Proof. intros L [H|H]; [now left|right; lia]. Qed.
  Lemma safe_ret {T} (t : T) h (Q : heap -> T -> Prop) : Inv h -> Q h t -> safe (ret t) h Q.
  Proof. intros I H. unfold safe, ret. auto. Qed.
  Lemma safe_raise {T} e h (Q : heap -> T -> Prop) : Inv h -> safe (raise e) h Q.
  Proof. intros I. unfold safe, raise. auto. Qed.
  Lemma safe_lift {T} (r : res T) h (Q : heap -> T -> Prop) : Inv h -> (forall t, r = Ok t -> Q h t) -> safe (lift r) h Q.
  Proof. intros I H. unfold safe, lift. split; [assumption|]. split; [lia|]. destruct r; auto. Qed.
  Lemma safe_bind {A B} (m : M A) (k : A -> M B) h Q R : safe m h Q ->
    (forall h' t, length h <= length h' -> Inv h' -> Q h' t -> safe (k t) h' R) -> safe (bindM m k) h R.
  Proof.
    unfold safe, bindM. destruct (m h) as [h' r] eqn:E. intros (I & L & H) K. destruct r as [t|e].
    - specialize (K h' t L I H). destruct (k t h') as [h2 r2]. destruct K as (I2 & L2 & K). split; [assumption|]. split; [lia|assumption].
    - auto.
  Qed.
  Lemma safe_weaken {T} (m : M T) h (Q R : heap -> T -> Prop) : safe m h Q -> (forall h' t, length h <= length h' -> Q h' t -> R h' t) -> safe m h R.
  Proof. unfold safe. destruct (m h) as [h' r]. intros (I & L & H) K. split; [assumption|]. split; [assumption|]. destruct r; auto. Qed.
  Lemma safe_load r h : Inv h -> al h r -> safe (load r) h (fun h' o => forall x, In x (refs o) -> al h' x).
  Proof.
    intros I A. unfold safe, load. destruct (nth_error h r) as [o|] eqn:E; (split; [assumption|split; [lia|]]); [|exact Logic.I].
    intros x Hx. destruct I as (_ & _ & I). now apply (I r o).
  Qed.
  Lemma safe_alloc o h : Inv h -> (forall x, In x (refs o) -> al h x) -> safe (alloc o) h al.
  Proof.
    intros (L & F & C) H. unfold safe, alloc. split; [|split].
    - split; [rewrite app_length; lia|]. split.
      + intros x Hx Np. rewrite nth_error_app1 by lia. now apply F.
      + intros x o' y A E Y. destruct (Nat.lt_ge_cases x (length h)) as [Lx|Lx].
        * rewrite nth_error_app1 in E by assumption. apply (al_mono h); [rewrite app_length; lia|].
          apply (C x o'); [|assumption|assumption]. destruct A as [A|A]; [now left|right; lia].
        * rewrite nth_error_app2 in E by assumption. destruct (x - length h) as [|n] eqn:Ex; simpl in E; [|destruct n; discriminate].
          inversion E; subst o'. apply (al_mono h); [rewrite app_length; lia|]. now apply H.
    - rewrite app_length. lia.
    - right. rewrite app_length. simpl. lia.
  Qed.
  Lemma safe_store r o h : Inv h -> al h r -> (forall x, In x (refs o) -> al h x) -> safe (store r o) h (fun _ _ => True).
  Proof.
    intros (L & F & C) A H. unfold safe, store. destruct (Nat.ltb_spec r (length h)) as [Lr|Lr]; [|split; [split; [|split]; auto|split; [lia|exact Logic.I]]].
    split; [|split; [rewrite upd_nth_length; lia|exact Logic.I]].
    split; [rewrite upd_nth_length; lia|]. split.
    - intros x Hx Np. rewrite nth_error_upd_nth. destruct (Nat.eqb_spec r x) as [<-|N]; simpl; [|now apply F].
      destruct A as [A|A]; [contradiction|lia].
    - intros x o' y Ax E Y. apply (al_mono h); [rewrite upd_nth_length; lia|].
      assert (Ax' : al h x) by (destruct Ax as [Ax|Ax]; [now left|right; rewrite upd_nth_length in Ax; lia]).
      rewrite nth_error_upd_nth in E. destruct (Nat.eqb_spec r x) as [<-|N].
      + destruct (Nat.ltb_spec r (length h)); [|lia]. simpl in E. inversion E; subst. now apply H.
      + simpl in E. now apply (C x o').
  Qed.

  Lemma safe_names r h : Inv h -> al h r -> safe (load_names r) h (fun _ _ => True).
  Proof.
    intros I A. eapply safe_bind; [now apply safe_load|]. intros h' o L I' K. destruct o; try now apply safe_raise. now apply safe_ret.
  Qed.
  Lemma safe_dict r h : Inv h -> al h r -> safe (load_dict r) h (fun h' d => forall x, In x (map snd d) -> al h' x).
  Proof.
    intros I A. eapply safe_bind; [now apply safe_load|]. intros h' o L I' K. destruct o; try now apply safe_raise. now apply safe_ret.
  Qed.
  Definition al3 (h : heap) (t : ref * ref * ref) : Prop := al h (fst (fst t)) /\ al h (snd (fst t)) /\ al h (snd t).
  Lemma safe_dat r h : Inv h -> al h r -> safe (load_dat r) h al3.
  Proof.
    intros I A. eapply safe_bind; [now apply safe_load|]. intros h' o L I' K. destruct o; try now apply safe_raise.
    apply safe_ret; [assumption|]. split; [|split]; simpl; apply K; simpl; auto.
  Qed.
  Lemma safe_net r h : Inv h -> al h r -> safe (load_net r) h al3.
  Proof.
    intros I A. eapply safe_bind; [now apply safe_load|]. intros h' o L I' K. destruct o; try now apply safe_raise.
    apply safe_ret; [assumption|]. split; [|split]; simpl; apply K; simpl; auto.
  Qed.
  Lemma dget_snd (d : dict ref) k r : dget d k = Some r -> In r (map snd d).
  Proof.
    induction d as [|[k' r'] t IH]; simpl; [discriminate|]. destruct (name_eqb k k'); intros H; [inversion H; now left|right; auto].
  Qed.
  Lemma snd_dset (d : dict ref) k r x : In x (map snd (dset d k r)) -> x = r \/ In x (map snd d).
  Proof.
    induction d as [|[k' r'] t IH]; simpl; [intros [<-|[]]; now left|]. destruct (name_eqb k k'); simpl; [intros [<-|H]; auto|].
    intros [<-|H]; [auto|]. destruct (IH H); auto.
  Qed.
  Lemma safe_V b h : Inv h -> al h b -> safe (net_V b) h al.
  Proof. intros I A. eapply safe_bind; [now apply safe_net|]. intros h' t L I' K. apply safe_ret; [assumption|apply K]. Qed.
  Lemma safe_E b h : Inv h -> al h b -> safe (net_E b) h al.
  Proof. intros I A. eapply safe_bind; [now apply safe_net|]. intros h' t L I' K. apply safe_ret; [assumption|apply K]. Qed.
  Lemma safe_F b h : Inv h -> al h b -> safe (net_F b) h al.
  Proof. intros I A. eapply safe_bind; [now apply safe_net|]. intros h' t L I' K. apply safe_ret; [assumption|apply K]. Qed.
  Lemma safe_E_at b u h : Inv h -> al h b -> safe (E_at b u) h al.
  Proof.
    intros I A. eapply safe_bind; [now apply safe_E|]. intros h1 e L1 I1 Ae. eapply safe_bind; [now apply safe_dict|].
    intros h2 d L2 I2 Ad. apply safe_lift; [assumption|]. intros t H. apply Ad. unfold getitem in H.
    destruct (dget d u) as [r|] eqn:D; [|discriminate]. inversion H; subst. now apply dget_snd in D.
  Qed.
  Lemma safe_F_at b u h : Inv h -> al h b -> safe (F_at b u) h al.
  Proof.
    intros I A. eapply safe_bind; [now apply safe_F|]. intros h1 e L1 I1 Ae. eapply safe_bind; [now apply safe_dict|].
    intros h2 d L2 I2 Ad. apply safe_lift; [assumption|]. intros t H. apply Ad. unfold getitem in H.
    destruct (dget d u) as [r|] eqn:D; [|discriminate]. inversion H; subst. now apply dget_snd in D.
  Qed.
  Lemma safe_append r x h : Inv h -> al h r -> safe (append_to r x) h (fun _ _ => True).
  Proof.
    intros I A. eapply safe_bind; [now apply safe_names|]. intros h1 l L1 I1 _. apply safe_store; [assumption|now apply (al_mono h)|intros y []].
  Qed.
  Lemma safe_remove r x h : Inv h -> al h r -> safe (remove_from r x) h (fun _ _ => True).
  Proof.
    intros I A. eapply safe_bind; [now apply safe_names|]. intros h1 l L1 I1 _.
    eapply safe_bind; [apply (safe_lift _ _ (fun _ _ => True)); auto|]. intros h2 l' L2 I2 _.
    apply safe_store; [assumption|apply (al_mono h); [lia|assumption]|intros y []].
  Qed.
  Lemma safe_setitem r k v h : Inv h -> al h r -> al h v -> safe (setitem_ref r k v) h (fun _ _ => True).
  Proof.
    intros I A Av. eapply safe_bind; [now apply safe_dict|]. intros h1 d L1 I1 Ad. apply safe_store; [assumption|now apply (al_mono h)|].
    intros y Hy. simpl in Hy. destruct (snd_dset _ _ _ _ Hy) as [-> |K]; [now apply (al_mono h)|now apply Ad].
  Qed.
  Lemma safe_add_node b rv c p v h : Inv h -> al h b -> al h c -> al h p -> al h v -> safe (h_add_node b rv c p v) h (fun _ _ => True).
  Proof.
    intros I Ab Ac Ap Av. eapply safe_bind; [now apply safe_V|]. intros h1 r L1 I1 Ar.
    eapply safe_bind; [now apply safe_append|]. intros h2 _ L2 I2 _.
    eapply safe_bind.
    { apply safe_alloc; [assumption|]. intros x [<-|[<-|[<-|[]]]]; apply (al_mono h); auto; lia. }
    intros h3 d L3 I3 Ad. eapply safe_bind; [apply safe_F; [assumption|apply (al_mono h); [lia|assumption]]|].
    intros h4 f L4 I4 Af. apply safe_setitem; [assumption|assumption|apply (al_mono h3); [lia|assumption]].
  Qed.
  Lemma safe_has_node b rv h : Inv h -> al h b -> safe (h_has_node b rv) h (fun h' t => h' = h).
  Proof.
    intros I A. unfold safe, h_has_node, net_V, load_net, load_names, bindM, ret, load.
    destruct (nth_error h b) as [o|] eqn:E; [|split; [assumption|split; [lia|exact Logic.I]]].
    destruct o; simpl; try (split; [assumption|split; [lia|exact Logic.I]]).
    destruct (nth_error h V) as [o|]; [|split; [assumption|split; [lia|exact Logic.I]]].
    destruct o; simpl; (split; [assumption|split; [lia|]]); try exact Logic.I. reflexivity.
  Qed.
  Lemma safe_has_edge b u v h : Inv h -> al h b -> safe (h_has_edge b u v) h (fun _ _ => True).
  Proof.
    intros I A. eapply safe_bind; [now apply safe_E_at|]. intros h1 r L1 I1 Ar.
    eapply safe_bind; [now apply safe_names|]. intros h2 l L2 I2 _. now apply safe_ret.
  Qed.

  (** an edit that introduces no default argument *)
  Definition plain (h : heap) (e : edit) : Prop :=
    match e with
    | EAddNode _ _ c p v => c <> None /\ p <> None /\ v <> None
    | EAddEdge b u v => snd (h_has_node b u h) = Ok true /\ snd (h_has_node b v h) = Ok true
    | _ => True
    end.

  Lemma has_node_heap b rv h : fst (h_has_node b rv h) = h.
  Proof.
    unfold h_has_node, net_V, load_net, load_names, bindM, ret, load.
    destruct (nth_error h b) as [o|]; [|reflexivity]. destruct o; try reflexivity. simpl.
    destruct (nth_error h V) as [o|]; [|reflexivity]. destruct o; reflexivity.
  Qed.

  Lemma safe_edit e h : Inv h -> al h (edited e) -> plain h e -> safe (do_edit e) h (fun _ _ => True).
  Proof.
    intros I A Pl. destruct e; simpl do_edit; simpl edited in A; simpl in Pl.
    - destruct Pl as (N1 & N2 & N3). destruct cpt as [c|]; [|congruence]. destruct parents as [p|]; [|congruence]. destruct values as [v|]; [|congruence].
      eapply safe_bind; [apply safe_alloc; [assumption|intros x []]|]. intros h1 rc L1 I1 A1.
      eapply safe_bind; [apply safe_alloc; [assumption|intros x []]|]. intros h2 rp L2 I2 A2.
      eapply safe_bind; [apply safe_alloc; [assumption|intros x []]|]. intros h3 rv' L3 I3 A3.
      apply safe_add_node; [assumption|apply (al_mono h); [lia|assumption]|apply (al_mono h1); [lia|assumption]|apply (al_mono h2); [lia|assumption]|assumption].
    - destruct Pl as [P1 P2]. unfold h_add_edge.
      assert (E1 : h_has_node b u h = (h, Ok true)) by (rewrite (surjective_pairing (h_has_node b u h)), has_node_heap, P1; reflexivity).
      assert (E2 : h_has_node b v h = (h, Ok true)) by (rewrite (surjective_pairing (h_has_node b v h)), has_node_heap, P2; reflexivity).
      assert (Q : safe (mdo he <- h_has_edge b u v ;; if he then ret tt else
          mdo r <- E_at b u ;; mdo _ <- append_to r v ;; mdo d <- F_at b v ;; mdo t <- load_dat d ;; append_to (snd (fst t)) u) h (fun _ _ => True)).
      { eapply safe_bind; [now apply safe_has_edge|]. intros h1 he L1 I1 _. destruct he; [now apply safe_ret|].
        eapply safe_bind; [apply safe_E_at; [assumption|now apply (al_mono h)]|]. intros h2 r L2 I2 Ar.
        eapply safe_bind; [now apply safe_append|]. intros h3 _ L3 I3 _.
        eapply safe_bind; [apply safe_F_at; [assumption|apply (al_mono h); [lia|assumption]]|]. intros h4 d L4 I4 Ad.
        eapply safe_bind; [now apply safe_dat|]. intros h5 t L5 I5 At. apply safe_append; [assumption|apply At]. }
      unfold safe in *. unfold bindM at 1. rewrite E1. unfold bindM at 1. unfold ret at 1. unfold bindM at 1. rewrite E2.
      unfold bindM at 1. unfold ret at 1. exact Q.
    - unfold h_remove_edge. eapply safe_bind; [now apply safe_E_at|]. intros h1 r L1 I1 Ar.
      eapply safe_bind; [now apply safe_remove|]. intros h2 _ L2 I2 _.
      eapply safe_bind; [apply safe_F_at; [assumption|apply (al_mono h); [lia|assumption]]|]. intros h3 d L3 I3 Ad.
      eapply safe_bind; [now apply safe_dat|]. intros h4 t L4 I4 At. apply safe_remove; [assumption|apply At].
    - unfold h_reverse_arc. eapply safe_bind; [now apply safe_has_edge|]. intros h1 he L1 I1 _. destruct he; [|now apply safe_ret].
      eapply safe_bind; [apply safe_E_at; [assumption|now apply (al_mono h)]|]. intros h2 r L2 I2 Ar.
      eapply safe_bind; [now apply safe_remove|]. intros h3 _ L3 I3 _.
      eapply safe_bind; [apply safe_E_at; [assumption|apply (al_mono h); [lia|assumption]]|]. intros h4 s L4 I4 As. now apply safe_append.
    - eapply safe_bind; [apply safe_alloc; [assumption|intros x []]|]. intros h1 r L1 I1 A1.
      unfold h_set_cpt. eapply safe_bind; [apply safe_F_at; [assumption|now apply (al_mono h)]|]. intros h2 d L2 I2 Ad.
      eapply safe_bind; [now apply safe_dat|]. intros h3 t L3 I3 At. apply safe_store; [assumption|now apply (al_mono h2)|].
      intros x [<-|[<-|[<-|[]]]]; [apply (al_mono h1); [lia|assumption]|apply At|apply At].
    - eapply safe_bind; [apply safe_alloc; [assumption|intros x []]|]. intros h1 r L1 I1 A1.
      unfold h_set_parents. eapply safe_bind; [apply safe_F_at; [assumption|now apply (al_mono h)]|]. intros h2 d L2 I2 Ad.
      eapply safe_bind; [now apply safe_dat|]. intros h3 t L3 I3 At. apply safe_store; [assumption|now apply (al_mono h2)|].
      intros x [<-|[<-|[<-|[]]]]; [apply At|apply (al_mono h1); [lia|assumption]|apply At].
    - eapply safe_bind; [apply safe_alloc; [assumption|intros x []]|]. intros h1 r L1 I1 A1.
      unfold h_set_values. eapply safe_bind; [apply safe_F_at; [assumption|now apply (al_mono h)]|]. intros h2 d L2 I2 Ad.
      eapply safe_bind; [now apply safe_dat|]. intros h3 t L3 I3 At. apply safe_store; [assumption|now apply (al_mono h2)|].
      intros x [<-|[<-|[<-|[]]]]; [apply At|apply At|apply (al_mono h1); [lia|assumption]].
  Qed.

  Lemma Inv_init : hclosed h0 P -> Inv h0.
  Proof.
    intros C. split; [lia|]. split; [reflexivity|]. intros x o y [H|H] E Y; [|lia]. left. now apply (C x o).
  Qed.
End Frame.

(** two networks that share no object *)
Definition apart (h : heap) (b c : ref) : Prop :=
  exists P Q, hclosed h P /\ hclosed h Q /\ hrange h P /\ hrange h Q /\ P b /\ Q c /\ forall x, P x -> Q x -> False.
Lemma apart_sym h b c : apart h b c -> apart h c b.
Proof. intros (P & Q & A & B & C & D & E & F & G). exists Q, P. split; [|split; [|split; [|split; [|split; [|split]]]]]; auto. intros x X Y. now apply (G x). Qed.

Lemma mapO_ext {A B} (f g : A -> option B) l : (forall x, In x l -> f x = g x) -> mapO f l = mapO g l.
Proof. induction l as [|x r IH]; intros H; simpl; [reflexivity|]. rewrite (H x) by now left. rewrite IH by (intros; apply H; now right). reflexivity. Qed.

Lemma observe_frame h h' (Q : ref -> Prop) c : hclosed h Q -> (forall x, Q x -> nth_error h' x = nth_error h x) -> Q c -> observe h' c = observe h c.
Proof.
  intros C E Qc. unfold observe. rewrite (E c Qc). destruct (nth_error h c) as [o|] eqn:Ec; [|reflexivity]. destruct o as [| | | |V Er F]; try reflexivity.
  assert (QV : Q V) by (apply (C c _ V Qc Ec); simpl; auto). assert (QE : Q Er) by (apply (C c _ Er Qc Ec); simpl; auto).
  assert (QF : Q F) by (apply (C c _ F Qc Ec); simpl; auto).
  assert (GN : forall r, Q r -> get_names h' r = get_names h r) by (intros r Qr; unfold get_names; now rewrite E).
  assert (GQ : forall r, Q r -> get_nums h' r = get_nums h r) by (intros r Qr; unfold get_nums; now rewrite E).
  assert (GD : forall r, Q r -> get_data h' r = get_data h r).
  { intros r Qr. unfold get_data. rewrite (E r Qr). destruct (nth_error h r) as [o|] eqn:Er'; [|reflexivity]. destruct o as [| | |k p v|]; try reflexivity.
    rewrite (GN p), (GN v), (GQ k); try reflexivity; apply (C r _ _ Qr Er'); simpl; auto. }
  assert (GG : forall A (g g' : ref -> option A) r, Q r -> (forall x, Q x -> g' x = g x) -> get_dict h' g' r = get_dict h g r).
  { intros A g g' r Qr Hg. unfold get_dict. rewrite (E r Qr). destruct (nth_error h r) as [o|] eqn:Er'; [|reflexivity]. destruct o as [| |d| |]; try reflexivity.
    apply mapO_ext. intros [k x] Hx. simpl. rewrite (Hg x); [reflexivity|]. apply (C r _ x Qr Er'). simpl. apply in_map_iff. exists (k, x). auto. }
  rewrite (GN V QV), (GG _ (get_names h) (get_names h') Er QE GN), (GG _ (get_data h) (get_data h') F QF GD). reflexivity.
Qed.

Lemma edit_apart h e c : plain h e -> apart h (edited e) c -> apart (run1 h e) (edited e) c /\ observe (run1 h e) c = observe h c.
Proof.
  intros Pl (P & Q & CP & CQ & RP & RQ & Pb & Qc & D).
  pose proof (safe_edit h P e h (Inv_init h P CP) (or_introl Pb) Pl) as S. unfold safe in S. unfold run1.
  destruct (do_edit e h) as [h' r]. simpl. destruct S as ((L & F & C) & L' & _).
  assert (EQ : forall x, Q x -> nth_error h' x = nth_error h x).
  { intros x Qx. apply F; [now apply RQ|]. intros Px. now apply (D x). }
  split; [|now apply (observe_frame h h' Q)].
  exists (al h P h'), Q. split; [|split; [|split; [|split; [|split; [|split]]]]].
  - intros x o y Ax Ex Hy. now apply (C x o).
  - intros x o y Qx Ex Hy. rewrite (EQ x Qx) in Ex. now apply (CQ x o).
  - intros x [Px|Hx]; [specialize (RP x Px); lia|lia].
  - intros x Qx. specialize (RQ x Qx). lia.
  - now left.
  - exact Qc.
  - intros x [Px|Hx] Qx; [now apply (D x)|]. specialize (RQ x Qx). lia.
Qed.

(** ** copy makes a disjoint network *)
Section Copy.
  Variable h0 : heap.
  (** the heap only grew, and everything new points to new objects *)
  Definition grown (h : heap) : Prop :=
    (exists l, h = h0 ++ l) /\ forall x o y, length h0 <= x -> nth_error h x = Some o -> In y (refs o) -> length h0 <= y < length h.
  Definition newref (h : heap) (r : ref) : Prop := length h0 <= r < length h.
  Definition gsafe {T} (m : M T) (h : heap) (Q : heap -> T -> Prop) : Prop :=
    let (h', r) := m h in grown h' /\ length h <= length h' /\ match r with Ok t => Q h' t | Raise _ => True end.
  Lemma newref_mono h h' r : length h <= length h' -> newref h r -> newref h' r.
  Proof. unfold newref. lia. Qed.
  Lemma g_bind {A B} (m : M A) (k : A -> M B) h Q R : gsafe m h Q ->
    (forall h' t, length h <= length h' -> grown h' -> Q h' t -> gsafe (k t) h' R) -> gsafe (bindM m k) h R.
  Proof.
    unfold gsafe, bindM. destruct (m h) as [h' r]. intros (I & L & H) K. destruct r as [t|e].
    - specialize (K h' t L I H). destruct (k t h') as [h2 r2]. destruct K as (I2 & L2 & K). split; [assumption|]. split; [lia|assumption].
    - auto.
  Qed.
  Lemma g_ret {T} (t : T) h (Q : heap -> T -> Prop) : grown h -> Q h t -> gsafe (ret t) h Q.
  Proof. intros I H. unfold gsafe, ret. auto. Qed.
  Lemma g_raise {T} e h (Q : heap -> T -> Prop) : grown h -> gsafe (raise e) h Q.
  Proof. intros I. unfold gsafe, raise. auto. Qed.
  Lemma g_alloc o h : grown h -> (forall y, In y (refs o) -> newref h y) -> gsafe (alloc o) h newref.
  Proof.
    intros [(l & El) G] H. unfold gsafe, alloc. assert (Lh : length h0 <= length h) by (rewrite El, app_length; lia). split; [|split].
    - split; [exists (l ++ [o]); now rewrite El, app_assoc|]. intros x o' y Lx E Y. rewrite app_length. simpl.
      destruct (Nat.lt_ge_cases x (length h)) as [L|L].
      + rewrite nth_error_app1 in E by assumption. specialize (G x o' y Lx E Y). lia.
      + rewrite nth_error_app2 in E by assumption. destruct (x - length h) as [|n]; simpl in E; [|destruct n; discriminate].
        inversion E; subst. specialize (H y Y). unfold newref in H. lia.
    - rewrite app_length. lia.
    - unfold newref. rewrite app_length. simpl. lia.
  Qed.
  (** reading programs do not change the heap *)
  Definition reader {T} (m : M T) : Prop := forall h, fst (m h) = h.
  Lemma g_reader {T} (m : M T) h : reader m -> grown h -> gsafe m h (fun h' _ => h' = h).
  Proof. intros R G. unfold gsafe. specialize (R h). destruct (m h) as [h' r]. simpl in R. subst. split; [assumption|]. split; [lia|]. now destruct r. Qed.
  Lemma r_bind {A B} (m : M A) (k : A -> M B) : reader m -> (forall t, reader (k t)) -> reader (bindM m k).
  Proof. intros R K h. unfold bindM. specialize (R h). destruct (m h) as [h' [t|e]]; simpl in *; subst; auto. apply K. Qed.
  Lemma r_ret {T} (t : T) : reader (ret t). Proof. intros h. reflexivity. Qed.
  Lemma r_raise {T} e : reader (@raise T e). Proof. intros h. reflexivity. Qed.
  Lemma r_lift {T} (r : res T) : reader (lift r). Proof. intros h. reflexivity. Qed.
  Lemma r_load r : reader (load r). Proof. intros h. unfold load. now destruct (nth_error h r). Qed.
  Lemma r_names r : reader (load_names r). Proof. apply r_bind; [apply r_load|]. intros []; (apply r_ret || apply r_raise). Qed.
  Lemma r_dict r : reader (load_dict r). Proof. apply r_bind; [apply r_load|]. intros []; (apply r_ret || apply r_raise). Qed.
  Lemma r_dat r : reader (load_dat r). Proof. apply r_bind; [apply r_load|]. intros []; (apply r_ret || apply r_raise). Qed.
  Lemma r_net r : reader (load_net r). Proof. apply r_bind; [apply r_load|]. intros []; (apply r_ret || apply r_raise). Qed.
  Lemma r_V r : reader (net_V r). Proof. apply r_bind; [apply r_net|]. intros t. apply r_ret. Qed.
  Lemma r_E r : reader (net_E r). Proof. apply r_bind; [apply r_net|]. intros t. apply r_ret. Qed.
  Lemma r_F r : reader (net_F r). Proof. apply r_bind; [apply r_net|]. intros t. apply r_ret. Qed.
  Lemma r_F_at r v : reader (F_at r v). Proof. apply r_bind; [apply r_F|]. intros t. apply r_bind; [apply r_dict|]. intros d. apply r_lift. Qed.

  Lemma g_leaf r h : grown h -> gsafe (deep_leaf r) h newref.
  Proof.
    intros G. eapply g_bind; [apply g_reader; [apply r_load|assumption]|]. intros h' o L G' ->.
    destruct o; try now apply g_raise; auto; apply g_alloc; auto; intros y []. all: apply g_alloc; [assumption|intros y []].
  Qed.
  Definition newdict (h : heap) (d : dict ref) : Prop := forall x, In x (map snd d) -> newref h x.
  Lemma g_items d : forall memo h, grown h -> (forall a b, memo_get memo a = Some b -> newref h b) -> gsafe (deep_items d memo) h newdict.
  Proof.
    induction d as [|[k r] t IH]; intros memo h G Hm; simpl.
    - apply g_ret; [assumption|]. intros x [].
    - destruct (memo_get memo r) as [r'|] eqn:E.
      + eapply g_bind; [now apply IH|]. intros h1 t' L1 G1 N1. apply g_ret; [assumption|].
        intros x [<-|Hx]; [simpl; apply (newref_mono h); [assumption|now apply (Hm r)]|now apply N1].
      + eapply g_bind; [now apply g_leaf|]. intros h1 r' L1 G1 N1.
        eapply g_bind.
        { apply IH; [assumption|]. intros a b. simpl. destruct (r =? a); intros Hab; [inversion Hab; subst; assumption|].
          apply (newref_mono h); [assumption|now apply (Hm a)]. }
        intros h2 t' L2 G2 N2. apply g_ret; [assumption|]. intros x [<-|Hx]; [now apply (newref_mono h1)|now apply N2].
  Qed.
  Lemma g_deep_dict r h : grown h -> gsafe (deep_dict r) h newref.
  Proof.
    intros G. eapply g_bind; [apply g_reader; [apply r_dict|assumption]|]. intros h1 d L1 G1 ->.
    eapply g_bind; [apply g_items; [assumption|discriminate]|]. intros h2 d' L2 G2 N2. apply g_alloc; [assumption|exact N2].
  Qed.
  Lemma g_copy_F b vs : forall F h, grown h -> newdict h F -> gsafe (copy_F b vs F) h newdict.
  Proof.
    induction vs as [|v t IH]; intros F h G N; simpl; [now apply g_ret|].
    eapply g_bind; [apply g_reader; [apply r_F_at|assumption]|]. intros h1 d L1 G1 ->.
    eapply g_bind; [apply g_reader; [apply r_dat|assumption]|]. intros h2 x L2 G2 ->.
    eapply g_bind; [now apply g_leaf|]. intros h3 c L3 G3 N3.
    eapply g_bind; [now apply g_leaf|]. intros h4 p L4 G4 N4.
    eapply g_bind; [now apply g_leaf|]. intros h5 w L5 G5 N5.
    eapply g_bind.
    { apply g_alloc; [assumption|]. intros y [<-|[<-|[<-|[]]]]; [apply (newref_mono h3); [lia|assumption]|now apply (newref_mono h4)|assumption]. }
    intros h6 nd L6 G6 N6. apply IH; [assumption|]. intros y Hy. destruct (snd_dset _ _ _ _ Hy) as [-> |K]; [assumption|].
    apply (newref_mono h); [lia|now apply N].
  Qed.
  Lemma g_copy b h : grown h -> gsafe (h_copy b) h newref.
  Proof.
    intros G. eapply g_bind; [apply g_reader; [apply r_V|assumption]|]. intros h1 rv L1 G1 ->.
    eapply g_bind; [now apply g_leaf|]. intros h2 V L2 G2 N2.
    eapply g_bind; [apply g_reader; [apply r_E|assumption]|]. intros h3 re L3 G3 ->.
    eapply g_bind; [now apply g_deep_dict|]. intros h4 E L4 G4 N4.
    eapply g_bind; [apply g_reader; [apply r_names|assumption]|]. intros h5 vs L5 G5 ->.
    eapply g_bind; [apply g_copy_F; [assumption|intros x []]|]. intros h6 F L6 G6 N6.
    eapply g_bind; [apply g_alloc; [assumption|exact N6]|]. intros h7 f L7 G7 N7.
    apply g_alloc; [assumption|]. intros y [<-|[<-|[<-|[]]]]; [apply (newref_mono h2); [lia|assumption]|apply (newref_mono h4); [lia|assumption]|assumption].
  Qed.
End Copy.

(** every reference in the heap points into the heap *)
Definition wfheap (h : heap) : Prop := forall r o x, nth_error h r = Some o -> In x (refs o) -> x < length h.
Lemma copy_apart h b h1 c : wfheap h -> b < length h -> h_copy b h = (h1, Ok c) ->
  apart h1 b c /\ observe h1 b = observe h b.
Proof.
  intros W Lb E. pose proof (g_copy h b h) as G. unfold gsafe in G. rewrite E in G.
  destruct G as ([(l & ->) Hn] & L & N).
  { split; [exists []; now rewrite app_nil_r|]. intros x o y Lx Ex. apply nth_error_None in Lx. congruence. }
  assert (Eq : forall x, x < length h -> nth_error (h ++ l) x = nth_error h x) by (intros x Lx; now apply nth_error_app1).
  split.
  - exists (fun x => x < length h), (newref h (h ++ l)). split; [|split; [|split; [|split; [|split; [|split]]]]].
    + intros x o y Lx Ex Hy. rewrite (Eq x Lx) in Ex. now apply (W x o).
    + intros x o y Nx Ex Hy. apply (Hn x o); [apply Nx|assumption|assumption].
    + intros x Lx. lia.
    + intros x Nx. apply Nx.
    + exact Lb.
    + exact N.
    + intros x Lx [Nx _]. lia.
  - apply (observe_frame h (h ++ l) (fun x => x < length h)); [|exact Eq|exact Lb]. intros x o y Lx Ex Hy. now apply (W x o).
Qed.
