(** HeapDefaults.v -- the default argument objects of add_node over whole programs: an invariant of the
    heap kept by BayesNet(), BayesNet(E, values), copy() and every edit (BayesNetHeap.v). *)
From Verif Require Import Py Num BayesNet Graph BayesNetHeap HeapFrame HeapNet.
Open Scope nat_scope.

(** ** Programs *)
(** A program step.  [SList], [SDict]: the caller makes a list, or a dict whose values are existing objects.
    [SNew]: BayesNet().  [SBuild e vd]: BayesNet(E, values) with the caller's dict objects.  [SCopy b]: b.copy().
    Exceptions are caught: only the heap goes on. *)
Inductive step :=
| SList (l : list name) | SDict (d : dict ref) | SNew | SBuild (e : ref) (vd : option ref) | SCopy (b : ref) | SEdit (e : edit).
Definition do_step (s : step) : M (option ref) :=
  match s with
  | SList l => mdo r <- alloc (ONames l) ;; ret (Some r)
  | SDict d => mdo r <- alloc (ODict d) ;; ret (Some r)
  | SNew => mdo r <- new_net ;; ret (Some r)
  | SBuild e vd => mdo r <- h_set_structure e vd ;; ret (Some r)
  | SCopy b => mdo r <- h_copy b ;; ret (Some r)
  | SEdit e => mdo _ <- do_edit e ;; ret None
  end.
Definition run_step (h : heap) (s : step) : heap := fst (do_step s h).
Definition run_steps (h : heap) (ss : list step) : heap := fold_left run_step ss h.
(** what a program may not do: put one of the three default objects into a dict of its own, and use the
    attribute F of a network as the edge dict of another one *)
Definition fair_step (h : heap) (s : step) : Prop :=
  match s with
  | SDict d => forall r, In r (map snd d) -> 3 <= r < length h
  | SBuild e _ => forall b V E F, nth_error h b = Some (ONet V E F) -> e <> F
  | _ => True
  end.
Fixpoint fair (h : heap) (ss : list step) : Prop :=
  match ss with [] => True | s :: t => fair_step h s /\ fair (run_step h s) t end.

(** ** The invariant *)
Record dflt_inv (h : heap) : Prop := {
  di_cpt : nth_error h dflt_cpt = Some (ONums []);
  di_par : exists l, nth_error h dflt_parents = Some (ONames l);
  di_val : nth_error h dflt_values = Some (ONames []);
  di_net : forall b V E F, nth_error h b = Some (ONet V E F) -> 3 <= V < length h /\ 3 <= E < length h /\ 3 <= F < length h;
  di_dat : forall r c p v, nth_error h r = Some (ODat c p v) -> p = dflt_parents \/ 3 <= p;
  di_dict : forall r d x, nth_error h r = Some (ODict d) -> In x (map snd d) -> 3 <= x;
  di_EF : forall b V E F b' V' E' F', nth_error h b = Some (ONet V E F) -> nth_error h b' = Some (ONet V' E' F') -> E <> F'
}.
Lemma dflt_inv_0 : dflt_inv heap0.
Proof.
  constructor; try reflexivity; [now exists []|..].
  - intros [|[|[|[|b]]]] ? ? ? H; discriminate H.
  - intros [|[|[|[|b]]]] ? ? ? H; discriminate H.
  - intros [|[|[|[|b]]]] ? ? H; discriminate H.
  - intros [|[|[|[|b]]]] ? ? ? ? ? ? ? H; discriminate H.
Qed.

(** [keeps]: networks keep their attributes, and their edge dict is not changed; [calm]: also no network is new *)
Definition keeps (h h' : heap) : Prop :=
  length h <= length h' /\
  (forall b V E F, nth_error h b = Some (ONet V E F) -> nth_error h' b = Some (ONet V E F)) /\
  (forall b V E F d, nth_error h b = Some (ONet V E F) -> nth_error h E = Some (ODict d) -> nth_error h' E = Some (ODict d)).
Definition is_F (h : heap) (r : ref) : Prop := exists b V E, nth_error h b = Some (ONet V E r).
Definition calm (h h' : heap) : Prop := keeps h h' /\ (forall b V E F, nth_error h' b = Some (ONet V E F) -> nth_error h b = Some (ONet V E F)) /\
  (forall r d, nth_error h r = Some (ODict d) -> ~ is_F h r -> nth_error h' r = Some (ODict d)).
Lemma keeps_refl h : keeps h h.
Proof. split; [lia|]. split; auto. Qed.
Lemma keeps_trans a b c : keeps a b -> keeps b c -> keeps a c.
Proof. intros (L & N & D) (L' & N' & D'). split; [lia|]. split; [auto|]. intros x V E F d H Hd. apply (D' x V E F); [now apply N|]. now apply (D x V E F). Qed.
Lemma calm_refl h : calm h h.
Proof. split; [apply keeps_refl|]. split; auto. Qed.
Lemma calm_trans a b c : calm a b -> calm b c -> calm a c.
Proof.
  intros (K & N & D) (K' & N' & D'). split; [now apply (keeps_trans a b)|]. split; [auto|]. intros r d H NF. apply D'; [now apply D|]. intros (x & V & E & X). apply NF. exists x, V, E. auto.
Qed.
Lemma calm_len h h' : calm h h' -> length h <= length h'. Proof. intros [[L _] _]. exact L. Qed.

(** Hoare triples for code that makes no network object *)
Definition tri {T} (m : M T) (h : heap) (Q : heap -> T -> Prop) : Prop :=
  dflt_inv h -> let (h', r) := m h in dflt_inv h' /\ calm h h' /\ match r with Ok t => Q h' t | Raise _ => True end.
Lemma tri_bind {A B} (m : M A) (k : A -> M B) h Q R : tri m h Q ->
  (forall h' a, calm h h' -> dflt_inv h' -> Q h' a -> tri (k a) h' R) -> tri (bindM m k) h R.
Proof.
  unfold tri, bindM. intros H K I. specialize (H I). destruct (m h) as [h1 [a|e]] eqn:E.
  - destruct H as (I1 & K1 & Q1). specialize (K h1 a K1 I1 Q1 I1). destruct (k a h1) as [h2 r2]. destruct K as (I2 & K2 & Q2).
    split; [exact I2|]. split; [now apply (calm_trans h h1)|exact Q2].
  - exact H.
Qed.
Lemma tri_ret {T} (t : T) h (Q : heap -> T -> Prop) : Q h t -> tri (ret t) h Q.
Proof. intros H I. unfold ret. split; [exact I|]. split; [apply calm_refl|exact H]. Qed.
Lemma tri_raise {T} e h (Q : heap -> T -> Prop) : tri (raise e) h Q.
Proof. intros I. unfold raise. split; [exact I|]. split; [apply calm_refl|exact Logic.I]. Qed.
Lemma tri_lift {T} (r : res T) h (Q : heap -> T -> Prop) : (forall t, r = Ok t -> Q h t) -> tri (lift r) h Q.
Proof. intros H I. unfold lift. split; [exact I|]. split; [apply calm_refl|]. destruct r; [now apply H|exact Logic.I]. Qed.
Lemma tri_weaken {T} (m : M T) h (Q R : heap -> T -> Prop) : tri m h Q -> (forall h' t, calm h h' -> dflt_inv h' -> Q h' t -> R h' t) -> tri m h R.
Proof.
  intros H K I. specialize (H I). destruct (m h) as [h' [t|e]]; [|exact H]. destruct H as (I' & K' & Q'). auto.
Qed.
Lemma tri_load r h : tri (load r) h (fun h' o => h' = h /\ nth_error h r = Some o).
Proof.
  intros I. unfold load. destruct (nth_error h r) eqn:E; (split; [exact I|split; [apply calm_refl|auto]]).
Qed.
Lemma tri_load_names r h : tri (load_names r) h (fun h' l => h' = h /\ nth_error h r = Some (ONames l)).
Proof.
  eapply tri_bind; [apply tri_load|]. intros h' o _ _ (-> & E). destruct o; try apply tri_raise. apply tri_ret. auto.
Qed.
Lemma tri_load_dict r h : tri (load_dict r) h (fun h' l => h' = h /\ nth_error h r = Some (ODict l)).
Proof.
  eapply tri_bind; [apply tri_load|]. intros h' o _ _ (-> & E). destruct o; try apply tri_raise. apply tri_ret. auto.
Qed.
Lemma tri_load_dat r h : tri (load_dat r) h (fun h' t => h' = h /\ nth_error h r = Some (ODat (fst (fst t)) (snd (fst t)) (snd t))).
Proof.
  eapply tri_bind; [apply tri_load|]. intros h' o _ _ (-> & E). destruct o; try apply tri_raise. apply tri_ret. auto.
Qed.
Lemma tri_load_net r h : tri (load_net r) h (fun h' t => h' = h /\ nth_error h r = Some (ONet (fst (fst t)) (snd (fst t)) (snd t))).
Proof.
  eapply tri_bind; [apply tri_load|]. intros h' o _ _ (-> & E). destruct o; try apply tri_raise. apply tri_ret. auto.
Qed.
Lemma tri_net_V b h : tri (net_V b) h (fun h' r => h' = h /\ exists E F, nth_error h b = Some (ONet r E F)).
Proof. eapply tri_bind; [apply tri_load_net|]. intros h' [[V E] F] _ _ (-> & H). apply tri_ret. cbn [fst snd] in *. eauto. Qed.
Lemma tri_net_E b h : tri (net_E b) h (fun h' r => h' = h /\ exists V F, nth_error h b = Some (ONet V r F)).
Proof. eapply tri_bind; [apply tri_load_net|]. intros h' [[V E] F] _ _ (-> & H). apply tri_ret. cbn [fst snd] in *. eauto. Qed.
Lemma tri_net_F b h : tri (net_F b) h (fun h' r => h' = h /\ exists V E, nth_error h b = Some (ONet V E r)).
Proof. eapply tri_bind; [apply tri_load_net|]. intros h' [[V E] F] _ _ (-> & H). apply tri_ret. cbn [fst snd] in *. eauto. Qed.
Lemma getitem_val {A} (d : dict A) k x : getitem d k = Ok x -> In x (map snd d).
Proof.
  unfold getitem. destruct (dget d k) eqn:E; [|discriminate]. intros H. injection H as <-.
  induction d as [|[k' y] d IH]; [discriminate|]. cbn [dget] in E. cbn [map snd]. destruct (name_eqb k k').
  - injection E as <-. now left.
  - right. auto.
Qed.
Lemma tri_E_at b u h : tri (E_at b u) h (fun h' r => h' = h /\ 3 <= r).
Proof.
  eapply tri_bind; [apply tri_net_E|]. intros h' e _ _ (-> & V & F & H). eapply tri_bind; [apply tri_load_dict|].
  intros h' d _ I (-> & D). apply tri_lift. intros t Ht. split; [reflexivity|]. apply (di_dict h I e d); [exact D|]. now apply (getitem_val _ u).
Qed.
Lemma tri_F_at b v h : tri (F_at b v) h (fun h' r => h' = h /\ 3 <= r).
Proof.
  eapply tri_bind; [apply tri_net_F|]. intros h' e _ _ (-> & V & F & H). eapply tri_bind; [apply tri_load_dict|].
  intros h' d _ I (-> & D). apply tri_lift. intros t Ht. split; [reflexivity|]. apply (di_dict h I e d); [exact D|]. now apply (getitem_val _ v).
Qed.


Lemma nth_alloc (h : heap) o r x : nth_error (h ++ [o]) r = Some x -> nth_error h r = Some x \/ (r = length h /\ x = o).
Proof.
  destruct (Nat.lt_ge_cases r (length h)) as [L|L].
  - rewrite nth_error_app1 by exact L. auto.
  - rewrite nth_error_app2 by exact L. destruct (r - length h) as [|k] eqn:D; cbn; [|destruct k; discriminate]. intros H. injection H as <-. right. split; [lia|reflexivity].
Qed.
Lemma len3 h : dflt_inv h -> 3 <= length h.
Proof. intros I. assert (dflt_values < length h) by (apply nth_error_Some; rewrite (di_val h I); discriminate). unfold dflt_values in *. lia. Qed.
Lemma nth_old (h : heap) o r : r < length h -> nth_error (h ++ [o]) r = nth_error h r.
Proof. intros. now apply nth_error_app1. Qed.
(** what may be allocated *)
Definition leaf_ok (o : obj) : Prop :=
  match o with
  | ODict d => forall x, In x (map snd d) -> 3 <= x
  | ODat _ p _ => p = dflt_parents \/ 3 <= p
  | ONet _ _ _ => False
  | _ => True
  end.
Lemma tri_alloc o h : leaf_ok o -> tri (alloc o) h (fun h' r => 3 <= r /\ r = length h /\ h' = h ++ [o]).
Proof.
  intros OK I. unfold alloc. assert (L3 := len3 h I). assert (LL : length (h ++ [o]) = S (length h)) by (rewrite app_length; cbn; lia).
  split; [|split; [|auto]].
  - constructor.
    + rewrite nth_old by (unfold dflt_cpt; lia). apply I.
    + rewrite nth_old by (unfold dflt_parents; lia). apply I.
    + rewrite nth_old by (unfold dflt_values; lia). apply I.
    + intros b V E F H. rewrite LL. apply nth_alloc in H as [H|[_ H]]; [|subst; contradiction]. assert (X := di_net h I b V E F H). lia.
    + intros r c p v H. apply nth_alloc in H as [H|[_ H]]; [now apply (di_dat h I r c p v)|subst o; exact OK].
    + intros r d x H Hx. apply nth_alloc in H as [H|[_ H]]; [now apply (di_dict h I r d x)|subst o; now apply OK].
    + intros b V E F b' V' E' F' H H'. apply nth_alloc in H as [H|[_ H]]; [|subst; contradiction]. apply nth_alloc in H' as [H'|[_ H']]; [|subst; contradiction].
      now apply (di_EF h I b V E F b' V' E' F').
  - split; [split; [lia|]; split; intros; now apply nth_app|]. split; [|intros; now apply nth_app].
    intros b V E F H. apply nth_alloc in H as [H|[_ H]]; [exact H|subst; contradiction].
Qed.
(** a store that keeps the kind of the object *)
Definition stores (h : heap) (r : ref) (o : obj) : Prop :=
  match nth_error h r, o with
  | Some (ONames _), ONames _ => r = dflt_parents \/ 3 <= r
  | Some (ODict _), ODict d => leaf_ok o /\ exists b V E, nth_error h b = Some (ONet V E r)
  | Some (ODat _ _ _), ODat _ _ _ => leaf_ok o
  | _, _ => False
  end.
Lemma upd_other (h : heap) r o x : x <> r -> nth_error (upd_nth r o h) x = nth_error h x.
Proof. intros N. rewrite nth_error_upd_nth. destruct (Nat.eqb_spec r x); [congruence|reflexivity]. Qed.
Lemma upd_same (h : heap) r o x : r < length h -> nth_error (upd_nth r o h) r = Some x -> x = o.
Proof. intros L. rewrite nth_error_upd_nth, Nat.eqb_refl. destruct (Nat.ltb_spec r (length h)); cbn [andb]; [congruence|lia]. Qed.
Lemma upd_get (h : heap) r o : r < length h -> nth_error (upd_nth r o h) r = Some o.
Proof. intros L. rewrite nth_error_upd_nth, Nat.eqb_refl. destruct (Nat.ltb_spec r (length h)); cbn [andb]; [congruence|lia]. Qed.
Lemma upd_inv (h : heap) r o x y : r < length h -> nth_error (upd_nth r o h) x = Some y -> nth_error h x = Some y /\ x <> r \/ x = r /\ y = o.
Proof.
  intros L H. destruct (Nat.eq_dec x r) as [->|N]; [right; split; [reflexivity|now apply (upd_same h r)]|left; split; [now rewrite upd_other in H|exact N]].
Qed.
Lemma tri_store r o h : stores h r o -> tri (store r o) h (fun _ _ => True).
Proof.
  intros S I. unfold store. assert (L3 := len3 h I). assert (LL := upd_nth_length r o h).
  assert (Lr : r < length h) by (unfold stores in S; apply nth_error_Some; destruct (nth_error h r); [discriminate|contradiction]).
  destruct (Nat.ltb_spec r (length h)) as [_|]; [|lia].
  assert (NN : forall V E F, o <> ONet V E F) by (intros V E F ->; unfold stores in S; destruct (nth_error h r) as [[]|]; contradiction).
  assert (NR : forall V E F, nth_error h r <> Some (ONet V E F)) by (intros V E F Q; unfold stores in S; rewrite Q in S; contradiction).
  assert (LO : leaf_ok o) by (unfold stores in S; destruct (nth_error h r) as [[]|], o; try contradiction; try exact Logic.I; try exact S; apply S).
  assert (N0 : r <> dflt_cpt) by (intros ->; unfold stores in S; rewrite (di_cpt h I) in S; destruct o; contradiction).
  assert (N2 : r <> dflt_values).
  { intros ->; unfold stores in S; rewrite (di_val h I) in S. destruct o; try contradiction. unfold dflt_values, dflt_parents in S. lia. }
  split; [|split; [|exact Logic.I]].
  - constructor.
    + rewrite upd_other by auto. apply I.
    + destruct (Nat.eq_dec r dflt_parents) as [->|N]; [|rewrite upd_other by auto; apply I]. destruct (di_par h I) as (l & Hl). unfold stores in S. rewrite Hl in S. destruct o as [l'| | | |]; try contradiction.
      exists l'. now apply upd_get.
    + rewrite upd_other by auto. apply I.
    + intros b V E F H. rewrite LL. apply upd_inv in H as [[H _]|[_ H]]; [now apply (di_net h I b)|now apply eq_sym, NN in H|exact Lr].
    + intros x c p v H. apply upd_inv in H as [[H _]|[_ H]]; [now apply (di_dat h I x c p v)|subst o; exact LO|exact Lr].
    + intros x d y H Hy. apply upd_inv in H as [[H _]|[_ H]]; [now apply (di_dict h I x d y)|subst o; now apply LO|exact Lr].
    + intros b V E F b' V' E' F' H H'. apply upd_inv in H as [[H _]|[_ H]]; [|now apply eq_sym, NN in H|exact Lr]. apply upd_inv in H' as [[H' _]|[_ H']]; [|now apply eq_sym, NN in H'|exact Lr].
      now apply (di_EF h I b V E F b' V' E' F').
  - split; [split; [lia|]; split|split].
    + intros b V E F H. rewrite upd_other; [exact H|]. intros ->. now apply NR in H.
    + intros b V E F d H Hd. rewrite upd_other; [exact Hd|]. intros ->. unfold stores in S. rewrite Hd in S. destruct o; try contradiction. destruct S as (_ & b' & V' & E' & H').
      now apply (di_EF h I b V r F b' V' E' r).
    + intros b V E F H. apply upd_inv in H as [[H _]|[_ H]]; [exact H|now apply eq_sym, NN in H|exact Lr].
    + intros x d Hd NF. rewrite upd_other; [exact Hd|]. intros ->. unfold stores in S. rewrite Hd in S. destruct o; try contradiction. now apply NF.
Qed.
Lemma tri_append r x h : r = dflt_parents \/ 3 <= r -> tri (append_to r x) h (fun _ _ => True).
Proof. intros H. eapply tri_bind; [apply tri_load_names|]. intros h' l _ _ (-> & E). apply tri_store. unfold stores. rewrite E. exact H. Qed.
Lemma tri_remove r x h : r = dflt_parents \/ 3 <= r -> tri (remove_from r x) h (fun _ _ => True).
Proof.
  intros H. eapply tri_bind; [apply tri_load_names|]. intros h' l _ _ (-> & E). eapply tri_bind; [apply (tri_lift _ h (fun h' _ => h' = h)); reflexivity|].
  intros h' l' _ _ ->. apply tri_store. unfold stores. rewrite E. exact H.
Qed.
Lemma dset_vals {A} (d : dict A) k v x : In x (map snd (dset d k v)) -> x = v \/ In x (map snd d).
Proof.
  induction d as [|[k' y] d IH]; cbn; [intros [<-|[]]; now left|]. destruct (name_eqb k k'); cbn; intros [<-|H]; auto. destruct (IH H); auto.
Qed.

(** ** The edits *)
Lemma tri_has_node b u h : tri (h_has_node b u) h (fun h' _ => h' = h).
Proof.
  eapply tri_bind; [apply tri_net_V|]. intros h' r _ _ (-> & _). eapply tri_bind; [apply tri_load_names|]. intros h' l _ _ (-> & _). now apply tri_ret.
Qed.
Lemma tri_has_edge b u v h : tri (h_has_edge b u v) h (fun h' _ => h' = h).
Proof.
  eapply tri_bind; [apply tri_E_at|]. intros h' r _ _ (-> & _). eapply tri_bind; [apply tri_load_names|]. intros h' l _ _ (-> & _). now apply tri_ret.
Qed.
Lemma tri_add_node b rv c p v h : p = dflt_parents \/ 3 <= p -> tri (h_add_node b rv c p v) h (fun _ _ => True).
Proof.
  intros Hp. eapply tri_bind; [apply tri_net_V|]. intros h' r _ I (-> & E & F & H). eapply tri_bind; [apply tri_append; right; now apply (di_net h I b r E F)|].
  intros h1 _ _ _ _. eapply tri_bind; [apply tri_alloc; exact Hp|]. intros h2 d _ _ (Hd & _). eapply tri_bind; [apply tri_net_F|]. intros h3 f _ I3 (-> & V' & E' & Hn).
  eapply tri_bind; [apply tri_load_dict|]. intros h4 dd _ I4 (-> & Hdd). apply tri_store. unfold stores. rewrite Hdd. split; [|now exists b, V', E'].
  cbn. intros x Hx. apply dset_vals in Hx as [->|Hx]; [exact Hd|]. now apply (di_dict h2 I4 f dd).
Qed.
Lemma tri_parents d h : tri (load_dat d) h (fun h' t => h' = h /\ nth_error h d = Some (ODat (fst (fst t)) (snd (fst t)) (snd t)) /\ (snd (fst t) = dflt_parents \/ 3 <= snd (fst t))).
Proof.
  eapply tri_weaken; [apply tri_load_dat|]. intros h' t _ I (-> & H). split; [reflexivity|]. split; [exact H|]. now apply (di_dat h I d _ _ _ H).
Qed.
Lemma tri_add_edge b u v h : tri (h_add_edge b u v) h (fun _ _ => True).
Proof.
  eapply tri_bind; [apply tri_has_node|]. intros h' hu _ _ ->.
  eapply tri_bind; [instantiate (1 := fun _ _ => True); destruct hu; [now apply tri_ret|apply tri_add_node; now left]|]. intros h1 _ _ _ _.
  eapply tri_bind; [apply tri_has_node|]. intros h' hv _ _ ->.
  eapply tri_bind; [instantiate (1 := fun _ _ => True); destruct hv; [now apply tri_ret|apply tri_add_node; now left]|]. intros h2 _ _ _ _.
  eapply tri_bind; [apply tri_has_edge|]. intros h' he _ _ ->. destruct he; [now apply tri_ret|].
  eapply tri_bind; [apply tri_E_at|]. intros h' r _ _ (-> & Hr). eapply tri_bind; [apply tri_append; now right|]. intros h3 _ _ _ _.
  eapply tri_bind; [apply tri_F_at|]. intros h' d _ _ (-> & Hd). eapply tri_bind; [apply tri_parents|]. intros h' t _ _ (-> & _ & Ht). now apply tri_append.
Qed.
Lemma tri_remove_edge b u v h : tri (h_remove_edge b u v) h (fun _ _ => True).
Proof.
  eapply tri_bind; [apply tri_E_at|]. intros h' r _ _ (-> & Hr). eapply tri_bind; [apply tri_remove; now right|]. intros h3 _ _ _ _.
  eapply tri_bind; [apply tri_F_at|]. intros h' d _ _ (-> & Hd). eapply tri_bind; [apply tri_parents|]. intros h' t _ _ (-> & _ & Ht). now apply tri_remove.
Qed.
Lemma tri_reverse b u v h : tri (h_reverse_arc b u v) h (fun _ _ => True).
Proof.
  eapply tri_bind; [apply tri_has_edge|]. intros h' he _ _ ->. destruct he; [|now apply tri_ret].
  eapply tri_bind; [apply tri_E_at|]. intros h' r _ _ (-> & Hr). eapply tri_bind; [apply tri_remove; now right|]. intros h3 _ _ _ _.
  eapply tri_bind; [apply tri_E_at|]. intros h' d _ _ (-> & Hd). apply tri_append. now right.
Qed.
Lemma tri_set_cpt b rv c h : tri (h_set_cpt b rv c) h (fun _ _ => True).
Proof.
  eapply tri_bind; [apply tri_F_at|]. intros h' d _ _ (-> & Hd). eapply tri_bind; [apply tri_parents|]. intros h' t _ _ (-> & E & Ht). apply tri_store. unfold stores. rewrite E. exact Ht.
Qed.
Lemma tri_set_values b rv c h : tri (h_set_values b rv c) h (fun _ _ => True).
Proof.
  eapply tri_bind; [apply tri_F_at|]. intros h' d _ _ (-> & Hd). eapply tri_bind; [apply tri_parents|]. intros h' t _ _ (-> & E & Ht). apply tri_store. unfold stores. rewrite E. exact Ht.
Qed.
Lemma tri_set_parents b rv p h : 3 <= p -> tri (h_set_parents b rv p) h (fun _ _ => True).
Proof.
  intros Hp. eapply tri_bind; [apply tri_F_at|]. intros h' d _ _ (-> & Hd). eapply tri_bind; [apply tri_parents|]. intros h' t _ _ (-> & E & Ht). apply tri_store. unfold stores. rewrite E. now right.
Qed.
Lemma tri_edit e h : tri (do_edit e) h (fun _ _ => True).
Proof.
  destruct e as [b rv c p v|b u v|b u v|b u v|b rv l|b rv l|b rv l]; cbn [do_edit].
  - eapply tri_bind; [instantiate (1 := fun _ _ => True); destruct c; [eapply tri_weaken; [apply tri_alloc; exact Logic.I|auto]|now apply tri_ret]|]. intros h1 rc _ _ _.
    eapply tri_bind; [instantiate (1 := fun _ r => r = dflt_parents \/ 3 <= r); destruct p; [eapply tri_weaken; [apply tri_alloc; exact Logic.I|cbn; tauto]|apply tri_ret; now left]|]. intros h2 rp _ _ Hp.
    eapply tri_bind; [instantiate (1 := fun _ _ => True); destruct v; [eapply tri_weaken; [apply tri_alloc; exact Logic.I|auto]|now apply tri_ret]|]. intros h3 rc' _ _ _.
    now apply tri_add_node.
  - apply tri_add_edge.
  - apply tri_remove_edge.
  - apply tri_reverse.
  - eapply tri_bind; [apply tri_alloc; exact Logic.I|]. intros h' r _ _ _. apply tri_set_cpt.
  - eapply tri_bind; [apply tri_alloc; exact Logic.I|]. intros h' r _ _ (Hr & _). now apply tri_set_parents.
  - eapply tri_bind; [apply tri_alloc; exact Logic.I|]. intros h' r _ _ _. apply tri_set_values.
Qed.

(** ** Making networks *)
Lemma tri_leaf r h : tri (deep_leaf r) h (fun h' x => length h <= x < length h' /\ 3 <= x).
Proof.
  eapply tri_bind; [apply tri_load|]. intros h' o _ _ (-> & _).
  destruct o; try apply tri_raise; (eapply tri_weaken; [apply tri_alloc; exact Logic.I|]; intros h' x _ _ (H3 & -> & ->); rewrite app_length; cbn; lia).
Qed.
Lemma tri_items d : forall memo h, (forall x, In x (map snd memo) -> 3 <= x) -> tri (deep_items d memo) h (fun _ d' => forall x, In x (map snd d') -> 3 <= x).
Proof.
  induction d as [|[k r] d IH]; intros memo h HM; cbn [deep_items].
  - apply tri_ret. intros x [].
  - destruct (memo_get memo r) as [r'|] eqn:G.
    + eapply tri_bind; [apply IH; exact HM|]. intros h' d' _ _ Hd. apply tri_ret. cbn. intros x [<-|Hx]; [|auto]. apply HM. clear -G. induction memo as [|[a b] m IHm]; [discriminate|]. cbn in *. destruct (a =? r); [injection G as <-; now left|right; auto].
    + eapply tri_bind; [apply tri_leaf|]. intros h1 r' _ _ (_ & H3). eapply tri_bind; [apply (IH ((r, r') :: memo) h1); cbn; intros x [<-|Hx]; auto|].
      intros h' d' _ _ Hd. apply tri_ret. cbn. intros x [<-|Hx]; auto.
Qed.
Lemma tri_copy_F b vs : forall F h, (forall x, In x (map snd F) -> 3 <= x) -> tri (copy_F b vs F) h (fun _ d' => forall x, In x (map snd d') -> 3 <= x).
Proof.
  induction vs as [|v vs IH]; intros F h HF; cbn [copy_F]; [now apply tri_ret|].
  eapply tri_bind; [apply tri_F_at|]. intros h' d _ _ (-> & _). eapply tri_bind; [apply tri_load_dat|]. intros h' t _ _ (-> & _).
  eapply tri_bind; [apply tri_leaf|]. intros h1 c _ _ _. eapply tri_bind; [apply tri_leaf|]. intros h2 p _ _ (_ & Hp). eapply tri_bind; [apply tri_leaf|]. intros h3 w _ _ _.
  eapply tri_bind; [apply tri_alloc; now right|]. intros h4 nd _ _ (Hn & _). apply IH. intros x Hx. apply dset_vals in Hx as [->|Hx]; auto.
Qed.
Lemma tri_load_edges d : forall h, tri (load_edges d) h (fun h' _ => h' = h).
Proof.
  induction d as [|[k r] d IH]; intros h; cbn [load_edges]; [now apply tri_ret|].
  eapply tri_bind; [apply tri_load_names|]. intros h' l _ _ (-> & _). eapply tri_bind; [apply IH|]. intros h' t _ _ ->. now apply tri_ret.
Qed.
Lemma tri_build_F E V vd vs : forall F h, (forall x, In x (map snd F) -> 3 <= x) -> tri (build_F E V vd vs F) h (fun _ d' => forall x, In x (map snd d') -> 3 <= x).
Proof.
  induction vs as [|v vs IH]; intros F h HF; cbn [build_F]; [now apply tri_ret|].
  eapply tri_bind; [apply (tri_lift _ h (fun h' _ => h' = h)); reflexivity|]. intros h' fl _ _ ->.
  eapply tri_bind; [apply tri_alloc; exact Logic.I|]. intros h1 p _ _ (Hp & _). eapply tri_bind; [apply tri_alloc; exact Logic.I|]. intros h2 c _ _ _.
  eapply tri_bind; [instantiate (1 := fun _ _ => True); destruct vd as [r|]|].
  - eapply tri_bind; [apply tri_load_dict|]. intros h' d _ _ (-> & _). now apply tri_lift.
  - eapply tri_weaken; [apply tri_alloc; exact Logic.I|auto].
  - intros h3 w _ _ _. eapply tri_bind; [apply tri_alloc; now right|]. intros h4 nd _ _ (Hn & _). apply IH. intros x Hx. apply dset_vals in Hx as [->|Hx]; auto.
Qed.

(** the same triples without "no network is new" *)
Definition tri1 {T} (m : M T) (h : heap) (Q : heap -> T -> Prop) : Prop :=
  dflt_inv h -> let (h', r) := m h in dflt_inv h' /\ keeps h h' /\ match r with Ok t => Q h' t | Raise _ => calm h h' end.
Lemma tri1_of {T} (m : M T) h Q : tri m h Q -> tri1 m h Q.
Proof. intros H I. specialize (H I). destruct (m h) as [h' r]. destruct H as (A & K & C). split; [exact A|]. split; [apply K|]. destruct r; auto. Qed.
Lemma tri1_bind {A B} (m : M A) (k : A -> M B) h Q R : tri m h Q ->
  (forall h' a, calm h h' -> dflt_inv h' -> Q h' a -> tri1 (k a) h' R) -> tri1 (bindM m k) h R.
Proof.
  unfold tri, tri1, bindM. intros H K I. specialize (H I). destruct (m h) as [h1 [a|e]] eqn:E.
  - destruct H as (I1 & K1 & Q1). specialize (K h1 a K1 I1 Q1 I1). destruct (k a h1) as [h2 r2]. destruct K as (I2 & K2 & Q2).
    split; [exact I2|]. split; [apply (keeps_trans h h1); [apply K1|exact K2]|]. destruct r2; [exact Q2|]. now apply (calm_trans h h1).
  - destruct H as (A' & K' & C). split; [exact A'|]. split; [apply K'|exact K'].
Qed.
(** the object BayesNet: V and E known, F the newest object *)
Lemma tri1_alloc_net V E F h : 3 <= V < length h -> 3 <= E < length h -> ~ is_F h E -> E <> F -> 3 <= F < length h -> (forall b V' E' F', nth_error h b = Some (ONet V' E' F') -> E' <> F) ->
  tri1 (alloc (ONet V E F)) h (fun h' r => r = length h /\ h' = h ++ [ONet V E F]).
Proof.
  intros HV HE NE NEF HF NF I. unfold alloc. assert (L3 := len3 h I). assert (LL : length (h ++ [ONet V E F]) = S (length h)) by (rewrite app_length; cbn; lia).
  split; [|split; [|auto]].
  - constructor.
    + rewrite nth_old by (unfold dflt_cpt; lia). apply I.
    + rewrite nth_old by (unfold dflt_parents; lia). apply I.
    + rewrite nth_old by (unfold dflt_values; lia). apply I.
    + intros b V' E' F' H. rewrite LL. apply nth_alloc in H as [H|[_ H]]; [assert (X := di_net h I b V' E' F' H); lia|]. injection H as -> -> ->. lia.
    + intros r c p v H. apply nth_alloc in H as [H|[_ H]]; [now apply (di_dat h I r c p v)|discriminate].
    + intros r d x H Hx. apply nth_alloc in H as [H|[_ H]]; [now apply (di_dict h I r d x)|discriminate].
    + intros b V1 E1 F1 b' V2 E2 F2 H H'. apply nth_alloc in H as [H|[_ H]]; apply nth_alloc in H' as [H'|[_ H']].
      * now apply (di_EF h I b V1 E1 F1 b' V2 E2 F2).
      * injection H' as -> -> ->. now apply (NF b V1 E1 F1).
      * injection H as -> -> ->. intros ->. apply NE. now exists b', V2, E2.
      * injection H as -> -> ->. injection H' as -> -> ->. exact NEF.
  - split; [lia|]. split; intros; now apply nth_app.
Qed.
(** no network of [h] has an attribute beyond [length h] *)
Lemma fresh_attr h h' r : dflt_inv h -> calm h h' -> length h <= r -> ~ is_F h' r /\ forall b V E F, nth_error h' b = Some (ONet V E F) -> E <> r.
Proof.
  intros I (_ & N & _) L. split.
  - intros (b & V & E & H). apply N in H. assert (X := di_net h I b V E r H). lia.
  - intros b V E F H ->. apply N in H. assert (X := di_net h I b V r F H). lia.
Qed.
Lemma tri1_new h : tri1 new_net h (fun h' b => (exists V E F, nth_error h' b = Some (ONet V E F) /\ nth_error h' E = Some (ODict [])) /\ forall x V E F, nth_error h' x = Some (ONet V E F) -> nth_error h x = Some (ONet V E F) \/ x = b).
Proof.
  unfold new_net.
  eapply tri1_bind; [apply tri_alloc; exact Logic.I|]. intros h1 v K1 I1 (Hv & Ev & Eh1).
  eapply tri1_bind; [apply tri_alloc; intros x []|]. intros h2 e K2 I2 (He & Ee & Eh2).
  eapply tri1_bind; [apply tri_alloc; intros x []|]. intros h3 f K3 I3 (Hf & Ef & Eh3).
  assert (L1 : length h1 = S (length h)) by (rewrite Eh1, app_length; cbn; lia).
  assert (L2 : length h2 = S (length h1)) by (rewrite Eh2, app_length; cbn; lia).
  assert (L3 : length h3 = S (length h2)) by (rewrite Eh3, app_length; cbn; lia).
  assert (De : nth_error h3 e = Some (ODict [])) by (rewrite Eh3; apply nth_app; rewrite Eh2, Ee; apply nth_new).
  destruct (fresh_attr h1 h3 e I1 (calm_trans _ _ _ K2 K3)) as [N1 _]; [lia|]. destruct (fresh_attr h2 h3 f I2 K3) as [_ N2]; [lia|].
  intros I. assert (T := tri1_alloc_net v e f h3). specialize (T ltac:(lia) ltac:(lia) N1 ltac:(lia) ltac:(lia) N2 I). destruct (alloc (ONet v e f) h3) as [h4 [r|x]]; [|exact T].
  destruct T as (I4 & K4 & -> & ->). split; [exact I4|]. split; [exact K4|]. split; [exists v, e, f; split; [apply nth_new|now apply nth_app]|].
  intros x V E F Hx. apply nth_alloc in Hx as [Hx|[-> _]]; [left|now right]. apply K1, K2, K3, Hx.
Qed.
Lemma tri1_copy b h : tri1 (h_copy b) h (fun h' c => (forall V E F, nth_error h b = Some (ONet V E F) -> nth_error h E = Some (ODict []) ->
   exists V' E' F', nth_error h' c = Some (ONet V' E' F') /\ nth_error h' E' = Some (ODict [])) /\
   (exists V E F, nth_error h b = Some (ONet V E F)) /\
   forall x V E F, nth_error h' x = Some (ONet V E F) -> nth_error h x = Some (ONet V E F) \/ x = c).
Proof.
  unfold h_copy. eapply tri1_bind; [apply tri_net_V|]. intros h' rv _ _ (-> & Ex). eapply tri1_bind; [apply tri_leaf|]. intros h1 V K1 I1 (HV & HV3).
  eapply tri1_bind; [apply tri_net_E|]. intros h' re _ _ (-> & Vb & Fb & Hre).
  assert (TD : tri (deep_dict re) h1 (fun h' x => 3 <= x /\ length h1 <= x < length h' /\ (nth_error h1 re = Some (ODict []) -> nth_error h' x = Some (ODict [])))).
  { unfold deep_dict. eapply tri_bind; [apply tri_load_dict|]. intros h' d _ _ (-> & Hd).
    assert (TI : tri (deep_items d []) h1 (fun _ d' => (forall x, In x (map snd d') -> 3 <= x) /\ (d = [] -> d' = []))).
    { destruct d as [|kr d]; [apply tri_ret; split; [intros x []|auto]|]. eapply tri_weaken; [apply tri_items; intros x []|]. intros h' d' _ _ X. split; [exact X|discriminate]. }
    eapply tri_bind; [exact TI|]. intros h2 d' K2 _ (X & Y). eapply tri_weaken; [apply tri_alloc; exact X|]. intros h3 r _ _ (H3 & -> & ->). split; [exact H3|].
    assert (L := calm_len _ _ K2). rewrite app_length. cbn. split; [lia|]. intros Z. rewrite Hd in Z. injection Z as ->. rewrite (Y eq_refl). apply nth_new. }
  eapply tri1_bind; [exact TD|]. intros h2 E K2 I2 (HE3 & HE & HD).
  eapply tri1_bind; [apply tri_load_names|]. intros h' vs _ _ (-> & _). eapply tri1_bind; [apply tri_copy_F; intros x []|]. intros h3 F K3 I3 HF.
  eapply tri1_bind; [apply tri_alloc; exact HF|]. intros h4 f K4 I4 (Hf & Ef & Eh4).
  assert (L4 : length h4 = S (length h3)) by (rewrite Eh4, app_length; cbn; lia). assert (L2 := calm_len _ _ K2). assert (L3 := calm_len _ _ K3).
  destruct (fresh_attr h1 h4 E I1) as [N1 _]; [now apply (calm_trans h1 h2), (calm_trans h2 h3)|lia|].
  destruct (fresh_attr h3 h4 f I3 K4) as [_ N2]; [lia|].
  intros I. assert (T := tri1_alloc_net V E f h4 ltac:(lia) ltac:(lia) N1 ltac:(lia) ltac:(lia) N2 I). destruct (alloc (ONet V E f) h4) as [h5 [r|x]]; [|exact T].
  destruct T as (I5 & K5 & -> & ->). split; [exact I5|]. split; [exact K5|]. split; [|split; [destruct Ex as (E0 & F0 & X); eauto|]].
  2:{ intros x V0 E0 F0 Hx. apply nth_alloc in Hx as [Hx|[-> _]]; [left|now right]. apply K1, K2, K3, K4, Hx. }
  intros V0 E0 F0 H0 D0. exists V, E, f. split; [apply nth_new|]. apply nth_app.
  assert (X : nth_error h1 b = Some (ONet V0 E0 F0)) by now apply K1. rewrite X in Hre. injection Hre as -> -> ->.
  assert (D1 : nth_error h1 re = Some (ODict [])) by (apply (proj2 (proj2 (proj1 K1)) b Vb re Fb); assumption). specialize (HD D1).
  apply (proj2 (proj2 K4)); [apply (proj2 (proj2 K3)); [exact HD|]|].
  - apply (fresh_attr h1 h2 E I1 K2). lia.
  - apply (fresh_attr h1 h3 E I1); [now apply (calm_trans h1 h2)|lia].
Qed.
Lemma tri1_set_structure e vd h : ~ is_F h e -> 3 <= e -> tri1 (h_set_structure e vd) h (fun _ _ => True).
Proof.
  intros NF H3. unfold h_set_structure. eapply tri1_bind; [apply tri_load_dict|]. intros h' d _ I (-> & Hd). eapply tri1_bind; [apply tri_load_edges|]. intros h' E _ _ ->.
  eapply tri1_bind; [apply (tri_lift _ h (fun h' _ => h' = h)); reflexivity|]. intros h' V _ _ ->. eapply tri1_bind; [apply tri_alloc; exact Logic.I|]. intros h1 v K1 I1 (Hv & Ev & Eh1).
  eapply tri1_bind; [apply tri_build_F; intros x []|]. intros h2 F K2 I2 HF. eapply tri1_bind; [apply tri_alloc; exact HF|]. intros h3 f K3 I3 (Hf & Ef & Eh3).
  assert (L1 : length h1 = S (length h)) by (rewrite Eh1, app_length; cbn; lia). assert (L3 : length h3 = S (length h2)) by (rewrite Eh3, app_length; cbn; lia). assert (L2 := calm_len _ _ K2).
  assert (Le : e < length h) by (apply nth_error_Some; rewrite Hd; discriminate).
  destruct (fresh_attr h2 h3 f I2 K3) as [_ N2]; [lia|].
  assert (KK : calm h h3) by (apply (calm_trans h h1 h3 K1), (calm_trans h1 h2 h3 K2 K3)).
  intros I'. assert (T := tri1_alloc_net v e f h3 ltac:(lia) ltac:(lia)).
  assert (NF3 : ~ is_F h3 e) by (intros (b & V' & E' & X); apply NF; exists b, V', E'; now apply KK).
  specialize (T NF3 ltac:(lia) ltac:(lia) N2 I'). destruct (alloc (ONet v e f) h3) as [h4 [r|x]]; [|exact T].
  destruct T as (I4 & K4 & _). auto.
Qed.
Lemma default_not_dict h e d : dflt_inv h -> nth_error h e = Some (ODict d) -> 3 <= e.
Proof.
  intros I H. destruct e as [|[|[|e]]]; [| | |lia]; exfalso.
  - assert (X := di_cpt h I). unfold dflt_cpt in X. congruence.
  - destruct (di_par h I) as (l & X). unfold dflt_parents in X. congruence.
  - assert (X := di_val h I). unfold dflt_values in X. congruence.
Qed.
(** one program step *)
Lemma step_keeps h s : dflt_inv h -> fair_step h s -> dflt_inv (run_step h s) /\ keeps h (run_step h s).
Proof.
  intros I Fs. assert (G : tri1 (do_step s) h (fun _ _ => True)).
  { destruct s as [l|d| |e vd|b|e]; cbn [do_step].
    - apply tri1_of. eapply tri_bind; [apply tri_alloc; exact Logic.I|]. intros. now apply tri_ret.
    - apply tri1_of. eapply tri_bind; [apply tri_alloc|intros; now apply tri_ret]. intros x Hx. now apply Fs.
    - intros I'. assert (T := tri1_new h I'). unfold bindM. destruct (new_net h) as [h' [r|x]]; destruct T as (A & B & T); cbn; auto.
    - assert (T : tri1 (h_set_structure e vd) h (fun _ _ => True)).
      { destruct (nth_error h e) as [o|] eqn:He.
        - destruct o as [l|l|d|c p v|V E F].
          3:{ apply tri1_set_structure; [|now apply (default_not_dict h e d)]. intros (b & V & E & X). exact (Fs b V E e X eq_refl). }
          all: intros I'; unfold h_set_structure, bindM, load_dict, bindM, load; rewrite He; cbn; auto using keeps_refl, calm_refl.
        - intros I'; unfold h_set_structure, bindM, load_dict, bindM, load; rewrite He; cbn; auto using keeps_refl, calm_refl. }
      intros I'. specialize (T I'). unfold bindM. destruct (h_set_structure e vd h) as [h' [r|x]]; destruct T as (A & B & T); cbn; auto.
    - intros I'. assert (T := tri1_copy b h I'). unfold bindM. destruct (h_copy b h) as [h' [r|x]]; destruct T as (A & B & T); cbn; auto.
    - apply tri1_of. eapply tri_bind; [apply tri_edit|]. intros. now apply tri_ret. }
  specialize (G I). unfold run_step. destruct (do_step s h) as [h' r]. cbn [fst]. tauto.
Qed.
Lemma steps_keep ss : forall h, dflt_inv h -> fair h ss -> dflt_inv (run_steps h ss) /\ keeps h (run_steps h ss).
Proof.
  induction ss as [|s ss IH]; intros h I H; [split; [exact I|apply keeps_refl]|]. destruct H as [H1 H2]. destruct (step_keeps h s I H1) as [I1 K1].
  destruct (IH _ I1 H2) as [I2 K2]. split; [exact I2|]. now apply (keeps_trans h (run_step h s)).
Qed.
