(** JsonFacts.v -- facts about write_json followed by read_json. *)
From Verif Require Import Py Num BayesNet SpecFactor SpecGraph Graph GraphTheory GraphTopsort GraphNet NaiveFacts IO.
From Verif Require SampleFacts.
From Coq Require Import DecimalString DecimalNat DecimalFacts.
Open Scope nat_scope.

(** the keys as strings; an arbitrary iteration order of a dict *)
Definition rekey {A} (d : dict A) : dict A := map (fun kv => (NStr (jkey (fst kv)), snd kv)) d.
Definition reorder {A} (o : oracle) (d : dict A) : dict A :=
  flat_map (fun k => match dget d k with Some j => [(k, j)] | None => [] end) (ask o (dkeys d)).

Lemma dget_mapv {A B} (f : A -> B) (d : dict A) k : dget (map (fun kv => (fst kv, f (snd kv))) d) k = option_map f (dget d k).
Proof. induction d as [|[k' v] d IH]; simpl; [reflexivity|]. destruct (name_eqb k k'); [reflexivity|apply IH]. Qed.
Lemma dkeys_mapv {A B} (f : A -> B) (d : dict A) : dkeys (map (fun kv => (fst kv, f (snd kv))) d) = dkeys d.
Proof. unfold dkeys. rewrite map_map. reflexivity. Qed.
Lemma reorder_mapv {A B} (f : A -> B) o (d : dict A) : reorder o (map (fun kv => (fst kv, f (snd kv))) d) = map (fun kv => (fst kv, f (snd kv))) (reorder o d).
Proof.
  unfold reorder. rewrite dkeys_mapv. generalize (ask o (dkeys d)) as l. induction l as [|k l IH]; simpl; [reflexivity|].
  rewrite dget_mapv, IH, map_app. destruct (dget d k); reflexivity.
Qed.
Lemma dget_NoDup_In {A} (d : dict A) k v : NoDup (dkeys d) -> In (k, v) d -> dget d k = Some v.
Proof.
  intros N. induction d as [|[k' v'] d IH]; simpl; [tauto|]. inversion N as [|? ? Nk Nd]; subst. intros [[= -> ->]|H]; [now rewrite name_eqb_refl|].
  destruct (name_eqb_spec k k') as [->|_]; [|auto]. exfalso. apply Nk. now apply (in_map fst) in H.
Qed.
Lemma dget_In_pair {A} (d : dict A) k v : dget d k = Some v -> In (k, v) d.
Proof. induction d as [|[k' v'] d IH]; simpl; [discriminate|]. destruct (name_eqb_spec k k') as [->|_]; [intros [= ->]; now left|auto]. Qed.
Lemma dget_perm {A} (d d' : dict A) k : NoDup (dkeys d) -> Permutation d' d -> dget d' k = dget d k.
Proof.
  intros N P. assert (N' : NoDup (dkeys d')) by (eapply Permutation_NoDup; [apply Permutation_map; symmetry; exact P|exact N]).
  destruct (dget d k) as [v|] eqn:E.
  - apply dget_NoDup_In; [exact N'|]. eapply Permutation_in; [symmetry; exact P|]. now apply dget_In_pair.
  - apply dget_None. apply dget_None in E. intros H. apply E. eapply Permutation_in; [apply Permutation_map; exact P|exact H].
Qed.
Lemma reorder_perm {A} o (d : dict A) : good o -> NoDup (dkeys d) -> Permutation (reorder o d) d.
Proof.
  intros G N. unfold reorder. etransitivity; [apply Permutation_flat_map; apply good_ask, G|].
  assert (H : forall e, incl e d -> flat_map (fun k => match dget d k with Some j => [(k, j)] | None => [] end) (dkeys e) = e).
  { induction e as [|[k v] e IH]; intros I; [reflexivity|]. cbn [dkeys map flat_map fst]. rewrite (dget_NoDup_In d k v N) by (apply I; now left). simpl. f_equal. apply IH. intros x Hx. apply I. now right. }
  rewrite H by apply incl_refl. reflexivity.
Qed.

Lemma mapM_map {A B C} (g : B -> res C) (f : A -> B) (h : A -> C) l : (forall x, In x l -> g (f x) = Ok (h x)) -> mapM g (map f l) = Ok (map h l).
Proof. induction l as [|x l IH]; intros H; [reflexivity|]. cbn [map mapM]. rewrite H by now left. cbn [bind]. rewrite IH by (intros; apply H; now right). reflexivity. Qed.
Lemma as_names_ok l : as_names (JList (map jname l)) = Ok l.
Proof. unfold as_names. cbn [as_list bind]. rewrite (mapM_map as_name jname (fun x => x)) by (intros [n|s] _; reflexivity). now rewrite map_id. Qed.
Lemma as_fdata_ok d : as_fdata (jfdata d) = Ok d.
Proof.
  unfold as_fdata, jfdata. cbn [as_obj bind].
  set (P := JList (map jname (f_parents d))). set (W := JList (map jname (f_values d))). set (C := JList (map JNum (f_cptl d))).
  change (load_obj id_oracle [("parents"%string, P); ("values"%string, W); ("cpt"%string, C)]) with [(NStr "parents", P); (NStr "values", W); (NStr "cpt", C)].
  change (getitem [(NStr "parents", P); (NStr "values", W); (NStr "cpt", C)] (NStr "parents")) with (Ok P).
  change (getitem [(NStr "parents", P); (NStr "values", W); (NStr "cpt", C)] (NStr "values")) with (Ok W).
  change (getitem [(NStr "parents", P); (NStr "values", W); (NStr "cpt", C)] (NStr "cpt")) with (Ok C).
  cbn [bind]. unfold P, W, C. rewrite !as_names_ok. cbn [bind as_list].
  rewrite (mapM_map as_num JNum (fun x => x)) by reflexivity. rewrite map_id. cbn [bind]. now destruct d.
Qed.
Lemma load_obj_map {A} (f : A -> json) o (d : dict A) : NoDup (dkeys (rekey d)) ->
  load_obj o (map (fun kv => (jkey (fst kv), f (snd kv))) d) = map (fun kv => (fst kv, f (snd kv))) (reorder o (rekey d)).
Proof.
  intros N. unfold load_obj. rewrite map_map. cbn [fst snd].
  assert (E : map (fun kv => (NStr (jkey (fst kv)), f (snd kv))) d = map (fun kv => (fst kv, f (snd kv))) (rekey d)) by (unfold rekey; now rewrite map_map).
  rewrite E. rewrite SampleFacts.dict_of_NoDup by (rewrite <- (dkeys_mapv f) in N; exact N). apply (reorder_mapv f o (rekey d)).
Qed.
(** what is read back from any network whose keys stay distinct *)
Lemma read_write_json o bn : NoDup (dkeys (rekey (bn_E bn))) -> NoDup (dkeys (rekey (bn_F bn))) ->
  read_json o (Some (write_json bn)) =
  (let E := reorder (sub o 0) (rekey (bn_E bn)) in
   do V <- topsort E None ;; Ok (mkBN V E (reorder (sub o 1) (rekey (bn_F bn))))).
Proof.
  intros NE NF. unfold read_json, write_json. cbn [as_obj bind].
  set (v := JList (map jname (bn_V bn))). set (e := jdict (fun c => JList (map jname c)) (bn_E bn)). set (f := jdict jfdata (bn_F bn)).
  change (load_obj id_oracle [("V"%string, v); ("E"%string, e); ("F"%string, f)]) with [(NStr "V", v); (NStr "E", e); (NStr "F", f)].
  change (getitem [(NStr "V", v); (NStr "E", e); (NStr "F", f)] (NStr "V")) with (Ok v).
  change (getitem [(NStr "V", v); (NStr "E", e); (NStr "F", f)] (NStr "E")) with (Ok e).
  change (getitem [(NStr "V", v); (NStr "E", e); (NStr "F", f)] (NStr "F")) with (Ok f).
  cbn [bind].
  assert (HE : as_edict (sub o 0) e = Ok (reorder (sub o 0) (rekey (bn_E bn)))).
  { unfold as_edict, e, jdict. cbn [as_obj bind]. rewrite (load_obj_map (fun c => JList (map jname c))) by exact NE.
    rewrite (mapM_map _ _ (fun x => x)); [now rewrite map_id|]. intros [k c] _. cbn [fst snd]. rewrite as_names_ok. reflexivity. }
  assert (HF : as_fdict (sub o 1) f = Ok (reorder (sub o 1) (rekey (bn_F bn)))).
  { unfold as_fdict, f, jdict. cbn [as_obj bind]. rewrite (load_obj_map jfdata) by exact NF.
    rewrite (mapM_map _ _ (fun x => x)); [now rewrite map_id|]. intros [k c] _. cbn [fst snd]. rewrite as_fdata_ok. reflexivity. }
  rewrite HE. cbn [bind]. rewrite HF. reflexivity.
Qed.

Lemma rekey_str {A} (d : dict A) : (forall k, In k (dkeys d) -> exists s, k = NStr s) -> rekey d = d.
Proof.
  induction d as [|[k v] d IH]; intros H; [reflexivity|]. unfold rekey in *. cbn [map fst snd]. rewrite IH by (intros x Hx; apply H; now right).
  destruct (H k (or_introl eq_refl)) as [s ->]. reflexivity.
Qed.

Lemma str_nat_inj a b : str_nat a = str_nat b -> a = b.
Proof.
  unfold str_nat. intros H. apply (f_equal NilZero.uint_of_string) in H.
  assert (NN : forall n, Nat.to_uint n <> Decimal.Nil).
  { intros n. rewrite <- (Unsigned.of_to n), Unsigned.to_of. apply unorm_nonnil. }
  rewrite !NilZero.usu in H by apply NN. injection H as H. now apply Unsigned.to_uint_inj.
Qed.
Lemma NoDup_rekey_int {A} (d : dict A) : (forall k, In k (dkeys d) -> exists n, k = NInt n) -> NoDup (dkeys d) -> NoDup (dkeys (rekey d)).
Proof.
  intros H N. induction d as [|[k v] d IH]; [constructor|]. cbn [rekey map dkeys fst snd] in *. inversion N as [|? ? Nk Nd]; subst. constructor.
  - intros C. apply Nk. destruct (H k (or_introl eq_refl)) as [n ->]. apply in_map_iff in C as ([k' v'] & E & Hk). apply in_map_iff in Hk as ([k2 v2] & [= <- <-] & Hk2).
    cbn [fst jkey] in E. apply (in_map fst) in Hk2. cbn [fst] in Hk2. destruct (H k2 (or_intror Hk2)) as [m ->]. cbn [jkey] in E. injection E as E. apply str_nat_inj in E as ->. exact Hk2.
  - apply IH; [|exact Nd]. intros x Hx. apply H. now right.
Qed.

(** a vertex in the queue that is not a key, or that leads to one, makes topsort raise KeyError *)
Lemma topsort_loop_keyerror E : forall fuel q vis, incl vis (dkeys E) -> length q + pend E vis <= fuel ->
  (exists x, In x q /\ ~ In x (dkeys E)) \/ (exists k c x, In k q /\ ~ In k vis /\ dget E k = Some c /\ In x c /\ ~ In x (dkeys E)) ->
  topsort_loop fuel E q vis = Raise KeyError.
Proof.
  induction fuel as [|fuel IH]; intros q vis I L W.
  - destruct q; simpl in L; [|lia]. destruct W as [(x & [] & _)|(k & c & x & [] & _)].
  - destruct q as [|v rest]; [destruct W as [(x & [] & _)|(k & c & x & [] & _)]|]. cbn [topsort_loop]. simpl in L.
    destruct (mem_spec v vis) as [Hv|Hv].
    + apply IH; [exact I|lia|]. destruct W as [(x & [<-|Hx] & Nx)|(k & c & x & [<-|Hk] & Nk & R)]; [exfalso; auto|left; eauto|contradiction|right; eauto 10].
    + destruct (dget E v) as [c|] eqn:Ev; [|unfold getitem; rewrite Ev; reflexivity]. rewrite (getitem_Some _ _ _ Ev). cbn [bind].
      apply IH.
      * intros y Hy. apply in_app_iff in Hy as [Hy|[<-|[]]]; [auto|]. eapply dget_Some_In; eassumption.
      * rewrite app_length. pose proof (pend_expand E vis v c Ev Hv). lia.
      * destruct W as [(x & [<-|Hx] & Nx)|(k & c' & x & [<-|Hk] & Nk & Ek & Hx & Nx)].
        -- exfalso. apply Nx. eapply dget_Some_In; eassumption.
        -- left. exists x. rewrite in_app_iff. auto.
        -- left. exists x. rewrite in_app_iff. split; [right; congruence|exact Nx].
        -- destruct (name_eq_dec k v) as [->|Dk]; [left; exists x; rewrite in_app_iff; split; [right; congruence|exact Nx]|].
           right. exists k, c', x. rewrite !in_app_iff. simpl. intuition congruence.
Qed.
Lemma topsort_keyerror E u x : NoDup (dkeys E) -> parentless E u -> edge E u x -> ~ In x (dkeys E) -> topsort E None = Raise KeyError.
Proof.
  intros N P (c & Ec & Hx) Nx. unfold topsort, topsort_from. apply topsort_loop_keyerror; [intros ? []|rewrite pend_nil; unfold topsort_fuel; lia|].
  right. exists u, c, x. rewrite In_topsort_roots by exact N. auto 10.
Qed.
