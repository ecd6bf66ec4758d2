(** Properties_Fitness.v -- C121: mb_fitness. *)
From Coq Require Import Reals.
From Verif Require Import Py Num SpecReal MiReal ParamLearn ConstraintMain GraphNet MbFitness.
Open Scope nat_scope.

(** ** specification *)
(** the members of [nodes] outside the blanket [mb] of [T] *)
Definition outside (nodes mb : list name) (T : name) : list name := filter (fun X => negb (mem X mb) && negb (name_eqb X T)) nodes.
(** 1/p for the p-value of T and X given the blanket *)
Definition reciprocal (r : res (num Qc)) : num Qc :=
  match r with Ok (Fin q) => Fin (/ q)%Qc | Ok Inf => Fin 0%Qc | _ => NaN end.
(** their sum (nan when one of them is nan) *)
Definition fitness (test : list name -> res (num Qc)) (nodes mb : list name) (T : name) : num Qc :=
  fold_right nadd (Fin 0%Qc) (map (fun X => reciprocal (test (T :: X :: mb))) (outside nodes mb T)).
(** every test that is needed returns a number other than 0 *)
Definition tests_answer (test : list name -> res (num Qc)) (Mb : dict (list name)) (nodes : list name) : Prop :=
  forall T, In T nodes -> exists mb, dget Mb T = Some mb /\ forall X, In X (outside nodes mb T) -> exists p, test (T :: X :: mb) = Ok p /\ p <> Fin 0%Qc.

Lemma nadd_comm a b : nadd a b = nadd b a.
Proof. destruct a, b; cbn; try reflexivity. now rewrite Qcplus_comm. Qed.
Lemma nadd_assoc a b c : nadd a (nadd b c) = nadd (nadd a b) c.
Proof. destruct a, b, c; cbn; try reflexivity. now rewrite Qcplus_assoc. Qed.
Lemma nadd_perm l l' s : Permutation l l' -> fold_right nadd s l = fold_right nadd s l'.
Proof. intros P. induction P; cbn [fold_right]; [reflexivity|now f_equal| |congruence]. rewrite !nadd_assoc. f_equal. apply nadd_comm. Qed.
Lemma nadd_0 a : nadd (Fin 0%Qc) a = a.
Proof. destruct a; cbn; try reflexivity. now rewrite Qcplus_0_l. Qed.
Lemma ninv_ok p : p <> Fin 0%Qc -> ninv p = Ok (reciprocal (Ok p)).
Proof. intros N. destruct p as [| |q]; cbn; try reflexivity. destruct (Qc_eq_dec q 0) as [->|_]; [congruence|reflexivity]. Qed.
Lemma outside_diff nodes mb T : NoDup nodes -> set_diff (set_diff nodes mb) [T] = outside nodes mb T.
Proof.
  intros ND. unfold set_diff. rewrite (dedup_id nodes ND). rewrite dedup_id by (now apply NoDup_filter).
  unfold outside. induction nodes as [|x l IH]; [reflexivity|]. inversion ND; subst. cbn [filter]. cbn [mem existsb]. destruct (mem x mb); cbn [negb andb]; [now apply IH|].
  cbn [filter mem existsb]. rewrite orb_false_r. destruct (name_eqb x T); cbn [negb]; [now apply IH|f_equal; now apply IH].
Qed.
Lemma fit_node_fold test mb T : forall l D s, dget D T = Some s -> (forall X, In X l -> exists p, test (T :: X :: mb) = Ok p /\ p <> Fin 0%Qc) ->
  exists D', foldM (fun D X => do p <- test (T :: X :: mb) ;; do r <- ninv p ;; do s <- getitem D T ;; Ok (dset D T (nadd s r))) l D = Ok D' /\
    dkeys D' = dkeys D /\ dget D' T = Some (fold_right nadd s (map (fun X => reciprocal (test (T :: X :: mb))) l)) /\ forall k, k <> T -> dget D' k = dget D k.
Proof.
  induction l as [|X l IH]; intros D s Hs H; [exists D; auto|]. cbn [foldM]. destruct (H X (or_introl eq_refl)) as (p & Ep & Np). rewrite Ep. cbn [bind]. rewrite (ninv_ok p Np). cbn [bind].
  rewrite (getitem_Some _ _ _ Hs). cbn [bind].
  destruct (IH (dset D T (nadd s (reciprocal (Ok p)))) (nadd s (reciprocal (Ok p)))) as (D' & E & K & V & O).
  { rewrite dget_dset. destruct (name_eqb_spec T T); [reflexivity|congruence]. }
  { intros Y HY. apply H. now right. }
  exists D'. split; [exact E|]. split.
  { rewrite K. apply dkeys_dset_in. apply dget_In. congruence. }
  split.
  { rewrite V. f_equal. cbn [map fold_right]. rewrite Ep. generalize (map (fun X => reciprocal (test (T :: X :: mb))) l) (reciprocal (Ok p)). clear. intros l r. induction l as [|x l IH]; cbn [fold_right]; [apply nadd_comm|]. rewrite IH. rewrite !nadd_assoc. f_equal. apply nadd_comm. }
  intros k Hk. rewrite O by assumption. rewrite dget_dset. destruct (name_eqb_spec k T); [contradiction|reflexivity].
Qed.
Lemma fit_all o test Mb nodes : NoDup nodes -> good o -> tests_answer test Mb nodes -> forall es D, NoDup (map snd es) -> (forall e, In e es -> In (snd e) nodes) -> (forall e, In e es -> dget D (snd e) = Some (Fin 0%Qc)) ->
  exists D', foldM (fun D kT => fit_node (sub (sub o 1) (fst kT)) test Mb nodes D (snd kT)) es D = Ok D' /\ dkeys D' = dkeys D /\
    (forall e mb, In e es -> dget Mb (snd e) = Some mb -> dget D' (snd e) = Some (fitness test nodes mb (snd e))) /\ (forall k, ~ In k (map snd es) -> dget D' k = dget D k).
Proof.
  intros ND G TA. induction es as [|[i T] es IH]; intros D NDe Sub Z; [exists D; cbn; split; [reflexivity|]; split; [reflexivity|]; split; [intros e mb []|reflexivity]|].
  inversion NDe; subst. cbn [foldM fst snd]. unfold fit_node. destruct (TA T (Sub (i, T) (or_introl eq_refl))) as (mb & Em & Ht). rewrite (getitem_Some _ _ _ Em). cbn [bind]. rewrite outside_diff by assumption.
  assert (P : Permutation (ask (sub (sub o 1) i) (outside nodes mb T)) (outside nodes mb T)) by (apply good_ask; now apply good_sub, good_sub).
  destruct (fit_node_fold test mb T (ask (sub (sub o 1) i) (outside nodes mb T)) D (Fin 0%Qc) (Z (i, T) (or_introl eq_refl))) as (D1 & E1 & K1 & V1 & O1).
  { intros X HX. apply Ht. now apply (Permutation_in _ P). }
  rewrite E1. cbn [bind]. destruct (IH D1) as (D2 & E2 & K2 & V2 & O2); [assumption|intros e He; apply Sub; now right| |].
  { intros e He. rewrite O1; [apply Z; now right|]. intros Eq. match goal with HN : ~ In _ _ |- _ => apply HN end. rewrite <- Eq. now apply in_map. }
  exists D2. split; [exact E2|]. split; [congruence|]. split.
  - intros e mb' [<-|He] Emb; [|now apply V2]. cbn [snd] in *. rewrite Em in Emb. inversion Emb; subst mb'. rewrite O2 by assumption. rewrite V1. f_equal. unfold fitness. apply nadd_perm. now apply Permutation_map.
  - intros k Hk. cbn [map snd] in Hk. rewrite O2 by (intros X; apply Hk; now right). apply O1. intros ->. apply Hk. now left.
Qed.
Lemma map_snd_enum {A} (l : list A) : map snd (enum l) = l.
Proof.
  unfold enum. generalize 0. induction l as [|x l IH]; intros s; [reflexivity|]. cbn [length seq combine map snd]. f_equal. apply IH.
Qed.
Lemma fit_nodes_nodup Mb t : NoDup (fit_nodes Mb t).
Proof. destruct t; cbn; try apply NoDup_dedup. constructor; [intros []|constructor]. Qed.

(** what mb_fitness computes, whatever the order in which the sets are walked through *)
Theorem C121_fitness : forall o test Mb target, good o -> tests_answer test Mb (fit_nodes Mb target) ->
  exists D, mb_fitness o test Mb target = Ok D /\ Permutation (dkeys D) (fit_nodes Mb target) /\
    forall T mb, In T (fit_nodes Mb target) -> dget Mb T = Some mb -> dget D T = Some (fitness test (fit_nodes Mb target) mb T).
Proof.
  intros o test Mb target G TA. set (nodes := fit_nodes Mb target) in *. assert (ND : NoDup nodes) by apply fit_nodes_nodup. unfold mb_fitness. fold nodes.
  set (order := ask (sub o 0) nodes). assert (P : Permutation order nodes) by (apply good_ask; now apply good_sub).
  assert (NDo : NoDup order) by (apply (Permutation_NoDup (Permutation_sym P) ND)).
  destruct (fit_all o test Mb nodes ND G TA (enum order) (map (fun rv => (rv, Fin 0%Qc)) order)) as (D & E & K & V & _).
  - now rewrite map_snd_enum.
  - intros e He. apply (Permutation_in _ P). now apply In_enum.
  - intros e He. apply In_enum in He. rewrite dget_map_pair. replace (mem (snd e) order) with true by (symmetry; now apply mem_In). reflexivity.
  - exists D. split; [exact E|]. split.
    + rewrite K. unfold dkeys. rewrite map_map. cbn [fst]. rewrite map_id. exact P.
    + intros T mb HT Em. apply (Permutation_in _ (Permutation_sym P)) in HT. rewrite <- (map_snd_enum order) in HT. apply in_map_iff in HT as (e & <- & He). now apply V.
Qed.
Print Assumptions C121_fitness.

(** with one target column the answer is 0, whatever the data and whatever the blanket *)
Theorem C121_single_target_refuted : forall o test Mb i mb, good o -> dget Mb (NInt i) = Some mb ->
  mb_fitness o test Mb (OneCol i) = Ok [(NInt i, Fin 0%Qc)] /\ mb_fitness o test Mb (Many [NInt i]) = Ok [(NInt i, Fin 0%Qc)].
Proof.
  intros o test Mb i mb G E.
  assert (P : ask (sub o 0) [NInt i] = [NInt i]) by (apply Permutation_length_1_inv, Permutation_sym, good_ask, good_sub, G).
  assert (Z : set_diff (set_diff [NInt i] mb) [NInt i] = []).
  { rewrite outside_diff by (constructor; [intros []|constructor]). unfold outside. cbn [filter]. destruct (name_eqb_spec (NInt i) (NInt i)); [|congruence]. now rewrite andb_false_r. }
  assert (N : forall o, good o -> ask o [] = []) by (intros o' G'; apply Permutation_nil, Permutation_sym, good_ask, G').
  unfold mb_fitness. assert (F1 : fit_nodes Mb (OneCol i) = [NInt i]) by reflexivity. assert (F2 : fit_nodes Mb (Many [NInt i]) = [NInt i]) by reflexivity. rewrite F1, F2.
  rewrite P. cbn [enum length seq combine foldM map fst snd]. unfold fit_node. rewrite (getitem_Some _ _ _ E). cbn [bind]. rewrite Z, N by (now apply good_sub, good_sub). cbn [foldM bind]. split; reflexivity.
Qed.
Print Assumptions C121_single_target_refuted.

(** a p-value of 0 (strong dependence on something outside the blanket) is not reported as a large number *)
Lemma fold_zero test mb T : forall l D s, dget D T = Some s -> (forall X, In X l -> exists p, test (T :: X :: mb) = Ok p) -> (exists X, In X l /\ test (T :: X :: mb) = Ok (Fin 0%Qc)) ->
  foldM (fun D X => do p <- test (T :: X :: mb) ;; do r <- ninv p ;; do s <- getitem D T ;; Ok (dset D T (nadd s r))) l D = Raise ZeroDivisionError.
Proof.
  induction l as [|X l IH]; intros D s Hs H (Y & HY & EY); [destruct HY|]. cbn [foldM]. destruct (H X (or_introl eq_refl)) as (p & Ep). rewrite Ep. cbn [bind].
  destruct p as [| |q]; cbn [ninv bind].
  1,2: rewrite (getitem_Some _ _ _ Hs); cbn [bind]; eapply IH; [rewrite dget_dset; destruct (name_eqb_spec T T); [reflexivity|congruence]|intros Z HZ; apply H; now right|]; exists Y; split; [destruct HY as [<-|HY]; [congruence|assumption]|assumption].
  destruct (Qc_eq_dec q 0) as [->|Nq]; [reflexivity|]. cbn [bind]. rewrite (getitem_Some _ _ _ Hs). cbn [bind].
  eapply IH; [rewrite dget_dset; destruct (name_eqb_spec T T); [reflexivity|congruence]|intros Z HZ; apply H; now right|]. exists Y. split; [destruct HY as [<-|HY]; [congruence|assumption]|assumption].
Qed.
Theorem C121_zero_division : forall o test Mb target, good o ->
  (forall T, In T (fit_nodes Mb target) -> exists mb, dget Mb T = Some mb /\ forall X, In X (outside (fit_nodes Mb target) mb T) -> exists p, test (T :: X :: mb) = Ok p) ->
  (exists T mb X, In T (fit_nodes Mb target) /\ dget Mb T = Some mb /\ In X (outside (fit_nodes Mb target) mb T) /\ test (T :: X :: mb) = Ok (Fin 0%Qc)) ->
  mb_fitness o test Mb target = Raise ZeroDivisionError.
Proof.
  intros o test Mb target G TA (T0 & mb0 & X0 & HT0 & Em0 & HX0 & Z0). set (nodes := fit_nodes Mb target) in *. assert (ND : NoDup nodes) by apply fit_nodes_nodup. unfold mb_fitness. fold nodes.
  set (order := ask (sub o 0) nodes). assert (P : Permutation order nodes) by (apply good_ask; now apply good_sub).
  assert (Gen : forall es D, (forall e, In e es -> In (snd e) nodes) -> (forall e, In e es -> exists s, dget D (snd e) = Some s) -> In T0 (map snd es) ->
    foldM (fun D kT => fit_node (sub (sub o 1) (fst kT)) test Mb nodes D (snd kT)) es D = Raise ZeroDivisionError).
  { induction es as [|[i T] es IH]; intros D Sub HD HI; [destruct HI|]. cbn [foldM fst snd]. unfold fit_node. destruct (TA T (Sub (i, T) (or_introl eq_refl))) as (mb & Em & Ht). rewrite (getitem_Some _ _ _ Em). cbn [bind]. rewrite outside_diff by assumption.
    assert (PP : Permutation (ask (sub (sub o 1) i) (outside nodes mb T)) (outside nodes mb T)) by (apply good_ask; now apply good_sub, good_sub).
    destruct (HD (i, T) (or_introl eq_refl)) as (s & Hs). cbn [snd] in Hs.
    set (l := ask (sub (sub o 1) i) (outside nodes mb T)) in *.
    assert (Hl : forall X, In X l -> exists p, test (T :: X :: mb) = Ok p) by (intros X HX; apply Ht; now apply (Permutation_in _ PP)).
    destruct (existsb (fun X => match test (T :: X :: mb) with Ok (Fin q) => if Qc_eq_dec q 0 then true else false | _ => false end) l) eqn:Ex.
    - apply existsb_exists in Ex as (X & HX & EX). rewrite (fold_zero test mb T l D s Hs Hl); [reflexivity|]. exists X. split; [assumption|]. destruct (test (T :: X :: mb)) as [[| |q]|]; try discriminate. destruct (Qc_eq_dec q 0) as [->|]; [reflexivity|discriminate].
    - assert (NZ : forall X, In X l -> test (T :: X :: mb) <> Ok (Fin 0%Qc)).
      { intros X HX EX. assert (Y : existsb (fun X => match test (T :: X :: mb) with Ok (Fin q) => if Qc_eq_dec q 0 then true else false | _ => false end) l = true).
        { apply existsb_exists. exists X. split; [assumption|]. rewrite EX. now destruct (Qc_eq_dec 0 0). } congruence. }
      destruct (fit_node_fold test mb T l D s Hs) as (D1 & E1 & K1 & V1 & O1).
      { intros X HX. destruct (Hl X HX) as (p & Ep). exists p. split; [assumption|]. intros ->. now apply (NZ X HX). }
      rewrite E1. cbn [bind]. apply IH; [intros e He; apply Sub; now right| |].
      + intros e He. destruct (name_eq_dec (snd e) T) as [->|N]; [eauto|]. rewrite O1 by assumption. apply HD. now right.
      + cbn [map snd] in HI. destruct HI as [E|HI]; [|assumption]. exfalso. subst T. rewrite Em in Em0. inversion Em0; subst mb0. apply (NZ X0); [|assumption]. now apply (Permutation_in _ (Permutation_sym PP)). }
  apply Gen.
  - intros e He. apply (Permutation_in _ P). now apply In_enum.
  - intros e He. apply In_enum in He. rewrite dget_map_pair. replace (mem (snd e) order) with true by (symmetry; now apply mem_In). eauto.
  - rewrite map_snd_enum. now apply (Permutation_in _ (Permutation_sym P)).
Qed.
Print Assumptions C121_zero_division.

(** a perfect blanket does not score 0: when all p-values are positive numbers of at most P the score is at least (number of
    columns outside) / P; it is 0 only when nothing is outside *)
Theorem C121_lower_bound : forall o test Mb target P, good o -> tests_answer test Mb (fit_nodes Mb target) -> (0 < P)%Qc ->
  (forall T mb X, In T (fit_nodes Mb target) -> dget Mb T = Some mb -> In X (outside (fit_nodes Mb target) mb T) -> exists q, test (T :: X :: mb) = Ok (Fin q) /\ (0 < q)%Qc /\ (q <= P)%Qc) ->
  exists D, mb_fitness o test Mb target = Ok D /\
    forall T mb, In T (fit_nodes Mb target) -> dget Mb T = Some mb -> exists s, dget D T = Some (Fin s) /\ (nQc (length (outside (fit_nodes Mb target) mb T)) / P <= s)%Qc.
Proof.
  intros o test Mb target P G TA HP H. destruct (C121_fitness o test Mb target G TA) as (D & E & _ & V). exists D. split; [assumption|]. intros T mb HT Em. rewrite (V T mb HT Em). unfold fitness.
  assert (Hq : forall X, In X (outside (fit_nodes Mb target) mb T) -> exists q, test (T :: X :: mb) = Ok (Fin q) /\ (0 < q)%Qc /\ (q <= P)%Qc) by (intros X HX; now apply (H T mb X)).
  assert (NP : P <> 0%Qc) by (intros Z; rewrite Z in HP; discriminate).
  clear V E TA H. induction (outside (fit_nodes Mb target) mb T) as [|X l IH].
  - exists 0%Qc. split; [reflexivity|]. cbn [length]. change (nQc 0) with 0%Qc. unfold Qcdiv. rewrite Qcmult_0_l. apply Qcle_refl.
  - destruct IH as (s & Es & Ls); [intros; apply Hq; now right|]. destruct (Hq X (or_introl eq_refl)) as (q & Eq & Q0 & Q1). cbn [map fold_right]. inversion Es as [Es']. rewrite Es', Eq. cbn [reciprocal nadd].
    exists (/ q + s)%Qc. split; [reflexivity|]. cbn [length]. rewrite nQc_S. replace ((1 + nQc (length l)) / P)%Qc with (/ P + nQc (length l) / P)%Qc by (field; assumption). apply Qcplus_le_compat; [|assumption].
    assert (NQ : q <> 0%Qc) by (intros Z; rewrite Z in Q0; discriminate). destruct (Qclt_le_dec (/ q) (/ P)) as [L|L]; [exfalso|assumption].
    assert (L2 : (/ q * (q * P) < / P * (q * P))%Qc). { apply Qcmult_lt_compat_r; [|assumption]. rewrite <- (Qcmult_0_l P). now apply Qcmult_lt_compat_r. }
    replace (/ q * (q * P))%Qc with P in L2 by (field; assumption). replace (/ P * (q * P))%Qc with q in L2 by (field; assumption). exact (Qclt_not_le _ _ L2 Q1).
Qed.
Print Assumptions C121_lower_bound.

Definition exTest (cols : list name) : res (num Qc) := match cols with [NInt 0; NInt 1] => Ok (Fin (Q2Qc (1 # 2))) | [NInt 0; NInt 2] => Ok (Fin (Q2Qc (1 # 4))) | _ => Ok (Fin 1%Qc) end.
Example C121_nonvacuous : let Mb := [(NInt 0, []); (NInt 1, [NInt 0]); (NInt 2, [NInt 0])] in
  tests_answer exTest Mb (fit_nodes Mb NoTarget) /\ mb_fitness id_oracle exTest Mb NoTarget = Ok [(NInt 0, Fin (Q2Qc 6)); (NInt 1, Fin 1%Qc); (NInt 2, Fin 1%Qc)] /\
  mb_fitness id_oracle (fun _ => Ok (Fin 0%Qc)) Mb NoTarget = Raise ZeroDivisionError.
Proof.
  split; [|split; vm_compute; reflexivity]. intros T HT. cbn in HT. destruct HT as [<-|[<-|[<-|[]]]]; eexists; (split; [reflexivity|]); intros X HX; cbn in HX; repeat (destruct HX as [<-|HX]; [eexists; split; [reflexivity|discriminate]|]); destruct HX.
Qed.
