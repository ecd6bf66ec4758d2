(** Properties_Factor.v -- theorems C01 to C12.  Specification: SpecFactor.v. *)
From Verif Require Import Py Num BayesNet Factor SpecFactor Radix SumOver FactorMul FactorOut FactorMore FactorLaws Examples.
Open Scope nat_scope.

(** C01: Factor(bn, v) reads exactly the network's CPT, cell by cell. *)
Theorem C01_factor_init : forall bn v, wfnet bn -> In v (bn_V bn) ->
  exists f, factor_init bn v = Ok f /\
    f_scope f = v :: nparents bn v /\
    (forall w, In w (f_scope f) -> dget (f_card f) w = Some (ncard bn w)) /\
    (forall a, valid (ncard bn) (f_scope f) a ->
       exists x, cond_prob bn v a = Some x /\ lookup f a = Some x) /\
    (forall a b, valid (ncard bn) (f_scope f) a -> valid (ncard bn) (f_scope f) b ->
       offset f a = offset f b -> forall w, In w (f_scope f) -> a w = b w) /\
    (forall i, i < length (f_cpt f) -> exists a, valid (ncard bn) (f_scope f) a /\ offset f a = i).
Proof.
  intros bn v W Hv. destruct (init_ok bn v W Hv) as (f & E & S & Vr & B & C & Run & R).
  exists f. split; [assumption|]. split; [assumption|]. split; [apply R|]. split; [|split].
  - intros a V. pose proof R as [Wf H]. pose proof (H a V) as L.
    unfold lookup in L. rewrite offset_dot, S, (running_dot _ _ _ _ _ Run), Nat.mul_1_l, C in L.
    unfold cond_prob at 1. rewrite L. eexists. split; [reflexivity|]. apply H, V.
  - intros a b Va Vb. apply (wf_offset_inj (ncard bn)); [apply R|assumption|assumption].
  - intros i Hi. apply (wf_offset_surj (ncard bn)); [apply R|assumption].
Qed.
Print Assumptions C01_factor_init.
Example C01_nonvacuous : wfnet ex3 /\ In exC (bn_V ex3).
Proof. split; [exact ex3_wf|simpl; auto]. Qed.

(** C02: product over the union of the scopes, for every iteration order. *)
Theorem C02_multiply : forall cd o f g phi psi, good o -> repr cd f phi -> repr cd g psi ->
  exists h g', multiply_factor o f g = Ok (h, g') /\
    NoDup (f_scope h) /\
    (forall v, In v (f_scope h) <-> In v (f_scope f) \/ In v (f_scope g)) /\
    repr cd h (fun a => phi a * psi a)%Qc.
Proof.
  intros cd o f g phi psi Go Rf Rg.
  destruct (multiply_ok cd o f g phi psi Go Rf Rg) as (h & g' & E & R & S & _).
  exists h, g'. split; [assumption|]. split; [apply R|]. auto.
Qed.
Print Assumptions C02_multiply.
(** sepset lists the shared variables, once each, and the product scope is counted by inclusion-exclusion *)
Theorem C02_sepset : forall cd o o2 f g h g', good o -> good o2 -> wf cd f -> wf cd g -> multiply_factor o f g = Ok (h, g') ->
  NoDup (sepset o2 f g) /\
  (forall v, In v (sepset o2 f g) <-> In v (f_scope f) /\ In v (f_scope g)) /\
  Permutation (sepset o2 f g) (sepset o2 g f) /\
  length (f_scope h) + length (sepset o2 f g) = length (f_scope f) + length (f_scope g).
Proof.
  intros cd o o2 f g h g' Go Go2 Wf Wg E.
  destruct (multiply_ok cd o f g (val f) (val g) Go (repr_val _ _ Wf) (repr_val _ _ Wg)) as (h' & g2 & E' & R & S & _).
  rewrite E in E'. inversion E'; subst h' g2. clear E'.
  assert (ND : forall a b, NoDup (sepset o2 a b)).
  { intros a b. unfold sepset, ask. apply (Permutation_NoDup (Permutation_sym (Go2 [] _))). unfold set_inter. apply NoDup_filter, NoDup_dedup. }
  assert (IN : forall a b v, In v (sepset o2 a b) <-> In v (f_scope a) /\ In v (f_scope b)).
  { intros a b v. unfold sepset, ask. rewrite <- In_set_inter. split; apply Permutation_in; [|apply Permutation_sym]; apply Go2. }
  split; [apply ND|]. split; [apply IN|]. split.
  - apply NoDup_Permutation; auto. intros v. rewrite !IN. tauto.
  - pose proof (wf_nodup _ _ Wf) as Nf. pose proof (wf_nodup _ _ Wg) as Ng. pose proof (wf_nodup _ _ (proj1 R)) as Nh.
    assert (P1 : Permutation (f_scope h) (f_scope f ++ filter (fun v => negb (mem v (f_scope f))) (f_scope g))).
    { apply NoDup_Permutation; [assumption| |].
      - apply NoDup_app_intro; [assumption|now apply NoDup_filter|].
        intros v Hv K. apply filter_In in K as [_ K]. apply negb_true_iff in K. apply mem_false in K. contradiction.
      - intros v. rewrite S, in_app_iff, filter_In, negb_true_iff, mem_false. destruct (in_dec name_eq_dec v (f_scope f)); tauto. }
    assert (P2 : Permutation (sepset o2 f g) (filter (fun v => mem v (f_scope f)) (f_scope g))).
    { apply NoDup_Permutation; [apply ND|now apply NoDup_filter|]. intros v. rewrite IN, filter_In, mem_In. tauto. }
    rewrite (Permutation_length P1), (Permutation_length P2), app_length.
    assert (K : forall l, length (filter (fun v => negb (mem v (f_scope f))) l) + length (filter (fun v => mem v (f_scope f)) l) = length l).
    { induction l as [|x l IH]; simpl; [reflexivity|]. destruct (mem x (f_scope f)); simpl; lia. }
    specialize (K (f_scope g)). lia.
Qed.
Print Assumptions C02_sepset.
(** every factor of a network has such a denotation, so the hypotheses are met *)
Example C02_nonvacuous : exists f g, factor_init ex3 exB = Ok f /\ factor_init ex3 exC = Ok g /\
  repr (ncard ex3) f (fun a => getq (cond_prob ex3 exB a)) /\ repr (ncard ex3) g (fun a => getq (cond_prob ex3 exC a)).
Proof.
  destruct (init_ok ex3 exB ex3_wf) as (f & E & _ & _ & _ & _ & _ & R); [simpl; auto|].
  destruct (init_ok ex3 exC ex3_wf) as (g & E' & _ & _ & _ & _ & _ & R'); [simpl; auto|].
  exists f, g. auto.
Qed.

(** C03 *)
Theorem C03_commutative : forall cd o1 o2 f g, good o1 -> good o2 -> wf cd f -> wf cd g ->
  exists h1 h2, factor_mul o1 f g = Ok h1 /\ factor_mul o2 g f = Ok h2 /\ same_function cd h1 h2.
Proof. exact mul_comm. Qed.
Print Assumptions C03_commutative.
Theorem C03_associative : forall cd o1 o2 o3 o4 f g h,
  good o1 -> good o2 -> good o3 -> good o4 -> wf cd f -> wf cd g -> wf cd h ->
  exists fg l gh r, factor_mul o1 f g = Ok fg /\ factor_mul o2 fg h = Ok l /\
    factor_mul o3 g h = Ok gh /\ factor_mul o4 f gh = Ok r /\ same_function cd l r.
Proof. exact mul_assoc. Qed.
Print Assumptions C03_associative.

(** C04: exactly when the argument survives (as a factor denoting the same function). *)
Theorem C04_argument_preserved : forall cd o f g phi psi f' g',
  good o -> repr cd f phi -> repr cd g psi -> multiply_factor o f g = Ok (f', g') ->
  length (f_scope g) <= length (f_scope f) \/ incl (f_scope f) (f_scope g) -> repr cd g' psi.
Proof. intros cd o f g phi psi f' g' Go Rf Rg E H. exact (proj1 (multiply_other cd o f g phi psi Go Rf Rg f' g' E) H). Qed.
Print Assumptions C04_argument_preserved.
Theorem C04_argument_spoiled : forall cd o f g phi psi f' g',
  good o -> repr cd f phi -> repr cd g psi -> multiply_factor o f g = Ok (f', g') ->
  length (f_scope f) < length (f_scope g) -> ~ incl (f_scope f) (f_scope g) -> ~ wf cd g'.
Proof.
  intros cd o f g phi psi f' g' Go Rf Rg E H N W.
  destruct (proj2 (multiply_other cd o f g phi psi Go Rf Rg f' g' E) W); [lia|contradiction].
Qed.
Print Assumptions C04_argument_spoiled.

(** a network where it happens: P(D) * P(B|A) leaves P(B|A) claiming a third variable,
    and the next product with it has a table twice the size of its scope *)
Definition ex4 : bayesnet :=
  mkBN [exA; exB; nm "D"] [(exA, [exB]); (exB, []); (nm "D", [])]
       [(exA, mkF [] [nm "0"; nm "1"] [qq 2 5; qq 3 5]);
        (exB, mkF [exA] [nm "0"; nm "1"] [qq 1 5; qq 4 5; qq 1 2; qq 1 2]);
        (nm "D", mkF [] [nm "0"; nm "1"] [qq 1 4; qq 3 4])].
Theorem C04_refuted : exists bn f g h f' g' h' h'', wfnet bn /\
  factor_init bn (nm "D") = Ok f /\ factor_init bn exB = Ok g /\ factor_init bn exA = Ok h /\
  multiply_factor id_oracle f g = Ok (f', g') /\
  multiply_factor id_oracle g' h = Ok (h', h'') /\
  length (f_cpt h') = 8 /\ nprod (map (ncard bn) (f_scope h')) = 4.
Proof.
  exists ex4. do 7 eexists. split; [apply wfnetb_ok; vm_compute; reflexivity|].
  repeat (split; [vm_compute; reflexivity|]). vm_compute. reflexivity.
Qed.
Print Assumptions C04_refuted.

(** C05 *)
Theorem C05_sumout : forall cd o f phi v, repr cd f phi -> In v (f_scope f) ->
  exists f', sumout_var o f v = Ok f' /\ f_scope f' = remove1 v (f_scope f) /\
    repr cd f' (fun a => qsum (map (fun x => phi (upd a v x)) (seq 0 (cd v)))).
Proof.
  intros cd o f phi v R H. destruct (sumout_ok cd o f phi v R H) as (f' & E & R' & S & _).
  exists f'. auto.
Qed.
Print Assumptions C05_sumout.

(** C06 *)
Theorem C06_sumout_order : forall cd o1 o2 f vs ws, wf cd f -> NoDup vs -> incl vs (f_scope f) -> Permutation vs ws ->
  exists f1 f2, sumout_var_list o1 f vs = Ok f1 /\ sumout_var_list o2 f ws = Ok f2 /\ same_function cd f1 f2.
Proof. exact sumout_list_perm. Qed.
Print Assumptions C06_sumout_order.
Theorem C06_sumover : forall cd o f v, wf cd f -> In v (f_scope f) ->
  exists f1 f2, sumover_var f v = Ok f1 /\ sumout_var_list o f (remove1 v (f_scope f)) = Ok f2 /\
    f_scope f1 = [v] /\ f_scope f2 = [v] /\ same_function cd f1 f2.
Proof. exact sumover_same. Qed.
Print Assumptions C06_sumover.

(** C07 *)
Theorem C07_maxout : forall cd f phi v, repr cd f phi -> In v (f_scope f) ->
  (forall a, valid cd (f_scope f) a -> (0 <= phi a)%Qc) ->
  exists f' psi, maxout_var f v = Ok f' /\ f_scope f' = remove1 v (f_scope f) /\ repr cd f' psi /\
    forall a, valid cd (remove1 v (f_scope f)) a ->
      (exists x, x < cd v /\ psi a = phi (upd a v x)) /\
      (forall x, x < cd v -> (phi (upd a v x) <= psi a)%Qc).
Proof.
  intros cd f phi v R H Hpos. destruct (maxout_ok cd f phi v R H) as (f' & E & R' & S & _).
  exists f', (max_values cd v phi). repeat (split; [assumption|]). intros a V.
  apply max_values_spec; [apply R; assumption|]. intros x Hx. apply Hpos.
  apply valid_upd; [auto|assumption|apply R].
Qed.
Print Assumptions C07_maxout.
(** all-negative columns (log space) come out as 0 *)
Theorem C07_negative_refuted : exists cd f f' a, wf cd f /\ maxout_var f exA = Ok f' /\
  valid cd (f_scope f) a /\
  (forall x, x < cd exA -> exists y, lookup f (upd a exA x) = Some y /\ (y < 0)%Qc) /\
  lookup f' a = Some 0%Qc.
Proof.
  pose (f := mkFactor (mkBN [] [] []) exA [exA] [(exA, 2)] [(exA, 1)] [qq (-1) 2; qq (-1) 4]).
  exists (fun _ => 2), f. eexists. exists (fun _ => 0).
  split; [|split; [vm_compute; reflexivity|split; [intros v Hv; lia|split; [|vm_compute; reflexivity]]]].
  - constructor; simpl.
    + constructor; [intros []|constructor].
    + reflexivity.
    + reflexivity.
    + intros v [<-|[]]. reflexivity.
    + intros; lia.
    + exists [exA]. split; [reflexivity|]. simpl. auto.
    + reflexivity.
  - intros [|[|x]] Hx; [| |lia]; (eexists; split; [vm_compute; reflexivity|reflexivity]).
Qed.
Print Assumptions C07_negative_refuted.

(** C08 *)
Theorem C08_reduce : forall cd o f phi v x i d, repr cd f phi -> In v (f_scope f) ->
  dget (bn_F (f_bn f)) v = Some d -> length (f_values d) = cd v -> index_of x (f_values d) = Some i ->
  exists f', reduce_factor o f v x = Ok f' /\ f_scope f' = remove1 v (f_scope f) /\
    repr cd f' (fun a => phi (upd a v i)).
Proof.
  intros cd o f phi v x i d R H Hd Hc Hx.
  destruct (reduce_ok cd o f phi v x i R H) as (f' & E & R' & S & _); try congruence.
  - apply index_of_lt in Hx. lia.
  - exists f'. auto.
Qed.
Print Assumptions C08_reduce.
Theorem C08_unknown_value : forall cd o f v x d, wf cd f -> In v (f_scope f) ->
  dget (bn_F (f_bn f)) v = Some d -> ~ In x (f_values d) -> reduce_factor o f v x = Raise ValueError.
Proof. exact reduce_valueerror. Qed.
Print Assumptions C08_unknown_value.
Theorem C08_unknown_variable : forall cd o f v x, wf cd f -> ~ In v (f_scope f) -> reduce_factor o f v x = Raise KeyError.
Proof.
  intros cd o f v x W H. apply reduce_keyerror. intros K. apply H. exact (Permutation_in _ (wf_ckeys _ _ W) K).
Qed.
Print Assumptions C08_unknown_variable.

(** C09 *)
Theorem C09_evidence_order : forall cd o1 o2 f ev ev' (vi : name -> nat),
  wf cd f -> NoDup (map fst ev) -> incl (map fst ev) (f_scope f) ->
  (forall rv v, In (rv, v) ev -> vi rv < cd rv /\
     exists d, dget (bn_F (f_bn f)) rv = Some d /\ index_of v (f_values d) = Some (vi rv)) ->
  Permutation ev ev' ->
  exists f1 f2, reduce_factor_by_list o1 f ev = Ok f1 /\ reduce_factor_by_list o2 f ev' = Ok f2 /\ same_function cd f1 f2.
Proof. exact reduce_list_perm. Qed.
Print Assumptions C09_evidence_order.
(** [red] conditions a factor that has the variable and leaves the others alone *)
Theorem C09_reduce_mul : forall cd o1 o2 o3 o4 o5 f g rv x i d,
  good o1 -> good o5 -> wf cd f -> wf cd g -> f_bn g = f_bn f ->
  dget (bn_F (f_bn f)) rv = Some d -> index_of x (f_values d) = Some i -> i < cd rv ->
  exists fg l rf rg r, factor_mul o1 f g = Ok fg /\ red o2 fg rv x = Ok l /\
    red o3 f rv x = Ok rf /\ red o4 g rv x = Ok rg /\ factor_mul o5 rf rg = Ok r /\ same_function cd l r.
Proof. exact reduce_mul. Qed.
Print Assumptions C09_reduce_mul.
Theorem C09_reduce_sumout : forall cd o1 o2 o3 o4 f rv x i d w,
  good o1 -> good o3 -> wf cd f ->
  dget (bn_F (f_bn f)) rv = Some d -> index_of x (f_values d) = Some i -> i < cd rv ->
  In rv (f_scope f) -> In w (f_scope f) -> w <> rv ->
  exists s l r t, sumout_var o1 f w = Ok s /\ reduce_factor o2 s rv x = Ok l /\
    reduce_factor o3 f rv x = Ok r /\ sumout_var o4 r w = Ok t /\ same_function cd l t.
Proof. exact reduce_sumout. Qed.
Print Assumptions C09_reduce_sumout.

(** C10 *)
Theorem C10_distributive : forall cd o1 o2 o3 o4 f g v,
  good o1 -> good o2 -> good o3 -> good o4 -> wf cd f -> wf cd g ->
  In v (f_scope f) -> ~ In v (f_scope g) ->
  exists fg l sf r, factor_mul o1 f g = Ok fg /\ sumout_var o2 fg v = Ok l /\
    sumout_var o3 f v = Ok sf /\ factor_mul o4 sf g = Ok r /\ same_function cd l r.
Proof. exact sumout_distr. Qed.
Print Assumptions C10_distributive.

(** C11: [var] is the variable the code picks; it is one of stride 1. *)
Theorem C11_normalize : forall cd o f phi, good o -> repr cd f phi -> f_scope f <> [] ->
  (forall a, valid cd (f_scope f) a -> (0 <= phi a)%Qc) ->
  exists var f' psi, normalize o f = Ok f' /\ In var (f_scope f) /\ dget (f_stride f) var = Some 1 /\
    f_scope f' = f_scope f /\ repr cd f' psi /\
    (forall a, valid cd (f_scope f) a ->
       psi a = ((phi a + qq 1 10000000) / qsum (map (fun x => phi (upd a var x) + qq 1 10000000) (seq 0 (cd var))))%Qc) /\
    (forall a, valid cd (f_scope f) a -> (0 < psi a)%Qc) /\
    (forall a, valid cd (f_scope f) a -> qsum (map (fun x => psi (upd a var x)) (seq 0 (cd var))) = 1%Qc).
Proof.
  intros cd o f phi Go R NE Hpos.
  assert (Rv : repr cd f (val f)) by apply repr_val, R.
  assert (Hv : forall a, valid cd (f_scope f) a -> (0 <= val f a)%Qc).
  { intros a V. rewrite <- (repr_to_val cd f phi R a V). auto. }
  destruct (normalize_ok cd o f (val f) Go Rv NE Hv) as (var & f' & E & I & S1 & Sc & _ & _ & R').
  exists var, f'. eexists. repeat (split; [eassumption|]). split; [|split].
  - intros a V. cbv beta. rewrite (repr_to_val cd f phi R a V). unfold sum_values. change (qq 1 10000000) with eps7.
    assert (EM : map (fun x => val f (upd a var x) + eps7)%Qc (seq 0 (cd var)) = map (fun x => phi (upd a var x) + eps7)%Qc (seq 0 (cd var))).
    { apply map_ext_in. intros x Hx. apply in_seq in Hx. rewrite (repr_to_val cd f phi R); [reflexivity|]. apply valid_upd'; [lia|assumption]. }
    cbv beta. rewrite EM. reflexivity.
  - intros a V. cbv beta.
    assert (TP : (0 < sum_values cd var (fun b => val f b + eps7)%Qc a)%Qc).
    { unfold sum_values. apply qsum_pos.
      - intros N. apply map_eq_nil in N. pose proof (wf_pos _ _ (proj1 R) var I). destruct (cd var); [lia|discriminate].
      - intros x Hx. apply in_map_iff in Hx as (y & <- & Hy). apply in_seq in Hy.
        assert (0 <= val f (upd a var y))%Qc. { apply Hv. apply valid_upd'; [lia|assumption]. }
        pose proof eps7_pos. qclra. }
    specialize (Hv a V). pose proof eps7_pos as EP.
    set (T := sum_values _ _ _ _) in *. set (X := (val f a + eps7)%Qc).
    assert (XP : (0 < X)%Qc) by (unfold X; qclra).
    assert (M : (X / T * T = X)%Qc). { field. intros Z. rewrite Z in TP. discriminate. }
    destruct (Qclt_le_dec 0 (X / T)) as [Q|Q]; [assumption|]. exfalso.
    assert (X <= 0)%Qc; [|qclra]. rewrite <- M.
    assert (0 <= T)%Qc by now apply Qclt_le_weak. revert Q H. generalize (X / T)%Qc T. intros u t Q H. qcnra.
  - intros a V. apply (normalize_sums cd var (val f) a (val_ext f)).
    + exact (wf_pos _ _ (proj1 R) var I).
    + intros x Hx. apply Hv. now apply valid_upd'.
Qed.
Print Assumptions C11_normalize.
Theorem C11_normalize_scalar : forall cd o f x, good o -> wf cd f -> f_scope f = [] -> f_cpt f = [x] -> (0 <= x)%Qc ->
  exists f', normalize o f = Ok f' /\ f_cpt f' = [1%Qc].
Proof.
  intros cd o f x Go W Hs Hc Hx. unfold normalize. cbn [perturb f_stride f_cpt f_card f_bn f_var f_scope].
  pose proof (wf_skeys _ _ W) as P. rewrite Hs in P. apply Permutation_sym, Permutation_nil in P.
  unfold dkeys in *. rewrite P. pose proof (good_ask o [] Go) as Pa. apply Permutation_sym, Permutation_nil in Pa. rewrite Pa.
  cbn [filter]. rewrite Hc. cbn [map normalize_seq bind app].
  assert (XP : (0 < x + eps7)%Qc) by (pose proof eps7_pos; qclra).
  assert (NZ : (x + eps7)%Qc <> 0%Qc) by (intros Z; rewrite Z in XP; discriminate).
  unfold qdiv. replace (qsum [(x + eps7)%Qc]) with (x + eps7)%Qc by (simpl; ring).
  destruct (Qc_eq_dec (x + eps7) 0) as [Z|Z]; [contradiction|]. cbn [bind].
  eexists. split; [reflexivity|]. cbn [f_cpt]. f_equal. apply Qcmult_inv_r. assumption.
Qed.
Print Assumptions C11_normalize_scalar.

(** a table whose length is not a multiple of the variable's number of values: the last, incomplete group raises; a variable without values raises too *)
Lemma normalize_groups_short c : 0 < c -> forall fuel cpt, length cpt < fuel -> (forall x, In x cpt -> 0 < x)%Qc -> length cpt mod c <> 0 ->
  normalize_groups fuel c cpt = Raise IndexError.
Proof.
  intros Pc. induction fuel as [|fuel IH]; intros cpt Hf Hpos Hm; [lia|].
  destruct cpt as [|x0 r0] eqn:Ecpt; [destruct Hm; apply Nat.mod_0_l; lia|]. cbn [normalize_groups]. rewrite <- Ecpt in *.
  rewrite firstn_length. destruct (Nat.ltb_spec (Nat.min c (length cpt)) c) as [_|L]; [reflexivity|].
  assert (SP : (0 < qsum (firstn c cpt))%Qc).
  { apply qsum_pos; [rewrite Ecpt; destruct c; [lia|discriminate]|]. intros x Hx. apply Hpos. rewrite <- (firstn_skipn c cpt). apply in_or_app. auto. }
  rewrite (mapM_ok _ (fun x => x / qsum (firstn c cpt))%Qc).
  2:{ intros x _. unfold qdiv. destruct (Qc_eq_dec (qsum (firstn c cpt)) 0) as [E|E]; [|reflexivity]. rewrite E in SP. discriminate. }
  cbn [bind]. rewrite IH; [reflexivity|rewrite skipn_length; lia| |].
  - intros x Hx. apply Hpos. rewrite <- (firstn_skipn c cpt). apply in_or_app. auto.
  - rewrite skipn_length. intros Z. apply Hm. replace (length cpt) with (length cpt - c + 1 * c) by lia. rewrite Nat.mod_add by lia. exact Z.
Qed.
Theorem C11_wrong_length : forall o f v, good o -> (forall x, In x (f_cpt f) -> 0 <= x)%Qc -> dget (f_stride f) v = Some 1 ->
  (forall w, dget (f_stride f) w = Some 1 -> exists c, dget (f_card f) w = Some c /\ 0 < c /\ length (f_cpt f) mod c <> 0) ->
  normalize o f = Raise IndexError.
Proof.
  intros o f v Go Hpos Hv H. unfold normalize. cbn [perturb f_stride f_card f_cpt].
  destruct (filter _ _) as [|w l] eqn:E.
  - exfalso. assert (K : In v (filter (fun k => stride_key (f_stride f) k =? 1) (ask o (dkeys (f_stride f))))).
    { apply filter_In. split; [apply (Permutation_in _ (Permutation_sym (good_ask o _ Go))); now apply dget_Some_In in Hv|]. unfold stride_key. now rewrite Hv. }
    rewrite E in K. exact K.
  - assert (K : In w (w :: l)) by now left. rewrite <- E in K. apply filter_In in K as [_ K]. apply Nat.eqb_eq in K. unfold stride_key in K.
    destruct (dget (f_stride f) w) as [k|] eqn:Ew; [|discriminate]. subst k. destruct (H w Ew) as (c & Ec & Pc & Hm).
    unfold getitem. rewrite Ec. cbn [bind]. destruct (Nat.eqb_spec c 0); [lia|]. rewrite normalize_groups_short; try reflexivity; try assumption.
    + rewrite map_length. lia.
    + intros x Hx. apply in_map_iff in Hx as (y & <- & Hy). specialize (Hpos y Hy). pose proof eps7_pos. qclra.
    + now rewrite map_length.
Qed.
Print Assumptions C11_wrong_length.
Theorem C11_no_values : forall o f v, good o -> dget (f_stride f) v = Some 1 -> (forall w, dget (f_stride f) w = Some 1 -> dget (f_card f) w = Some 0) ->
  normalize o f = Raise ValueError.
Proof.
  intros o f v Go Hv H. unfold normalize. cbn [perturb f_stride f_card f_cpt].
  destruct (filter _ _) as [|w l] eqn:E.
  - exfalso. assert (K : In v (filter (fun k => stride_key (f_stride f) k =? 1) (ask o (dkeys (f_stride f))))).
    { apply filter_In. split; [apply (Permutation_in _ (Permutation_sym (good_ask o _ Go))); now apply dget_Some_In in Hv|]. unfold stride_key. now rewrite Hv. }
    rewrite E in K. exact K.
  - assert (K : In w (w :: l)) by now left. rewrite <- E in K. apply filter_In in K as [_ K]. apply Nat.eqb_eq in K. unfold stride_key in K.
    destruct (dget (f_stride f) w) as [k|] eqn:Ew; [|discriminate]. subst k. unfold getitem. rewrite (H w Ew). reflexivity.
Qed.
Print Assumptions C11_no_values.
Example C11_wrong_length_nonvacuous : let bn := mkBN [exA] [(exA, [])] [(exA, mkF [] [nm "0"; nm "1"] [qq 1 2; qq 1 4; qq 1 4])] in
  exists f, factor_init bn exA = Ok f /\ dget (f_stride f) exA = Some 1 /\ (forall w, dget (f_stride f) w = Some 1 -> exists c, dget (f_card f) w = Some c /\ 0 < c /\ length (f_cpt f) mod c <> 0).
Proof.
  eexists. split; [vm_compute; reflexivity|]. split; [reflexivity|]. intros w Hw. exists 2. change (dget [(exA, 1)] w = Some 1) in Hw. change (dget [(exA, 2)] w = Some 2 /\ 0 < 2 /\ 3 mod 2 <> 0). cbn [dget] in Hw |- *. destruct (name_eqb w exA); [|discriminate].
  split; [reflexivity|]. split; [lia|discriminate].
Qed.

(** C12 *)
Theorem C12_invariant : forall bn f, wfnet bn -> obtainable bn f ->
  wf (ncard bn) f /\ f_bn f = bn /\ incl (f_scope f) (bn_V bn).
Proof. exact obtainable_wf. Qed.
Print Assumptions C12_invariant.
Definition c12_f := unres (factor_init ex3 exC) (mkFactor ex3 exC [] [] [] []).
Definition c12_g := unres (factor_init ex3 exB) (mkFactor ex3 exC [] [] [] []).
Definition c12_p := unres (multiply_factor rev_oracle c12_f c12_g) (c12_f, c12_g).
Definition c12_h := unres (sumout_var id_oracle (fst c12_p) exA) c12_f.
Example C12_nonvacuous : obtainable ex3 c12_h /\ length (f_cpt c12_h) = 6.
Proof.
  split; [|vm_compute; reflexivity].
  apply (ob_sumout ex3 id_oracle (fst c12_p) exA); [exact good_id| |vm_compute; reflexivity].
  apply (ob_mul ex3 rev_oracle c12_f c12_g (fst c12_p) (snd c12_p)); [exact good_rev| | |vm_compute; reflexivity].
  - apply ob_init with (v := exC); [simpl; auto|vm_compute; reflexivity].
  - apply ob_init with (v := exB); [simpl; auto|vm_compute; reflexivity].
Qed.

(** ** C65: which variable a factor calls its own *)
Lemma elect_spec cd o f' var rv : good o -> wf cd f' ->
  (rv <> var -> elect_var o var rv (f_stride f') = var) /\
  (rv = var -> f_scope f' <> [] -> In (elect_var o var rv (f_stride f')) (f_scope f') /\
     dget (f_stride f') (elect_var o var rv (f_stride f')) = Some 1) /\
  (f_scope f' = [] -> elect_var o var rv (f_stride f') = var).
Proof.
  intros Go W. unfold elect_var. split; [|split].
  - intros N. destruct (name_eqb_spec rv var); [congruence|reflexivity].
  - intros -> NE. rewrite name_eqb_refl.
    destruct (wf_ord _ _ W) as (ord & P & R). destruct ord as [|x ord].
    { apply Permutation_nil in P. congruence. }
    destruct R as [Rx _].
    assert (Hx : In x (filter (fun k => stride_key (f_stride f') k =? 1) (ask o (dkeys (f_stride f'))))).
    { apply filter_In. split.
      - apply (Permutation_in x (Permutation_sym (good_ask o _ Go))), (Permutation_in x (Permutation_sym (wf_skeys _ _ W))), (Permutation_in x P). now left.
      - unfold stride_key. now rewrite Rx. }
    destruct (filter (fun k => stride_key (f_stride f') k =? 1) (ask o (dkeys (f_stride f')))) as [|k r] eqn:F; [destruct Hx|].
    assert (Hk : In k (k :: r)) by now left. rewrite <- F in Hk. apply filter_In in Hk as [K1 K2].
    apply (Permutation_in k (good_ask o _ Go)) in K1. split; [now apply (Permutation_in k (wf_skeys _ _ W))|].
    apply Nat.eqb_eq in K2. unfold stride_key in K2. destruct (dget (f_stride f') k) as [s|]; [now subst|discriminate].
  - intros E. destruct (name_eqb_spec rv var) as [->|N]; [|reflexivity].
    assert (K : dkeys (f_stride f') = []).
    { apply Permutation_nil. rewrite <- E. symmetry. apply (wf_skeys _ _ W). }
    destruct (filter (fun k => stride_key (f_stride f') k =? 1) (ask o (dkeys (f_stride f')))) as [|k r] eqn:F; [reflexivity|].
    assert (Hk : In k (k :: r)) by now left. rewrite <- F in Hk. apply filter_In in Hk as [K1 _].
    apply (Permutation_in k (good_ask o _ Go)) in K1. rewrite K in K1. destruct K1.
Qed.
Lemma out_var_var cell el o f rv f' : out_var cell el o f rv = Ok f' -> f_var f' = (if el then elect_var o (f_var f) rv (f_stride f') else f_var f).
Proof.
  unfold out_var. intros H. destruct (getitem (f_card f) rv) as [c|]; cbn [bind] in H; [|discriminate].
  destruct (c =? 0); [discriminate|]. destruct (getitem (f_stride f) rv) as [s|]; cbn [bind] in H; [|discriminate].
  destruct (lower_cards f s) as [p|]; cbn [bind] in H; [|discriminate].
  destruct (out_loop cell (f_cpt f) p s c (length (f_cpt f) / c) 0) as [new|]; cbn [bind] in H; [|discriminate].
  destruct (delitem (f_card f) rv) as [cd'|]; cbn [bind] in H; [|discriminate].
  destruct (list_remove (f_scope f) rv) as [sc'|]; cbn [bind] in H; [|discriminate]. inversion H. reflexivity.
Qed.
Lemma reduce_var o f rv x f' : reduce_factor o f rv x = Ok f' -> f_var f' = elect_var o (f_var f) rv (f_stride f').
Proof.
  unfold reduce_factor. intros H. destruct (getitem (f_card f) rv) as [c|]; cbn [bind] in H; [|discriminate].
  destruct (c =? 0); [discriminate|]. destruct (getitem (bn_F (f_bn f)) rv) as [d|]; cbn [bind] in H; [|discriminate].
  destruct (list_index (f_values d) x) as [i|]; cbn [bind] in H; [|discriminate].
  destruct (getitem (f_stride f) rv) as [s|]; cbn [bind] in H; [|discriminate].
  destruct (reduce_loop (S (length (f_cpt f) / c)) (f_cpt f) c s (i * s) (length (f_cpt f) / c)) as [new|]; cbn [bind] in H; [|discriminate].
  destruct (delitem (f_card f) rv) as [cd'|]; cbn [bind] in H; [|discriminate].
  destruct (list_remove (f_scope f) rv) as [sc'|]; cbn [bind] in H; [|discriminate]. inversion H. reflexivity.
Qed.
(** [f'] is what is left of [f] after removing [rv], with the variable chosen as documented *)
Definition var_kept (f f' : factor) (rv : name) : Prop :=
  (rv <> f_var f -> f_var f' = f_var f) /\
  (rv = f_var f -> f_scope f' <> [] -> In (f_var f') (f_scope f') /\ dget (f_stride f') (f_var f') = Some 1) /\
  (f_scope f' = [] -> f_var f' = f_var f).
Theorem C65_sumout_var : forall cd o f rv f', good o -> wf cd f -> In rv (f_scope f) -> sumout_var o f rv = Ok f' -> var_kept f f' rv.
Proof.
  intros cd o f rv f' Go W H E. destruct (sumout_ok cd o f (val f) rv (repr_val cd f W) H) as (f2 & E2 & [W2 _] & _).
  rewrite E in E2. inversion E2; subst f2. unfold var_kept. unfold sumout_var in E. rewrite (out_var_var _ _ _ _ _ _ E). now apply (elect_spec cd).
Qed.
Print Assumptions C65_sumout_var.
Theorem C65_reduce_var : forall cd o f rv x f', good o -> wf cd f -> In rv (f_scope f) ->
  (forall d, dget (bn_F (f_bn f)) rv = Some d -> length (f_values d) = cd rv) ->
  reduce_factor o f rv x = Ok f' -> var_kept f f' rv.
Proof.
  intros cd o f rv x f' Go W H L E.
  assert (exists d i, dget (bn_F (f_bn f)) rv = Some d /\ index_of x (f_values d) = Some i) as (d & i & Hd & Hi).
  { unfold reduce_factor in E. destruct (getitem (f_card f) rv) as [c|]; cbn [bind] in E; [|discriminate].
    destruct (c =? 0); [discriminate|]. unfold getitem in E at 1. destruct (dget (bn_F (f_bn f)) rv) as [d|]; cbn [bind] in E; [|discriminate].
    exists d. unfold list_index in E. destruct (index_of x (f_values d)) as [i|]; cbn [bind] in E; [|discriminate]. eauto. }
  destruct (reduce_ok cd o f (val f) rv x i (repr_val cd f W) H) as (f2 & E2 & [W2 _] & _).
  - intros d' Hd'. rewrite Hd in Hd'. now inversion Hd'; subst.
  - congruence.
  - rewrite <- (L d Hd). now apply index_of_lt in Hi.
  - rewrite E in E2. inversion E2; subst f2. unfold var_kept. rewrite (reduce_var _ _ _ _ _ E). now apply (elect_spec cd).
Qed.
Print Assumptions C65_reduce_var.
(** maxing out the factor's own variable leaves a factor that names a variable it no longer has *)
Theorem C65_maxout_stale : forall cd f f', wf cd f -> In (f_var f) (f_scope f) -> maxout_var f (f_var f) = Ok f' ->
  f_var f' = f_var f /\ ~ In (f_var f') (f_scope f').
Proof.
  intros cd f f' W H E. destruct (maxout_ok cd f (val f) (f_var f) (repr_val cd f W) H) as (f2 & E2 & _ & S & _).
  rewrite E in E2. inversion E2; subst f2. unfold maxout_var in E. rewrite (out_var_var _ _ _ _ _ _ E). split; [reflexivity|].
  rewrite S. intros I. apply In_remove1 in I; [tauto|]. apply (wf_nodup _ _ W).
Qed.
Print Assumptions C65_maxout_stale.
(** Factor.parents of a node's own factor yields the node's parents in order; and as long as the factor names a variable of
    its own scope, parents yields the rest of the scope *)
Theorem C65_parents : forall bn v f, wfnet bn -> In v (bn_V bn) -> factor_init bn v = Ok f -> factor_parents f = nparents bn v.
Proof.
  intros bn v f W Hv E. destruct (init_ok bn v W Hv) as (f' & E' & S & Vr & _ & _ & _ & R). rewrite E in E'. inversion E'; subst f'.
  pose proof (wf_nodup _ _ (proj1 R)) as ND. unfold factor_parents. rewrite Vr. rewrite S in *. inversion ND as [|? ? N1 N2]; subst. cbn [filter].
  rewrite name_eqb_refl. cbn [negb]. clear - N1. induction (nparents bn (f_var f)) as [|x r IH]; [reflexivity|]. cbn [filter].
  destruct (name_eqb_spec x (f_var f)) as [->|Ne]; [exfalso; apply N1; now left|]. cbn [negb]. f_equal. apply IH. intros K. apply N1. now right.
Qed.
Print Assumptions C65_parents.
Theorem C65_rest_of_scope : forall cd f, wf cd f ->
  (In (f_var f) (f_scope f) -> Permutation (f_var f :: factor_parents f) (f_scope f)) /\
  (~ In (f_var f) (f_scope f) -> factor_parents f = f_scope f).
Proof.
  intros cd f W. pose proof (wf_nodup _ _ W) as ND. unfold factor_parents. split; intros H.
  - apply NoDup_Permutation; [|assumption|].
    + constructor; [|now apply NoDup_filter]. intros K. apply filter_In in K as [_ K]. now rewrite name_eqb_refl in K.
    + intros v. cbn [In]. rewrite filter_In. destruct (name_eqb_spec v (f_var f)) as [->|Ne]; cbn [negb]; intuition congruence.
  - clear ND W. induction (f_scope f) as [|x r IH]; [reflexivity|]. cbn [filter].
    destruct (name_eqb_spec x (f_var f)) as [->|Ne]; [exfalso; apply H; now left|]. cbn [negb]. f_equal. apply IH. intros K. apply H. now right.
Qed.
Print Assumptions C65_rest_of_scope.
Example C65_nonvacuous : exists f f', factor_init ex3 exC = Ok f /\ f_var f = exC /\ In exC (f_scope f) /\ sumout_var id_oracle f exC = Ok f' /\ f_var f' = exA.
Proof.
  pose (f := unres (factor_init ex3 exC) (mkFactor ex3 exA [] [] [] [])).
  pose (f' := unres (sumout_var id_oracle f exC) f).
  exists f, f'. split; [vm_compute; reflexivity|]. split; [reflexivity|]. split; [simpl; auto|]. split; vm_compute; reflexivity.
Qed.
