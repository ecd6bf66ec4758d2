(** Properties_Convention.v -- the orders of parents and of values are conventions (C152). *)
From Verif Require Import Py Num BayesNet Factor Rounding Factorization SpecFactor SpecInference SpecSample
  Radix SumOver FactorOut VE VETotal VEShape VEMap QueryErr Sampling SampleLaws Examples Properties_Inference Properties_Query Properties_Coherence Properties_Sample SpecLaw Properties_Law.
From Coq Require Import Lia Relations.
Open Scope nat_scope.

(** the assignment of value indices that gives every node [v] the value called [f v] *)
Definition pick (bn : bayesnet) (f : name -> name) : asg :=
  fun v => match val_index bn v (f v) with Some i => i | None => 0 end.
(** bn' is bn with its nodes, the parents of its nodes and the values of its nodes listed in other orders, the tables arranged
    accordingly: for any values of a node and its parents, the two tables contain the same number *)
Record reordered (bn bn' : bayesnet) : Prop := {
  ro_V : Permutation (bn_V bn) (bn_V bn');
  ro_par : forall v, In v (bn_V bn) -> Permutation (nparents bn v) (nparents bn' v);
  ro_val : forall v, In v (bn_V bn) -> Permutation (nvalues bn v) (nvalues bn' v);
  ro_cpt : forall f, (forall v, In v (bn_V bn) -> In (f v) (nvalues bn v)) ->
    forall v, In v (bn_V bn) -> cond_prob bn v (pick bn f) = cond_prob bn' v (pick bn' f) }.

Lemma qsum_values F F' (L L' : list name) : NoDup L -> Permutation L L' ->
  (forall y i j, nth_error L i = Some y -> nth_error L' j = Some y -> F i = F' j) ->
  qsum (map F (seq 0 (length L))) = qsum (map F' (seq 0 (length L'))).
Proof.
  intros ND P H. pose proof (Permutation_NoDup P ND) as ND'.
  set (pos := fun (M : list name) y => match index_of y M with Some i => i | None => 0 end).
  assert (G : forall (G : nat -> Qc) M, NoDup M -> map G (seq 0 (length M)) = map (fun y => G (pos M y)) M).
  { intros G M N. transitivity (map (fun y => G (pos M y)) (map (fun k => nth k M (nm "")) (seq 0 (length M)))); [|now rewrite map_nth_seq]. rewrite map_map. apply map_ext_in. intros i Hi. apply in_seq in Hi.
    unfold pos. rewrite (index_of_nth M i _ N); [reflexivity|]. apply nth_error_nth'. lia. }
  rewrite (G F L ND), (G F' L' ND'). rewrite <- (qsum_perm _ _ (Permutation_map (fun y => F' (pos L' y)) P)).
  apply qsum_map_ext. intros y Hy. pose proof (Permutation_in _ P Hy) as Hy'.
  destruct (index_of_In _ _ Hy) as (i & Hi). destruct (index_of_In _ _ Hy') as (j & Hj). unfold pos. rewrite Hi, Hj.
  apply (H y); now apply index_of_Some.
Qed.

Section Reordering.
Variables bn bn' : bayesnet.
Hypotheses (W : wfnet bn) (W' : wfnet bn') (R : reordered bn bn').

(** [a] and [a'] give [v] the same value *)
Definition same_at (a a' : asg) (v : name) : Prop := exists y, nth_error (nvalues bn v) (a v) = Some y /\ nth_error (nvalues bn' v) (a' v) = Some y.
Lemma ro_in v : In v (bn_V bn) -> In v (bn_V bn'). Proof. apply Permutation_in, R. Qed.
Lemma same_names a a' : (forall v, In v (bn_V bn) -> same_at a a' v) ->
  exists f, forall v, In v (bn_V bn) -> In (f v) (nvalues bn v) /\ a v = pick bn f v /\ a' v = pick bn' f v.
Proof.
  intros H. exists (fun v => nth (a v) (nvalues bn v) (nm "")). intros v Hv. destruct (H v Hv) as (y & A & B).
  rewrite (nth_error_nth _ _ _ A). split; [eapply nth_error_In; eassumption|]. unfold pick, val_index. rewrite (nth_error_nth _ _ _ A).
  rewrite (index_of_nth _ _ _ (proj1 (wn_vals _ W v Hv)) A). rewrite (index_of_nth _ _ _ (proj1 (wn_vals _ W' v (ro_in v Hv))) B). auto.
Qed.
Lemma ro_joint a a' : (forall v, In v (bn_V bn) -> same_at a a' v) -> joint bn a = joint bn' a'.
Proof.
  intros H. destruct (same_names a a' H) as (f & Hf).
  rewrite (joint_cong bn a (pick bn f) W) by (intros v Hv; apply (Hf v Hv)).
  rewrite (joint_cong bn' a' (pick bn' f) W') by (intros v Hv; apply (Permutation_in _ (Permutation_sym (ro_V _ _ R))) in Hv; apply (Hf v Hv)).
  unfold joint. rewrite <- (qprod_perm _ _ (Permutation_map (fun v => getq (cond_prob bn' v (pick bn' f))) (ro_V _ _ R))).
  apply qprod_map_ext. intros v Hv. f_equal. apply (ro_cpt _ _ R f); [intros u Hu; apply (Hf u Hu)|exact Hv].
Qed.
Lemma same_upd a a' v i j y : nth_error (nvalues bn v) i = Some y -> nth_error (nvalues bn' v) j = Some y ->
  forall w, (w <> v -> same_at a a' w) -> same_at (upd a v i) (upd a' v j) w.
Proof.
  intros A B w H. unfold same_at, upd. destruct (name_eqb_spec w v) as [-> |N]; [exists y; now split|now apply H].
Qed.
Lemma ro_sum (phi phi' : asg -> Qc) : (forall a a', (forall v, In v (bn_V bn) -> same_at a a' v) -> phi a = phi' a') ->
  forall l a a', NoDup l -> incl l (bn_V bn) -> (forall v, In v (bn_V bn) -> ~ In v l -> same_at a a' v) ->
  sum_over (ncard bn) l phi a = sum_over (ncard bn') l phi' a'.
Proof.
  intros H. induction l as [|v l IH]; intros a a' ND I C; [apply H; intros v Hv; apply C; auto|]. cbn [sum_over]. unfold sum_values.
  apply NoDup_cons_iff in ND as [Nv ND]. assert (Hv : In v (bn_V bn)) by (apply I; now left). rewrite !ncard_values.
  apply qsum_values; [apply (wn_vals _ W v Hv)|now apply R|]. intros y i j A B. apply IH; [assumption|intros w Hw; apply I; now right|].
  intros w Hw Nw. apply (same_upd a a' v i j y A B). intros N. apply C; [assumption|]. intros [E|K]; [now apply N|contradiction].
Qed.
Lemma same_index a a' v x : In v (bn_V bn) -> same_at a a' v ->
  match val_index bn v x with Some i => a v =? i | None => false end = match val_index bn' v x with Some i => a' v =? i | None => false end.
Proof.
  intros Hv (y & A & B). pose proof (proj1 (wn_vals _ W v Hv)) as N. pose proof (proj1 (wn_vals _ W' v (ro_in v Hv))) as N'.
  unfold val_index. destruct (name_eqb_spec x y) as [-> |D].
  - rewrite (index_of_nth _ _ _ N A), (index_of_nth _ _ _ N' B). now rewrite !Nat.eqb_refl.
  - assert (K : forall M i k, nth_error M i = Some y -> index_of x M = Some k -> (i =? k) = false).
    { intros M i k Hi Hk. apply index_of_Some in Hk. apply Nat.eqb_neq. intros ->. congruence. }
    assert (Q : In x (nvalues bn v) <-> In x (nvalues bn' v)).
    { split; apply Permutation_in; [now apply R|apply Permutation_sym; now apply R]. }
    destruct (index_of x (nvalues bn v)) as [i|] eqn:Ei; destruct (index_of x (nvalues bn' v)) as [j|] eqn:Ej;
      rewrite ?(K _ _ _ A Ei), ?(K _ _ _ B Ej); reflexivity.
Qed.
Lemma same_agrees ev a a' : (forall v x, In (v, x) ev -> In v (bn_V bn)) -> (forall v, In v (bn_V bn) -> same_at a a' v) -> agrees bn ev a = agrees bn' ev a'.
Proof.
  intros H C. unfold agrees. induction ev as [|[v x] l IH]; [reflexivity|]. cbn [forallb fst snd]. assert (Hv : In v (bn_V bn)) by (apply (H v x); now left).
  rewrite (same_index a a' v x Hv (C v Hv)). f_equal. apply IH. intros w y K. apply (H w y). now right.
Qed.
Lemma ro_marginal t ev i j x : In t (bn_V bn) -> (forall v x, In (v, x) ev -> In v (bn_V bn)) ->
  val_index bn t x = Some i -> val_index bn' t x = Some j -> marginal bn t ev i = marginal bn' t ev j.
Proof.
  intros Ht H Hi Hj. unfold marginal, prob_of. rewrite (sum_over_perm (ncard bn') (bn_V bn') (bn_V bn)); [| |apply W'|apply Permutation_sym, R].
  - apply ro_sum; [|apply W|apply incl_refl|intros v Hv N; contradiction]. intros a a' C.
    rewrite (same_agrees ev a a' H C), (ro_joint a a' C). pose proof (same_index a a' t x Ht (C t Ht)) as E. rewrite Hi, Hj in E. now rewrite E.
  - intros a b E. rewrite (agrees_ext bn' ev a b E), (joint_ext bn' a b E), (E t). reflexivity.
Qed.
End Reordering.

Lemma pick_same bn bn' f v : wfnet bn -> wfnet bn' -> reordered bn bn' -> In v (bn_V bn) -> In (f v) (nvalues bn v) ->
  nth_error (nvalues bn v) (pick bn f v) = Some (f v) /\ nth_error (nvalues bn' v) (pick bn' f v) = Some (f v).
Proof.
  intros W W' R Hv Hf. unfold pick, val_index. destruct (index_of_In _ _ Hf) as (i & Hi).
  destruct (index_of_In _ _ (Permutation_in _ (ro_val _ _ R v Hv) Hf)) as (j & Hj). rewrite Hi, Hj. split; now apply index_of_Some.
Qed.
Lemma reordered_sym bn bn' : wfnet bn -> reordered bn bn' -> reordered bn' bn.
Proof.
  intros W [P Q V C]. assert (I : forall v, In v (bn_V bn') -> In v (bn_V bn)) by (intros v; apply Permutation_in; now apply Permutation_sym). constructor.
  - now apply Permutation_sym.
  - intros v Hv. apply Permutation_sym, Q, I, Hv.
  - intros v Hv. apply Permutation_sym, V, I, Hv.
  - intros f Hf v Hv. symmetry. apply C; [|now apply I]. intros u Hu. apply (Permutation_in _ (Permutation_sym (V u Hu))). apply Hf. now apply (Permutation_in _ P).
Qed.
Lemma reordered_answerable bn bn' t ev : reordered bn bn' -> answerable bn t ev -> answerable bn' t ev.
Proof.
  intros R [A B]. split; [now apply (Permutation_in _ (ro_V _ _ R))|]. intros v x K. destruct (B v x K) as (B1 & B2 & B3).
  split; [now apply (Permutation_in _ (ro_V _ _ R))|]. split; [exact B2|]. now apply (Permutation_in _ (ro_val _ _ R v B1)).
Qed.
Lemma reordered_connected bn bn' f : reordered bn bn' -> connected bn f -> connected bn' f.
Proof.
  intros R C u w Hu Hw. pose proof (ro_V _ _ R) as P. apply (Permutation_in _ (Permutation_sym P)) in Hu, Hw. specialize (C u w Hu Hw). clear Hu Hw.
  induction C as [u w (H1 & H2 & x & H3 & H4 & H5)|u|u y w C1 IH1 C2 IH2]; [|apply rt_refl|eapply rt_trans; eauto].
  apply rt_step. split; [now apply (Permutation_in _ P)|]. split; [now apply (Permutation_in _ P)|]. exists x. split; [assumption|].
  assert (F : forall v, In v (bn_V bn) -> In x (v :: nparents bn v) -> In x (v :: nparents bn' v)).
  { intros v Hv [<-|K]; [now left|right]. now apply (Permutation_in _ (ro_par _ _ R v Hv)). }
  split; now apply F.
Qed.
Lemma reordered_evidence bn bn' ev : reordered bn bn' -> good_evidence bn ev -> good_evidence bn' ev.
Proof.
  intros R [A B]. split; [exact A|]. intros v x K. destruct (B v x K) as (B1 & B2).
  split; [now apply (Permutation_in _ (ro_V _ _ R))|]. now apply (Permutation_in _ (ro_val _ _ R v B1)).
Qed.

(** every query ends in the same way: the same exception, or for each value of the target the same number, at the position of this
    value in each network *)
Theorem C152_marginals : forall bn bn' t ev o o', wfnet bn -> wfnet bn' -> reordered bn bn' -> good o -> good o' -> NoDup (map fst ev) ->
  match marginal_ve_e o bn t ev, marginal_ve_e o' bn' t ev with
  | Ok l, Ok l' => Permutation l l' /\ forall x, In x (nvalues bn t) -> exists i j p,
      nth_error (nvalues bn t) i = Some x /\ nth_error (nvalues bn' t) j = Some x /\ nth_error l i = Some p /\ nth_error l' j = Some p
  | Raise e, Raise e' => e = e'
  | _, _ => False
  end.
Proof.
  intros bn bn' t ev o o' W W' R G G' ND. pose proof (reordered_sym _ _ W R) as R'.
  destruct (query_ends bn t ev o W ND G) as [(A1 & E1)|[(A1 & C1 & E1)|(A1 & C1 & E1)]];
  destruct (query_ends bn' t ev o' W' ND G') as [(A2 & E2)|[(A2 & C2 & E2)|(A2 & C2 & E2)]]; rewrite E1, E2;
    try (exfalso; first [apply A1; now apply (reordered_answerable bn')|apply A2; now apply (reordered_answerable bn)|apply C1; now apply (reordered_connected bn')|apply C2; now apply (reordered_connected bn)]);
    try reflexivity.
  destruct A1 as [Ht A1]. pose proof (proj1 A2) as Ht'. assert (K : forall v x, In (v, x) ev -> In v (bn_V bn)) by (intros v x H; now destruct (A1 v x H)).
  pose proof (ro_val _ _ R t Ht) as PV.
  assert (M : forall x i j, nth_error (nvalues bn t) i = Some x -> nth_error (nvalues bn' t) j = Some x -> marginal bn t ev i = marginal bn' t ev j).
  { intros x i j Hi Hj. apply (ro_marginal bn bn' W W' R t ev i j x Ht K); unfold val_index; apply index_of_nth; try assumption; [apply (wn_vals _ W t Ht)|apply (wn_vals _ W' t Ht')]. }
  split.
  - set (pos := fun (L : list name) y => match index_of y L with Some i => i | None => 0 end).
    assert (Q : forall b, wfnet b -> In t (bn_V b) -> map (fun x => np_round 4 (marginal b t ev x)) (seq 0 (ncard b t)) = map (fun y => np_round 4 (marginal b t ev (pos (nvalues b t) y))) (nvalues b t)).
    { intros b Wb Hb. rewrite ncard_values. set (Q := fun y => np_round 4 (marginal b t ev (pos (nvalues b t) y))). transitivity (map Q (map (fun k => nth k (nvalues b t) (nm "")) (seq 0 (length (nvalues b t))))); [|now rewrite map_nth_seq]. unfold Q. rewrite map_map. apply map_ext_in. intros i Hi. apply in_seq in Hi.
      unfold pos. rewrite (index_of_nth (nvalues b t) i _ (proj1 (wn_vals _ Wb t Hb))); [reflexivity|]. apply nth_error_nth'. lia. }
    rewrite (Q bn W Ht), (Q bn' W' Ht').
    rewrite <- (Permutation_map (fun y => np_round 4 (marginal bn' t ev (pos (nvalues bn' t) y))) PV).
    erewrite map_ext_in; [apply Permutation_refl|]. intros y Hy. cbn beta. apply (f_equal (np_round 4)).
    destruct (index_of_In _ _ Hy) as (i & Hi). destruct (index_of_In _ _ (Permutation_in _ PV Hy)) as (j & Hj). unfold pos. rewrite Hi, Hj. apply (M y); now apply index_of_Some.
  - intros x Hx. destruct (index_of_In _ _ Hx) as (i & Hi). destruct (index_of_In _ _ (Permutation_in _ PV Hx)) as (j & Hj).
    pose proof (index_of_Some _ _ _ Hi) as Ni. pose proof (index_of_Some _ _ _ Hj) as Nj.
    exists i, j, (np_round 4 (marginal bn t ev i)). split; [exact Ni|]. split; [exact Nj|]. split.
    + apply nth_error_answer. rewrite ncard_values. apply nth_error_Some. congruence.
    + rewrite (M x i j Ni Nj). apply nth_error_answer. rewrite ncard_values. apply nth_error_Some. congruence.
Qed.
Print Assumptions C152_marginals.

(** the most probable explanations are those of the other network, and the probability reported is the same *)
Lemma asg_of_same bn bn' m v : wfnet bn -> wfnet bn' -> reordered bn bn' -> In v (bn_V bn) -> (exists x, dget m v = Some x /\ In x (nvalues bn v)) ->
  same_at bn bn' (asg_of bn m) (asg_of bn' m) v.
Proof.
  intros W W' R Hv (x & D & Hx). exists x. unfold asg_of, val_index. rewrite D.
  destruct (index_of_In _ _ Hx) as (i & Hi). destruct (index_of_In _ _ (Permutation_in _ (ro_val _ _ R v Hv) Hx)) as (j & Hj). rewrite Hi, Hj.
  split; now apply index_of_Some.
Qed.
Theorem C152_explanations : forall bn bn' ev o o', wfnet bn -> wfnet bn' -> nonneg_net bn -> nonneg_net bn' -> reordered bn bn' -> good o -> good o' ->
  good_evidence bn ev -> bn_V bn <> [] ->
  exists m m', ve_map o bn ev = Ok m /\ ve_map o' bn' ev = Ok m' /\
    joint bn (asg_of bn m') = joint bn (asg_of bn m) /\ joint bn' (asg_of bn' m') = joint bn (asg_of bn m) /\
    ((exists q, ve_map_prob o bn ev = Ok (q, m) /\ ve_map_prob o' bn' ev = Ok (q, m')) \/
     (ve_map_prob o bn ev = Raise NameError /\ ve_map_prob o' bn' ev = Raise NameError)).
Proof.
  intros bn bn' ev o o' W W' N N' R G G' GE NE. pose proof (reordered_sym _ _ W R) as R'. pose proof (reordered_evidence _ _ _ R GE) as GE'.
  pose proof (ro_V _ _ R) as P.
  assert (NE' : bn_V bn' <> []). { intros E. apply NE. rewrite E in P. now apply Permutation_sym, Permutation_nil in P. }
  destruct (C16_ve_map bn ev o W N GE G) as (m & E1 & V1 & A1 & O1). destruct (C16_ve_map bn' ev o' W' N' GE' G') as (m' & E2 & V2 & A2 & O2).
  assert (V12 : forall v, In v (bn_V bn') -> exists x, dget m v = Some x /\ In x (nvalues bn' v)).
  { intros v Hv. apply (Permutation_in _ (Permutation_sym P)) in Hv. destruct (V1 v Hv) as (x & B1 & B2). exists x. split; [exact B1|]. now apply (Permutation_in _ (ro_val _ _ R v Hv)). }
  assert (V21 : forall v, In v (bn_V bn) -> exists x, dget m' v = Some x /\ In x (nvalues bn v)).
  { intros v Hv. destruct (V2 v (Permutation_in _ P Hv)) as (x & B1 & B2). exists x. split; [exact B1|]. now apply (Permutation_in _ (Permutation_sym (ro_val _ _ R v Hv))). }
  assert (K1 : joint bn (asg_of bn m) = joint bn' (asg_of bn' m)).
  { apply (ro_joint bn bn' W W' R). intros v Hv. apply asg_of_same; auto. }
  assert (K2 : joint bn (asg_of bn m') = joint bn' (asg_of bn' m')).
  { apply (ro_joint bn bn' W W' R). intros v Hv. apply asg_of_same; auto. }
  assert (J : joint bn (asg_of bn m') = joint bn (asg_of bn m)).
  { apply Qcle_antisym.
    - apply O1; [now apply asg_of_valid|now apply asg_of_agrees].
    - rewrite K1, K2. apply O2; [now apply asg_of_valid|now apply asg_of_agrees]. }
  exists m, m'. split; [exact E1|]. split; [exact E2|]. split; [exact J|]. split; [now rewrite <- K2|].
  destruct (ve_map_prob_result bn ev o W N GE G NE) as [(C1 & a & Ea & Pa)|(C1 & Pa)];
  destruct (ve_map_prob_result bn' ev o' W' N' GE' G' NE') as [(C2 & b & Eb & Pb)|(C2 & Pb)];
    try (exfalso; first [apply C1; now apply (reordered_connected bn')|apply C2; now apply (reordered_connected bn)]).
  - left. rewrite E1 in Ea. rewrite E2 in Eb. inversion Ea. inversion Eb. subst a b. exists (py_round 5 (joint bn (asg_of bn m))). split; [exact Pa|]. rewrite Pb. rewrite <- K2, J. reflexivity.
  - right. auto.
Qed.
Print Assumptions C152_explanations.

(** the network A -> B, A -> C, B -> C with the parents of C and the values of B listed in other orders *)
Definition ex3o : bayesnet :=
  mkBN [exA; exB; exC] [(exA, [exB; exC]); (exB, [exC]); (exC, [])]
       [(exA, mkF [] [nm "0"; nm "1"] [qq 2 5; qq 3 5]);
        (exB, mkF [exA] [nm "2"; nm "0"; nm "1"] [qq 3 5; qq 1 5; qq 1 5; qq 1 4; qq 1 2; qq 1 4]);
        (exC, mkF [exB; exA] [nm "0"; nm "1"]
           [qq 1 2; qq 1 2; qq 1 10; qq 9 10; qq 3 10; qq 7 10;
            qq 6 10; qq 4 10; qq 2 10; qq 8 10; qq 4 10; qq 6 10])].
Lemma ex3o_reordered : reordered ex3 ex3o.
Proof.
  constructor.
  - reflexivity.
  - intros v [<-|[<-|[<-|[]]]]; [reflexivity|reflexivity|]. apply perm_swap.
  - intros v [<-|[<-|[<-|[]]]]; [reflexivity| |reflexivity]. change (Permutation [nm "0"; nm "1"; nm "2"] [nm "2"; nm "0"; nm "1"]).
    apply perm_trans with [nm "0"; nm "2"; nm "1"]; [apply perm_skip, perm_swap|apply perm_swap].
  - intros f Hf v Hv. pose proof (Hf exA (or_introl eq_refl)) as FA. pose proof (Hf exB (or_intror (or_introl eq_refl))) as FB.
    pose proof (Hf exC (or_intror (or_intror (or_introl eq_refl)))) as FC.
    assert (E : forall b w y, f w = y -> pick b f w = match val_index b w y with Some i => i | None => 0 end) by (intros b w y <-; reflexivity).
    destruct FA as [FA|[FA|[]]]; destruct FB as [FB|[FB|[FB|[]]]]; destruct FC as [FC|[FC|[]]]; symmetry in FA, FB, FC;
    destruct Hv as [<-|[<-|[<-|[]]]]; unfold cond_prob;
    try (change (nparents ex3 exA) with (@nil name); change (nparents ex3o exA) with (@nil name));
    try (change (nparents ex3 exB) with [exA]; change (nparents ex3o exB) with [exA]);
    try (change (nparents ex3 exC) with [exA; exB]; change (nparents ex3o exC) with [exB; exA]);
    cbn [radix]; rewrite ?(E ex3 exA _ FA), ?(E ex3 exB _ FB), ?(E ex3 exC _ FC), ?(E ex3o exA _ FA), ?(E ex3o exB _ FB), ?(E ex3o exC _ FC); reflexivity.
Qed.
Lemma ex3o_nonneg : nonneg_net ex3o.
Proof. intros v x [<-|[<-|[<-|[]]]] Hx; vm_compute in Hx; repeat (destruct Hx as [<-|Hx]; [vm_compute; discriminate|]); destruct Hx. Qed.
Example C152_nonvacuous : wfnet ex3 /\ wfnet ex3o /\ nonneg_net ex3 /\ nonneg_net ex3o /\ reordered ex3 ex3o /\ good_evidence ex3 [(exC, nm "1")] /\
  (exists l l', marginal_ve_e id_oracle ex3 exB [(exC, nm "1")] = Ok l /\ marginal_ve_e rev_oracle ex3o exB [(exC, nm "1")] = Ok l' /\
     map this l = [39 # 125; 73 # 500; 9 # 50]%Q /\ map this l' = [9 # 50; 39 # 125; 73 # 500]%Q).
Proof.
  split; [exact ex3_wf|]. split; [apply wfnetb_ok; vm_compute; reflexivity|]. split; [apply C15_nonvacuous|]. split; [exact ex3o_nonneg|]. split; [exact ex3o_reordered|].
  split. { split; [repeat constructor; intros []|]. intros v x [E|[]]. injection E as <- <-. split; simpl; auto. }
  do 2 eexists. split; [vm_compute; reflexivity|]. split; [vm_compute; reflexivity|]. split; vm_compute; reflexivity.
Qed.
(** where several explanations are equally probable, which one is returned does depend on the order of the values *)
Definition coin (l : list name) : bayesnet := mkBN [exA; exB] [(exA, [exB]); (exB, [])]
  [(exA, mkF [] l [qq 1 2; qq 1 2]); (exB, mkF [exA] [nm "0"; nm "1"] [qq 1 4; qq 3 4; qq 1 4; qq 3 4])].
Theorem C152_tie_refuted : exists bn bn' m m', wfnet bn /\ wfnet bn' /\ nonneg_net bn /\ nonneg_net bn' /\ reordered bn bn' /\
  ve_map id_oracle bn [] = Ok m /\ ve_map id_oracle bn' [] = Ok m' /\ dget m exA = Some (nm "0") /\ dget m' exA = Some (nm "1").
Proof.
  exists (coin [nm "0"; nm "1"]), (coin [nm "1"; nm "0"]).
  assert (N : forall l, nonneg_net (coin l)).
  { intros l v x [<-|[<-|[]]] Hx; vm_compute in Hx; repeat (destruct Hx as [<-|Hx]; [vm_compute; discriminate|]); destruct Hx. }
  assert (NA : forall l, nparents (coin l) exA = []) by reflexivity. assert (NB : forall l, nparents (coin l) exB = [exA]) by reflexivity.
  do 2 eexists. split; [apply wfnetb_ok; vm_compute; reflexivity|]. split; [apply wfnetb_ok; vm_compute; reflexivity|]. split; [apply N|]. split; [apply N|]. split.
  { constructor; [reflexivity|intros v [<-|[<-|[]]]; reflexivity|intros v [<-|[<-|[]]]; [apply perm_swap|reflexivity]|].
    intros f Hf v Hv. pose proof (Hf exA (or_introl eq_refl)) as FA. pose proof (Hf exB (or_intror (or_introl eq_refl))) as FB.
    assert (E : forall b w y, f w = y -> pick b f w = match val_index b w y with Some i => i | None => 0 end) by (intros b w y <-; reflexivity).
    destruct FA as [FA|[FA|[]]]; destruct FB as [FB|[FB|[]]]; symmetry in FA, FB;
    destruct Hv as [<-|[<-|[]]]; unfold cond_prob;
    try (rewrite (NA [nm "0"; nm "1"]), (NA [nm "1"; nm "0"])); try (rewrite (NB [nm "0"; nm "1"]), (NB [nm "1"; nm "0"]));
    cbn [radix]; rewrite ?(E _ exA _ FA), ?(E _ exB _ FB); reflexivity. }
  split; [vm_compute; reflexivity|]. split; [vm_compute; reflexivity|]. split; reflexivity.
Qed.
Print Assumptions C152_tie_refuted.

(** if both lists of nodes are topological, random_sample draws any given table of named values from both with the same frequency
    (over all streams of draws on a grid fine enough for the tables) *)
Theorem C152_same_law : forall bn bn' M d o o' junk junk' n (f : nat -> name -> name), wfnet bn -> wfnet bn' -> nonneg_net bn -> nonneg_net bn' -> normalised bn -> normalised bn' ->
  nodes_topological bn -> nodes_topological bn' -> reordered bn bn' -> denominator bn M -> denominator bn' M -> positions d ->
  (forall i v, i < n -> In v (bn_V bn) -> In (f i v) (nvalues bn v)) ->
  fraction (cells M n (length (bn_V bn)))
    (fun c => same_table (random_sample o bn (junk c) (draws M d c) n) (map (fun i => map (fun v => Z.of_nat (pick bn (f i) v)) (bn_V bn)) (seq 0 n))) =
  fraction (cells M n (length (bn_V bn')))
    (fun c => same_table (random_sample o' bn' (junk' c) (draws M d c) n) (map (fun i => map (fun v => Z.of_nat (pick bn' (f i) v)) (bn_V bn')) (seq 0 n))).
Proof.
  intros bn bn' M d o o' junk junk' n f W W' N N' O O' T T' R D D' Pd Hf.
  assert (V : forall i v, i < n -> In v (bn_V bn) -> same_at bn bn' (pick bn (f i)) (pick bn' (f i)) v).
  { intros i v Hi Hv. exists (f i v). apply (pick_same bn bn'); auto. }
  rewrite (C111_independent_rows bn M d o junk n (fun i => pick bn (f i)) W N O T D Pd).
  2:{ intros i Hi v Hv. destruct (V i v Hi Hv) as (y & A & _). rewrite ncard_values. apply nth_error_Some. congruence. }
  rewrite (C111_independent_rows bn' M d o' junk' n (fun i => pick bn' (f i)) W' N' O' T' D' Pd).
  - apply qprod_map_ext. intros i Hi. apply in_seq in Hi. apply (ro_joint bn bn' W W' R). intros v Hv. apply V; [lia|exact Hv].
  - intros i Hi v Hv. apply (Permutation_in _ (Permutation_sym (ro_V _ _ R))) in Hv. destruct (V i v Hi Hv) as (y & _ & B). rewrite ncard_values. apply nth_error_Some. congruence.
Qed.
Print Assumptions C152_same_law.
Lemma ex3o_den : denominator ex3o 20.
Proof.
  split; [lia|]. intros v p Hv Hp.
  assert (G : forallb (fun v => forallb (fun p => if in_dec Qc_eq_dec p (map (fun z => (nQc z / nQc 20)%Qc) (seq 0 21)) then true else false) (ncpt ex3o v)) (bn_V ex3o) = true) by (vm_compute; reflexivity).
  rewrite forallb_forall in G. specialize (G v Hv). rewrite forallb_forall in G. specialize (G p Hp).
  destruct (in_dec _ _ _) as [I|]; [|discriminate]. apply in_map_iff in I as (z & E & _). exists z. symmetry. exact E.
Qed.
Lemma ex3o_top : nodes_topological ex3o.
Proof.
  intros p v q E. destruct p as [|x [|y [|z [|w p]]]]; cbn in E; injection E; intros; subst; try discriminate; apply inclb_ok; reflexivity.
Qed.
Lemma ex3o_norm : normalised ex3o.
Proof.
  intros v a Hv V.
  assert (HA : a exA < 2) by (apply (V exA); simpl; auto). assert (HB : a exB < 3) by (apply (V exB); simpl; auto).
  destruct Hv as [<-|[<-|[<-|[]]]].
  - apply Qc_eq_Q. vm_compute. reflexivity.
  - unfold cond_prob, radix, nparents. simpl. unfold upd. simpl.
    destruct (a exA) as [|[|k]]; [| |lia]; apply Qc_eq_Q; vm_compute; reflexivity.
  - unfold cond_prob, radix, nparents. simpl. unfold upd. simpl.
    destruct (a exA) as [|[|k]]; [| |lia]; (destruct (a exB) as [|[|[|k]]]; [| | |lia]); apply Qc_eq_Q; vm_compute; reflexivity.
Qed.
Example C152_nonvacuous2 : wfnet ex3 /\ wfnet ex3o /\ nonneg_net ex3 /\ nonneg_net ex3o /\ normalised ex3 /\ normalised ex3o /\ nodes_topological ex3 /\ nodes_topological ex3o /\
  reordered ex3 ex3o /\ denominator ex3 20 /\ denominator ex3o 20 /\
  forall i v, i < 2 -> In v (bn_V ex3) -> In (nth i [nm "0"; nm "1"] (nm "0")) (nvalues ex3 v).
Proof.
  destruct C152_nonvacuous as (A & B & C & D & E & _). split; [exact A|]. split; [exact B|]. split; [exact C|]. split; [exact D|]. split; [apply ex3_norm|]. split; [apply ex3o_norm|].
  split; [exact ex3_top|]. split; [exact ex3o_top|]. split; [exact E|]. split; [exact ex3_den|]. split; [exact ex3o_den|].
  intros i v Hi Hv. destruct i as [|[|]]; [| |lia]; destruct Hv as [<-|[<-|[<-|[]]]]; vm_compute; auto.
Qed.
