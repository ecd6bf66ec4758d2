(** Properties_Rename.v -- names carry no meaning: renaming nodes and values does not change the answers (C144). *)
From Verif Require Import Py Num BayesNet Factor Rounding Factorization SpecFactor SpecInference
  Radix SumOver FactorOut VE VETotal VEShape VEMap QueryErr Examples Properties_Inference Properties_Query Properties_Coherence.
From Coq Require Import Lia Relations.
Open Scope nat_scope.

(** bn' is bn with node v called [r v] and value x of node v called [s v x]; tables and parent lists in the same order *)
Record renamed (r : name -> name) (s : name -> name -> name) (bn bn' : bayesnet) : Prop := {
  rn_V : Permutation (bn_V bn') (map r (bn_V bn));
  rn_inj : forall u v, In u (bn_V bn) -> In v (bn_V bn) -> r u = r v -> u = v;
  rn_par : forall v, In v (bn_V bn) -> nparents bn' (r v) = map r (nparents bn v);
  rn_val : forall v, In v (bn_V bn) -> nvalues bn' (r v) = map (s v) (nvalues bn v);
  rn_sinj : forall v x y, In v (bn_V bn) -> In x (nvalues bn v) -> In y (nvalues bn v) -> s v x = s v y -> x = y;
  rn_cpt : forall v, In v (bn_V bn) -> ncpt bn' (r v) = ncpt bn v }.

Lemma NoDup_map_in {A B} (f : A -> B) l : NoDup l -> (forall x y, In x l -> In y l -> f x = f y -> x = y) -> NoDup (map f l).
Proof.
  induction 1 as [|x l N ND IH]; intros I; cbn [map]; constructor.
  - intros H. apply in_map_iff in H as (y & E & Hy). apply N. rewrite (I x y); [assumption|now left|now right|now symmetry].
  - apply IH. intros y z Hy Hz. apply I; now right.
Qed.
Lemma index_of_map f l x : In x l -> (forall y, In y l -> f x = f y -> x = y) -> index_of (f x) (map f l) = index_of x l.
Proof.
  induction l as [|y l IH]; intros Hx I; [destruct Hx|]. cbn [map index_of].
  destruct (name_eqb_spec x y) as [-> |N].
  - now rewrite name_eqb_refl.
  - destruct (name_eqb_spec (f x) (f y)) as [E|_]; [destruct N; apply I; [now left|assumption]|].
    destruct Hx as [->|Hx]; [congruence|]. rewrite IH; [reflexivity|assumption|]. intros z Hz. apply I. now right.
Qed.

Section Renaming.
Variables (r : name -> name) (s : name -> name -> name) (bn bn' : bayesnet).
Hypotheses (W : wfnet bn) (R : renamed r s bn bn').

Lemma rn_card v : In v (bn_V bn) -> ncard bn' (r v) = ncard bn v.
Proof. intros H. rewrite !ncard_values. rewrite (rn_val _ _ _ _ R v H). apply map_length. Qed.
Lemma rn_in v : In v (bn_V bn) -> In (r v) (bn_V bn').
Proof. intros H. apply (Permutation_in _ (Permutation_sym (rn_V _ _ _ _ R))). now apply in_map. Qed.
Lemma rn_out w : In w (bn_V bn') -> exists v, In v (bn_V bn) /\ w = r v.
Proof. intros H. apply (Permutation_in _ (rn_V _ _ _ _ R)) in H. apply in_map_iff in H as (v & <- & Hv). eauto. Qed.
Lemma rn_fam v : In v (bn_V bn) -> incl (v :: nparents bn v) (bn_V bn).
Proof. intros H w [<-|K]; [assumption|now apply (wn_par _ W v)]. Qed.
Lemma rn_wf : wfnet bn'.
Proof.
  constructor.
  - apply (Permutation_NoDup (Permutation_sym (rn_V _ _ _ _ R))). apply NoDup_map_in; [apply W|]. intros x y. apply (rn_inj _ _ _ _ R).
  - intros w Hw. destruct (rn_out w Hw) as (v & Hv & ->). pose proof (rn_val _ _ _ _ R v Hv) as E. destruct (wn_vals _ W v Hv) as [_ NE].
    unfold nvalues in E at 1. destruct (dget (bn_F bn') (r v)) as [d|]; [eauto|]. destruct (nvalues bn v); [congruence|discriminate].
  - intros w Hw. destruct (rn_out w Hw) as (v & Hv & ->). rewrite (rn_par _ _ _ _ R v Hv). change (NoDup (map r (v :: nparents bn v))).
    apply NoDup_map_in; [now apply W|]. intros x y Hx Hy. apply (rn_inj _ _ _ _ R); now apply (rn_fam v).
  - intros w Hw. destruct (rn_out w Hw) as (v & Hv & ->). rewrite (rn_par _ _ _ _ R v Hv). intros u Hu. apply in_map_iff in Hu as (x & <- & Hx).
    apply rn_in. apply (rn_fam v Hv). now right.
  - intros w Hw. destruct (rn_out w Hw) as (v & Hv & ->). rewrite (rn_val _ _ _ _ R v Hv). destruct (wn_vals _ W v Hv) as [N NE]. split.
    + apply NoDup_map_in; [assumption|]. intros x y. now apply (rn_sinj _ _ _ _ R).
    + destruct (nvalues bn v); [congruence|discriminate].
  - intros w Hw. destruct (rn_out w Hw) as (v & Hv & ->). rewrite (rn_cpt _ _ _ _ R v Hv), (rn_par _ _ _ _ R v Hv), (wn_cpt _ W v Hv).
    change (r v :: map r (nparents bn v)) with (map r (v :: nparents bn v)). rewrite map_map. f_equal. apply map_ext_in.
    intros x Hx. symmetry. apply rn_card. now apply (rn_fam v).
Qed.
(** assignments correspond *)
Definition corr (a' a : asg) : Prop := forall v, In v (bn_V bn) -> a' (r v) = a v.
Lemma rn_radix a' a l : corr a' a -> incl l (bn_V bn) -> radix (ncard bn') (map r l) a' = radix (ncard bn) l a.
Proof.
  intros C. induction l as [|v l IH]; intros I; [reflexivity|]. cbn [map radix].
  rewrite (C v), rn_card, IH; [reflexivity| | |]; try (apply I; now left). intros w Hw. apply I. now right.
Qed.
Lemma rn_cond a' a v : corr a' a -> In v (bn_V bn) -> cond_prob bn' (r v) a' = cond_prob bn v a.
Proof.
  intros C Hv. unfold cond_prob. rewrite (rn_cpt _ _ _ _ R v Hv), (rn_par _ _ _ _ R v Hv). f_equal.
  change (r v :: map r (nparents bn v)) with (map r (v :: nparents bn v)). apply rn_radix; [assumption|now apply rn_fam].
Qed.
Lemma qprod_perm l l' : Permutation l l' -> qprod l = qprod l'.
Proof. induction 1; unfold qprod in *; cbn [fold_right]; [reflexivity|congruence|ring|congruence]. Qed.
Lemma rn_joint a' a : corr a' a -> joint bn' a' = joint bn a.
Proof.
  intros C. unfold joint. rewrite (qprod_perm _ (map (fun v => getq (cond_prob bn' v a')) (map r (bn_V bn)))).
  - rewrite map_map. f_equal. apply map_ext_in. intros v Hv. now rewrite (rn_cond a' a).
  - apply Permutation_map, R.
Qed.
Lemma corr_upd a' a v x : corr a' a -> In v (bn_V bn) -> corr (upd a' (r v) x) (upd a v x).
Proof.
  intros C Hv w Hw. unfold upd. destruct (name_eqb_spec w v) as [-> |N]; [now rewrite name_eqb_refl|].
  destruct (name_eqb_spec (r w) (r v)) as [E|_]; [destruct N; now apply (rn_inj _ _ _ _ R)|now apply C].
Qed.
Lemma rn_sum_over (phi' phi : asg -> Qc) : (forall a' a, corr a' a -> phi' a' = phi a) -> forall l a' a, incl l (bn_V bn) -> corr a' a ->
  sum_over (ncard bn') (map r l) phi' a' = sum_over (ncard bn) l phi a.
Proof.
  intros H. induction l as [|v l IH]; intros a' a I C; cbn [map sum_over]; [now apply H|]. unfold sum_values.
  assert (Hv : In v (bn_V bn)) by (apply I; now left).
  rewrite rn_card by assumption. apply qsum_map_ext. intros x _. apply IH; [intros w Hw; apply I; now right|now apply corr_upd].
Qed.
(** the renamed evidence *)
Definition rename_ev (ev : list (name * name)) : list (name * name) := map (fun p => (r (fst p), s (fst p) (snd p))) ev.
Lemma rn_val_index v x : In v (bn_V bn) -> In x (nvalues bn v) -> val_index bn' (r v) (s v x) = val_index bn v x.
Proof.
  intros Hv Hx. unfold val_index. rewrite (rn_val _ _ _ _ R v Hv). apply index_of_map; [assumption|].
  intros y Hy. now apply (rn_sinj _ _ _ _ R).
Qed.
Lemma rn_agrees ev a' a : (forall v x, In (v, x) ev -> In v (bn_V bn) /\ In x (nvalues bn v)) -> corr a' a -> agrees bn' (rename_ev ev) a' = agrees bn ev a.
Proof.
  intros H C. unfold agrees, rename_ev. induction ev as [|[v x] l IH]; [reflexivity|]. cbn [map forallb fst snd].
  destruct (H v x (or_introl eq_refl)) as [Hv Hx]. rewrite rn_val_index, (C v) by assumption. f_equal. apply IH. intros w y K. apply H. now right.
Qed.
Lemma rn_marginal t ev x : answerable bn t ev -> marginal bn' (r t) (rename_ev ev) x = marginal bn t ev x.
Proof.
  intros [Ht A]. unfold marginal, prob_of.
  rewrite (sum_over_perm (ncard bn') (bn_V bn') (map r (bn_V bn))); [| |apply rn_wf|apply R].
  - apply rn_sum_over; [|apply incl_refl|now intros v _]. intros a' a C.
    rewrite (C t Ht), (rn_agrees ev a' a), (rn_joint a' a); [reflexivity|assumption| |assumption].
    intros v y K. destruct (A v y K) as (A1 & _ & A3). auto.
  - intros a b H. rewrite (agrees_ext bn' _ a b H), (joint_ext bn' a b H), (H (r t)). reflexivity.
Qed.
Lemma rn_answerable t ev : answerable bn t ev -> answerable bn' (r t) (rename_ev ev).
Proof.
  intros [Ht A]. split; [now apply rn_in|]. intros v' x' K. apply in_map_iff in K as ([v x] & E & K). injection E as <- <-. cbn [fst snd].
  destruct (A v x K) as (A1 & A2 & A3). split; [now apply rn_in|]. split.
  - intros E. apply A2. now apply (rn_inj _ _ _ _ R).
  - rewrite (rn_val _ _ _ _ R v A1). now apply in_map.
Qed.
Lemma rn_keys ev : map fst (rename_ev ev) = map r (map fst ev).
Proof. unfold rename_ev. rewrite !map_map. reflexivity. Qed.
Lemma rn_linked f u w : incl f (bn_V bn) -> In u (bn_V bn) -> In w (bn_V bn) -> linked bn f u w <-> linked bn' (map r f) (r u) (r w).
Proof.
  intros F Hu Hw. unfold linked. rewrite (rn_par _ _ _ _ R u Hu), (rn_par _ _ _ _ R w Hw).
  change (r u :: map r (nparents bn u)) with (map r (u :: nparents bn u)). change (r w :: map r (nparents bn w)) with (map r (w :: nparents bn w)). split.
  - intros (_ & _ & x & N & X1 & X2). split; [now apply rn_in|]. split; [now apply rn_in|]. exists (r x). split; [|split; now apply in_map].
    intros K. apply in_map_iff in K as (y & E & Hy). apply N. rewrite <- (rn_inj _ _ _ _ R y x); [assumption|now apply F|now apply (rn_fam u Hu)|assumption].
  - intros (_ & _ & x' & N & X1 & X2). split; [assumption|]. split; [assumption|]. apply in_map_iff in X1 as (x & <- & X1). exists x.
    split; [intros K; apply N; now apply in_map|]. split; [assumption|]. apply in_map_iff in X2 as (y & E & X2).
    rewrite <- (rn_inj _ _ _ _ R y x); [assumption|now apply (rn_fam w Hw)|now apply (rn_fam u Hu)|assumption].
Qed.
Lemma rn_connected f : incl f (bn_V bn) -> connected bn f <-> connected bn' (map r f).
Proof.
  intros F. split; intros C.
  - intros u' w' Hu' Hw'. destruct (rn_out u' Hu') as (u & Hu & ->). destruct (rn_out w' Hw') as (w & Hw & ->).
    specialize (C u w Hu Hw). apply clos_rt_rt1n in C. clear Hu' Hw'. induction C as [u|u y w L _ IH]; [apply rt_refl|].
    pose proof L as (_ & Hy & _). eapply rt_trans; [apply rt_step; apply rn_linked; eassumption|]. now apply IH.
  - intros u w Hu Hw. specialize (C (r u) (r w) (rn_in u Hu) (rn_in w Hw)). apply clos_rt_rt1n in C.
    remember (r u) as u' eqn:Eu. remember (r w) as w' eqn:Ew. revert u Hu Eu. induction C as [u'|u' y' w' L _ IH]; intros u Hu Eu.
    + rewrite (rn_inj _ _ _ _ R u w) by congruence. apply rt_refl.
    + pose proof L as (_ & Hy & _). destruct (rn_out y' Hy) as (y & Hyv & ->). subst u'. eapply rt_trans; [apply rt_step; now apply (rn_linked f u y)|].
      now apply IH.
Qed.
End Renaming.

Theorem C144_marginals : forall r s bn bn' t ev o o', wfnet bn -> renamed r s bn bn' -> good o -> good o' ->
  NoDup (map fst ev) -> answerable bn t ev ->
  marginal_ve_e o' bn' (r t) (map (fun p => (r (fst p), s (fst p) (snd p))) ev) = marginal_ve_e o bn t ev.
Proof.
  intros r s bn bn' t ev o o' W R G G' ND A. fold (rename_ev r s ev).
  pose proof (rn_wf r s bn bn' W R) as W'. pose proof (rn_answerable r s bn bn' R t ev A) as A'.
  assert (Fv : incl (t :: map fst ev) (bn_V bn)).
  { destruct A as [Ht A]. intros v [<-|K]; [assumption|]. apply in_map_iff in K as ([u x] & <- & K). now destruct (A u x K). }
  assert (ND' : NoDup (map fst (rename_ev r s ev))).
  { rewrite rn_keys. apply NoDup_map_in; [assumption|]. intros x y Hx Hy. apply (rn_inj _ _ _ _ R); apply Fv; now right. }
  pose proof (rn_connected r s bn bn' W R _ Fv) as Cn. cbn [map] in Cn. rewrite <- (rn_keys r s ev) in Cn.
  destruct (query_ends bn t ev o W ND G) as [(B & _)|[(_ & B & ->)|(_ & B & ->)]]; [tauto| |];
  destruct (query_ends bn' (r t) (rename_ev r s ev) o' W' ND' G') as [(D & _)|[(_ & D & ->)|(_ & D & ->)]]; try tauto.
  rewrite (rn_card r s bn bn' R t (proj1 A)). apply f_equal, map_ext. intros x. now rewrite (rn_marginal r s bn bn' W R).
Qed.
Print Assumptions C144_marginals.

(** the most probable explanations: the one found in the renamed network, with its names translated back, is a most probable one *)
Theorem C144_explanations : forall r s bn bn' ev o o' m m', wfnet bn -> renamed r s bn bn' -> nonneg_net bn -> good o -> good o' -> good_evidence bn ev ->
  ve_map o bn ev = Ok m -> ve_map o' bn' (map (fun p => (r (fst p), s (fst p) (snd p))) ev) = Ok m' ->
  joint bn' (asg_of bn' m') = joint bn (asg_of bn m) /\
  exists back, (forall v x, In v (bn_V bn) -> In x (nvalues bn v) -> (dget back v = Some x <-> dget m' (r v) = Some (s v x))) /\
    joint bn (asg_of bn back) = joint bn (asg_of bn m) /\ agrees bn ev (asg_of bn back) = true.
Proof.
  intros r s bn bn' ev o o' m m' W R NN G G' GE E E'. fold (rename_ev r s ev) in E'.
  pose proof (rn_wf r s bn bn' W R) as W'.
  assert (NN' : nonneg_net bn').
  { intros v' x Hv Hx. destruct (rn_out r s bn bn' R v' Hv) as (v & Hv0 & ->). rewrite (rn_cpt _ _ _ _ R v Hv0) in Hx. now apply (NN v x). }
  pose proof GE as [GE1 GE2].
  assert (GE' : good_evidence bn' (rename_ev r s ev)).
  { split.
    - rewrite rn_keys. apply NoDup_map_in; [assumption|]. intros x y Hx Hy. apply in_map_iff in Hx as ([a b] & <- & Hx). apply in_map_iff in Hy as ([c d] & <- & Hy). apply (rn_inj _ _ _ _ R); [apply (GE2 _ _ Hx)|apply (GE2 _ _ Hy)].
    - intros v' x' K. apply in_map_iff in K as ([v x] & Ev & K). injection Ev as <- <-. cbn [fst snd]. destruct (GE2 v x K) as [A1 A2].
      split; [now apply (rn_in r s bn bn' R)|]. rewrite (rn_val _ _ _ _ R v A1). now apply in_map. }
  destruct (C16_ve_map bn ev o W NN GE G) as (m1 & E1 & V1 & A1 & O1). rewrite E in E1. injection E1 as <-.
  destruct (C16_ve_map bn' (rename_ev r s ev) o' W' NN' GE' G') as (m2 & E2 & V2 & A2 & O2). rewrite E' in E2. injection E2 as <-.
  (* translate m' back *)
  set (orig := fun v => match dget m' (r v) with Some y => find (fun x => name_eqb (s v x) y) (nvalues bn v) | None => None end).
  set (back := flat_map (fun v => match orig v with Some x => [(v, x)] | None => [] end) (bn_V bn)).
  assert (Ho : forall v, In v (bn_V bn) -> exists x, In x (nvalues bn v) /\ dget m' (r v) = Some (s v x) /\ orig v = Some x).
  { intros v Hv. destruct (V2 (r v) (rn_in r s bn bn' R v Hv)) as (y & Hy & Iy). rewrite (rn_val _ _ _ _ R v Hv) in Iy. apply in_map_iff in Iy as (x & <- & Ix).
    exists x. split; [assumption|]. split; [assumption|]. unfold orig. rewrite Hy.
    destruct (find (fun z => name_eqb (s v z) (s v x)) (nvalues bn v)) as [z|] eqn:F.
    - apply find_some in F as [Iz Ez]. f_equal. apply (rn_sinj _ _ _ _ R v); try assumption. destruct (name_eqb_spec (s v z) (s v x)); [assumption|discriminate].
    - exfalso. apply (find_none _ _ F) in Ix. now rewrite name_eqb_refl in Ix. }
  assert (Hb : forall v, In v (bn_V bn) -> dget back v = orig v).
  { assert (Hl : forall l v, In v l -> incl l (bn_V bn) -> dget (flat_map (fun v => match orig v with Some x => [(v, x)] | None => [] end) l) v = orig v).
    { induction l as [|w l IH]; intros v Hv I; [destruct Hv|]. cbn [flat_map].
      destruct (Ho w) as (x & _ & _ & Ex); [apply I; now left|]. rewrite Ex. cbn [app dget]. destruct (name_eqb_spec v w) as [-> |N]; [now rewrite Ex|].
      apply IH; [destruct Hv; [congruence|assumption]|]. intros z Hz. apply I. now right. }
    intros v Hv. apply Hl; [assumption|apply incl_refl]. }
  assert (Vb : forall v, In v (bn_V bn) -> exists x, dget back v = Some x /\ In x (nvalues bn v)).
  { intros v Hv. destruct (Ho v Hv) as (x & Ix & _ & Ex). exists x. now rewrite (Hb v Hv). }
  assert (Cb : corr r bn (asg_of bn' m') (asg_of bn back)).
  { intros v Hv. destruct (Ho v Hv) as (x & Ix & Dx & Ex). unfold asg_of. rewrite Dx, (Hb v Hv), Ex. now rewrite (rn_val_index r s bn bn' R v x Hv Ix). }
  assert (Ab : agrees bn ev (asg_of bn back) = true).
  { rewrite <- (rn_agrees r s bn bn' R ev (asg_of bn' m') (asg_of bn back)); [|exact GE2|exact Cb]. now apply asg_of_agrees. }
  assert (Jb : joint bn' (asg_of bn' m') = joint bn (asg_of bn back)) by now apply (rn_joint r s bn bn' W R).
  assert (J : joint bn (asg_of bn back) = joint bn (asg_of bn m)).
  { apply Qcle_antisym.
    - apply O1; [now apply asg_of_valid|assumption].
    - rewrite <- Jb. (* the translation of m into bn' *)
      set (inv := fun w => match find (fun v => name_eqb (r v) w) (bn_V bn) with Some v => asg_of bn m v | None => 0 end).
      assert (Ci : corr r bn inv (asg_of bn m)).
      { intros v Hv. unfold inv. destruct (find (fun u => name_eqb (r u) (r v)) (bn_V bn)) as [u|] eqn:F.
        - apply find_some in F as [Hu Eu]. destruct (name_eqb_spec (r u) (r v)) as [Er|]; [|discriminate]. now rewrite (rn_inj _ _ _ _ R u v Hu Hv Er).
        - exfalso. apply (find_none _ _ F) in Hv. now rewrite name_eqb_refl in Hv. }
      rewrite <- (rn_joint r s bn bn' W R inv (asg_of bn m) Ci). apply O2.
      + intros w Hw. destruct (rn_out r s bn bn' R w Hw) as (v & Hv & ->). rewrite (Ci v Hv), (rn_card r s bn bn' R v Hv). now apply asg_of_valid.
      + rewrite (rn_agrees r s bn bn' R ev inv (asg_of bn m) GE2 Ci). now apply asg_of_agrees. }
  split; [congruence|]. exists back. split; [|split; assumption].
  intros v x Hv Hx. rewrite (Hb v Hv). destruct (Ho v Hv) as (z & Iz & Dz & Ez). rewrite Dz, Ez. split.
  - intros [= ->]. reflexivity.
  - intros [= Es]. f_equal. now apply (rn_sinj _ _ _ _ R v).
Qed.
Print Assumptions C144_explanations.
(** the network A -> B, A -> C, B -> C with other names, its nodes listed in another order *)
Definition ren (v : name) : name := if name_eqb v exA then exC else if name_eqb v exB then nm "rain" else exA.
Definition rens (v x : name) : name := if name_eqb v exB then (if name_eqb x (nm "0") then nm "no" else x) else (if name_eqb x (nm "0") then nm "1" else nm "0").
Definition ex3r : bayesnet :=
  mkBN [exA; exC; nm "rain"] [(exA, []); (exC, [nm "rain"; exA]); (nm "rain", [exA])]
       [(exC, mkF [] [nm "1"; nm "0"] [qq 2 5; qq 3 5]);
        (nm "rain", mkF [exC] [nm "no"; nm "1"; nm "2"] [qq 1 5; qq 1 5; qq 3 5; qq 1 2; qq 1 4; qq 1 4]);
        (exA, mkF [exC; nm "rain"] [nm "1"; nm "0"]
           [qq 1 10; qq 9 10; qq 2 10; qq 8 10; qq 3 10; qq 7 10;
            qq 4 10; qq 6 10; qq 1 2; qq 1 2; qq 6 10; qq 4 10])].
Example C144_nonvacuous : wfnet ex3 /\ nonneg_net ex3 /\ renamed ren rens ex3 ex3r /\ answerable ex3 exB [(exC, nm "1")] /\
  (exists l, marginal_ve_e id_oracle ex3 exB [(exC, nm "1")] = Ok l /\ marginal_ve_e rev_oracle ex3r (nm "rain") [(exA, nm "0")] = Ok l) /\
  exists m m', ve_map id_oracle ex3 [(exC, nm "1")] = Ok m /\ ve_map rev_oracle ex3r [(exA, nm "0")] = Ok m'.
Proof.
  split; [exact ex3_wf|]. split; [apply C15_nonvacuous|]. split.
  { constructor.
    - cbn. change (Permutation [exA; exC; nm "rain"] [exC; nm "rain"; exA]). apply perm_trans with [exC; exA; nm "rain"]; [apply perm_swap|]. apply perm_skip, perm_swap.
    - intros u v [<-|[<-|[<-|[]]]] [<-|[<-|[<-|[]]]] E; try reflexivity; vm_compute in E; discriminate.
    - intros v [<-|[<-|[<-|[]]]]; reflexivity.
    - intros v [<-|[<-|[<-|[]]]]; reflexivity.
    - intros v x y [<-|[<-|[<-|[]]]] Hx Hy E; vm_compute in Hx, Hy; repeat (destruct Hx as [<-|Hx]; [|]); try destruct Hx; repeat (destruct Hy as [<-|Hy]; [|]); try destruct Hy; try reflexivity; vm_compute in E; discriminate.
    - intros v [<-|[<-|[<-|[]]]]; reflexivity. }
  split. { split; [simpl; auto|]. intros v x [E|[]]. injection E as <- <-. split; [simpl; auto|]. split; [discriminate|simpl; auto]. }
  split; [eexists; split; vm_compute; reflexivity|]. do 2 eexists. split; vm_compute; reflexivity.
Qed.
