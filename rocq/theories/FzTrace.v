(** FzTrace.v -- traceback_map and refresh of a Factorization, called by the user after any history (C145). *)
From Verif Require Import Py Num BayesNet Factor SpecFactor Radix SumOver FactorMul FactorOut FactorMore FactorLaws
  Rounding Factorization SpecInference VE VEMap VETotal SpecHistory FzHistory.
From Coq Require Import Lia.
Open Scope nat_scope.

(** factorization.py:117-129  traceback_map with its effects: [f -= ...] reduces the stored factor itself
    (Factor.__sub__ returns self, factor.py:178-184), and the assignment is written into map_assignment, which is
    also what is returned.  [traceback] of Factorization.v is the same loop without the stored factors. *)
Fixpoint traceback_full (o : oracle) (bn : bayesnet) (items : dict factor) (asg : dict name) : res (dict factor * dict name) :=
  match items with
  | [] => Ok ([], asg)
  | (rv, f) :: later =>
      do p <- traceback_full (sub o 0) bn later asg ;;
      do f' <- reduce_later (sub o 1) (snd p) (dkeys later) f ;;
      do vs <- bn_values bn rv ;;
      do i <- argmax (f_cpt f') ;;
      do v <- nget vs i ;;
      Ok ((rv, f') :: fst p, dset (snd p) rv v)
  end.
Definition fz_traceback (o : oracle) (z : factorization) : res (factorization * dict name) :=
  do p <- traceback_full o (fz_bn z) (fz_map z) (fz_asg z) ;;
  Ok (mkFz (fz_bn z) (fz_phi z) (fst p) (snd p), snd p).
(** factorization.py:37-44  refresh *)
Definition fz_refresh (z : factorization) : res factorization :=
  do fs <- mapM (factor_init (fz_bn z)) (bn_nodes (fz_bn z)) ;;
  Ok (mkFz (fz_bn z) fs [] []).

Lemma traceback_full_snd bn items : forall o asg,
  traceback o bn items asg = do p <- traceback_full o bn items asg ;; Ok (snd p).
Proof.
  induction items as [|[rv f] later IH]; intros o asg; cbn [traceback traceback_full]; [reflexivity|].
  rewrite IH. destruct (traceback_full (sub o 0) bn later asg) as [[l a]|e]; cbn [bind fst snd]; [|reflexivity].
  destruct (reduce_later (sub o 1) a (dkeys later) f) as [f'|]; cbn [bind]; [|reflexivity].
  destruct (bn_values bn rv) as [vs|]; cbn [bind]; [|reflexivity].
  destruct (argmax (f_cpt f')) as [i|]; cbn [bind]; [|reflexivity].
  destruct (nget vs i) as [v|]; reflexivity.
Qed.

(** *** the operators keep the network *)
Lemma apply_bn o z p z' : fz_apply o z p = Ok z' -> fz_bn z' = fz_bn z.
Proof.
  destruct p as [v|v|v x]; cbn [fz_apply]; unfold fz_sum_elim, fz_max_elim, fz_sub; intros E;
    repeat (apply bind_Ok in E as (? & _ & E)); inversion E; reflexivity.
Qed.
Lemma history_bn ps : forall o z z', fz_history o z ps = Ok z' -> fz_bn z' = fz_bn z.
Proof.
  induction ps as [|p r IH]; intros o z z' E; cbn [fz_history] in E; [now inversion E|].
  apply bind_Ok in E as (z1 & E1 & E2). apply apply_bn in E1. apply IH in E2. congruence.
Qed.
Lemma history_app ps qs : forall o z, good o -> exists o', good o' /\
  fz_history o z (ps ++ qs) = do z1 <- fz_history o z ps ;; fz_history o' z1 qs.
Proof.
  induction ps as [|p r IH]; intros o z Go; [exists o; split; [assumption|reflexivity]|].
  cbn [app fz_history]. destruct (fz_apply (sub o 0) z p) as [z1|e]; cbn [bind].
  - apply IH. now apply good_sub.
  - exists o. split; [assumption|reflexivity].
Qed.
Lemma history_max order : forall o z, fz_history o z (map MaxOut order) = elim_all fz_max_elim o z order.
Proof.
  induction order as [|v r IH]; intros o z; cbn [map fz_history elim_all fz_apply]; [reflexivity|].
  destruct (fz_max_elim (sub o 0) z v); cbn [bind]; [apply IH|reflexivity].
Qed.
Lemma history_map ps : (forall p, In p ps -> ~ is_max p) -> forall o z z', fz_history o z ps = Ok z' -> fz_map z' = fz_map z.
Proof.
  induction ps as [|p r IH]; intros H o z z' E; cbn [fz_history] in E; [now inversion E|].
  apply bind_Ok in E as (z1 & E1 & E2). apply IH in E2; [|intros q Hq; apply H; now right]. rewrite E2.
  specialize (H p (or_introl eq_refl)). destruct p as [v|v|v x]; [|exfalso; now apply H|]; cbn [fz_apply] in E1;
    unfold fz_sum_elim, fz_sub in E1; repeat (apply bind_Ok in E1 as (? & _ & E1)); inversion E1; reflexivity.
Qed.
Lemma history_nn bn ps : wfnet bn -> forall o z, good o -> fine (ncard bn) bn (fz_phi z) -> nn (ncard bn) (fz_phi z) ->
  ops_ok bn (in_scopes (fz_phi z)) ps -> forall z', fz_history o z ps = Ok z' -> nn (ncard bn) (fz_phi z').
Proof.
  intros W. induction ps as [|p r IH]; intros o z Go F N O z' E; cbn [fz_history] in E; [now inversion E; subst|].
  destruct O as (O1 & O2 & O3).
  destruct (step_ok bn p (sub o 0) z W (good_sub _ 0 Go) F N O1 O2) as (z1 & E1 & F1 & N1 & S1 & P1).
  rewrite E1 in E. cbn [bind] in E. apply (IH (sub o 1) z1 (good_sub _ 1 Go) F1 N1); [|assumption].
  apply (ops_ok_iff bn r (fun w => in_scopes (fz_phi z) w /\ w <> op_var p)); [|assumption]. intros w. symmetry. apply S1.
Qed.
Lemma ops_ok_app bn ps qs : forall S, ops_ok bn S (ps ++ qs) <->
  ops_ok bn S ps /\ ops_ok bn (fun w => S w /\ ~ In w (map op_var ps)) qs.
Proof.
  induction ps as [|p r IH]; intros S; cbn [app ops_ok].
  - split; [intros H; split; [exact I|]|intros [_ H]]; apply (ops_ok_iff bn qs _ _) with (2 := H); intros w; simpl; tauto.
  - rewrite IH. split.
    + intros (A & B & C & D). split; [auto|]. apply (ops_ok_iff bn qs _ _) with (2 := D). intros w. cbn [map]. simpl. intuition congruence.
    + intros ((A & B & C) & D). split; [assumption|]. split; [assumption|]. split; [assumption|].
      apply (ops_ok_iff bn qs _ _) with (2 := D). intros w. cbn [map]. simpl. intuition congruence.
Qed.

(** *** sums and observations, in any order, are one nested sum at the observed values *)
Definition sums (ps : list fz_op) : list name := flat_map (fun p => match p with SumOut v => [v] | _ => [] end) ps.
Lemma In_givens ps v x : In (v, x) (givens ps) <-> In (Given v x) ps.
Proof.
  unfold givens. rewrite in_flat_map. split.
  - intros (p & Hp & H). destruct p as [q|q|q y]; simpl in H; try tauto. destruct H as [E|[]]. now inversion E; subst.
  - intros H. exists (Given v x). simpl. auto.
Qed.
Lemma In_sums ps v : In v (sums ps) <-> In (SumOut v) ps.
Proof.
  unfold sums. rewrite in_flat_map. split.
  - intros (p & Hp & H). destruct p as [q|q|q y]; simpl in H; try tauto. destruct H as [E|[]]. now subst.
  - intros H. exists (SumOut v). simpl. auto.
Qed.
Lemma op_vars ps w : (forall p, In p ps -> ~ is_max p) -> In w (map op_var ps) <-> In w (sums ps) \/ In w (map fst (givens ps)).
Proof.
  intros H. rewrite !in_map_iff. split.
  - intros (p & E & Hp). destruct p as [v|v|v x]; cbn [op_var] in E; subst.
    + left. now apply In_sums.
    + exfalso. now apply (H _ Hp).
    + right. exists (w, x). split; [reflexivity|]. now apply In_givens.
  - intros [K|([q x] & E & K)].
    + exists (SumOut w). split; [reflexivity|]. now apply In_sums.
    + cbn [fst] in E. subst q. exists (Given w x). split; [reflexivity|]. now apply In_givens.
Qed.
Lemma sums_NoDup ps : NoDup (map op_var ps) -> NoDup (sums ps).
Proof.
  induction ps as [|p r IH]; intros H; [constructor|]. cbn [map] in H. inversion H as [|? ? H1 H2]; subst.
  unfold sums in *. destruct p as [v|v|v x]; cbn [flat_map app] in *; [|now apply IH|now apply IH].
  constructor; [|now apply IH]. intros K. apply H1. fold (sums r) in K. apply In_sums in K. apply in_map_iff. exists (SumOut v). auto.
Qed.
Lemma givens_NoDup ps : NoDup (map op_var ps) -> NoDup (map fst (givens ps)).
Proof.
  induction ps as [|p r IH]; intros H; [constructor|]. cbn [map] in H. inversion H as [|? ? H1 H2]; subst.
  unfold givens in *. destruct p as [v|v|v x]; cbn [flat_map app] in *; [now apply IH|now apply IH|].
  cbn [map fst]. constructor; [|now apply IH]. intros K. apply H1. fold (givens r) in K. apply in_map_iff in K as ([q y] & E & K).
  cbn [fst] in E. subst q. apply In_givens in K. apply in_map_iff. exists (Given v y). auto.
Qed.
Lemma ops_mean_sums bn ps : (forall p, In p ps -> ~ is_max p) -> NoDup (map op_var ps) ->
  (forall v x, In (Given v x) ps -> In x (nvalues bn v)) -> forall phi, ext phi -> forall a,
  ops_mean bn ps phi a = sum_over (ncard bn) (sums ps) phi (setev bn (givens ps) a).
Proof.
  induction ps as [|p r IH]; intros H ND V phi Ex a; [reflexivity|].
  cbn [map] in ND. inversion ND as [|? ? N1 N2]; subst.
  assert (H' : forall q, In q r -> ~ is_max q) by (intros q Hq; apply H; now right).
  assert (V' : forall v x, In (Given v x) r -> In x (nvalues bn v)) by (intros v x Hx; apply V; now right).
  unfold ops_mean in *. cbn [fold_left]. destruct p as [v|v|v x].
  - rewrite IH; [|assumption|assumption|assumption|]. 2:{ cbn [op_mean]. apply (sum_values_ext (ncard bn) v phi Ex). }
    unfold sums, givens. cbn [flat_map app]. fold (sums r) (givens r). cbn [sum_over op_mean].
    apply (sum_over_swap (ncard bn) (sums r) v phi _ Ex). intros K. apply N1. cbn [op_var]. apply op_vars; auto.
  - exfalso. apply (H (MaxOut v)); [now left|exact I].
  - destruct (index_of_In x (nvalues bn v) (V v x (or_introl eq_refl))) as (i & Hi).
    assert (Hi' : val_index bn v x = Some i) by exact Hi.
    rewrite IH; [|assumption|assumption|assumption|].
    2:{ intros b c E. cbn [op_mean]. rewrite Hi'. apply Ex. now apply upd_ext. }
    unfold sums, givens. cbn [flat_map app]. fold (sums r) (givens r). cbn [setev fold_right fst]. fold (setev bn (givens r) a).
    transitivity (sum_over (ncard bn) (sums r) (fun b => phi (setev bn [(v, x)] b)) (setev bn (givens r) a)).
    { apply sum_over_congr. intros b _ _. cbn [op_mean]. rewrite Hi'. apply Ex. intros w. cbn [setev fold_right fst]. unfold eidx. cbn [fst snd]. now rewrite Hi'. }
    rewrite sum_over_setev; [reflexivity|assumption|]. intros u Hu [E|[]]. cbn [fst] in E. subst u. apply N1. cbn [op_var]. apply op_vars; auto.
Qed.

(** *** pinning some nodes *)
Lemma sum_pinned cd b order : forall vs psi a, ext psi -> NoDup vs -> NoDup order -> incl order vs -> (forall v, In v order -> b v < cd v) ->
  sum_over cd vs (fun c => if forallb (fun v => c v =? b v) order then psi c else 0%Qc) a =
  sum_over cd (minus vs order) psi (override a order b).
Proof.
  induction order as [|v r IH]; intros vs psi a Ex ND NO I V; [reflexivity|]. inversion NO as [|? ? Hn Hr]; subst.
  transitivity (sum_over cd vs (fun c => if c v =? b v then (if forallb (fun v => c v =? b v) r then psi c else 0%Qc) else 0%Qc) a).
  { apply sum_over_congr. intros c _ _. cbn [forallb]. destruct (c v =? b v); reflexivity. }
  rewrite sum_indicator; [|assumption|apply I; now left|apply V; now left|].
  2:{ intros c d E. rewrite (Ex c d E). replace (forallb (fun v0 => d v0 =? b v0) r) with (forallb (fun v0 => c v0 =? b v0) r); [reflexivity|].
      clear - E. induction r as [|y r IH]; [reflexivity|]. cbn [forallb]. now rewrite IH, E. }
  rewrite IH; [|assumption|now apply NoDup_remove1|assumption| |intros w Hw; apply V; now right].
  - change (minus vs (v :: r)) with (minus (remove1 v vs) r). apply sum_over_ext; [assumption|]. intros w. unfold override.
    destruct (mem_spec w r) as [M|M]; destruct (mem_spec w (v :: r)) as [K|K]; try reflexivity.
    + exfalso. apply K. now right.
    + destruct K as [->|K]; [now rewrite upd_same|contradiction].
    + rewrite upd_other; [reflexivity|]. intros ->. apply K. now left.
  - intros w Hw. apply In_remove1; [assumption|]. split; [apply I; now right|congruence].
Qed.

(** *** tracing back again *)
Definition scopes_nodup (items : dict factor) : Prop := forall rv f, In (rv, f) items -> NoDup (f_scope f).
Lemma reduce_scope o f rv x f' : reduce_factor o f rv x = Ok f' -> f_scope f' = remove1 rv (f_scope f).
Proof.
  unfold reduce_factor. intros E. apply bind_Ok in E as (c & _ & E). destruct (c =? 0); [discriminate|].
  repeat (apply bind_Ok in E as (? & ?E & E)). inversion E; subst. cbn [f_scope].
  match goal with H : list_remove _ _ = Ok _ |- _ => unfold list_remove in H; destruct (mem rv (f_scope f)); inversion H; reflexivity end.
Qed.
Lemma reduce_later_scope asg later : forall o f f', NoDup (f_scope f) -> reduce_later o asg later f = Ok f' ->
  NoDup (f_scope f') /\ incl (f_scope f') (f_scope f) /\ forall w, In w later -> ~ In w (f_scope f').
Proof.
  induction later as [|nd r IH]; intros o f f' N E; cbn [reduce_later] in E.
  - inversion E; subst. split; [assumption|]. split; [apply incl_refl|intros w []].
  - apply bind_Ok in E as (f1 & E1 & E).
    assert (K : NoDup (f_scope f1) /\ incl (f_scope f1) (f_scope f) /\ ~ In nd (f_scope f1)).
    { destruct (mem_spec nd (f_scope f)) as [M|M].
      - apply bind_Ok in E1 as (x & _ & E1). apply reduce_scope in E1. rewrite E1. split; [now apply NoDup_remove1|].
        split; [intros w Hw; now apply In_remove1 in Hw|]. intros H. apply In_remove1 in H; tauto.
      - inversion E1; subst. split; [assumption|]. split; [apply incl_refl|assumption]. }
    destruct K as (K1 & K2 & K3). destruct (IH _ _ _ K1 E) as (J1 & J2 & J3). split; [assumption|].
    split; [intros w Hw; now apply K2, J2|]. intros w [<-|Hw]; [intros H; now apply K3, J2|now apply J3].
Qed.
Lemma reduce_later_none asg later : forall o f, (forall w, In w later -> ~ In w (f_scope f)) -> reduce_later o asg later f = Ok f.
Proof.
  induction later as [|nd r IH]; intros o f H; cbn [reduce_later]; [reflexivity|].
  rewrite (proj2 (mem_false nd (f_scope f)) (H nd (or_introl eq_refl))). cbn [bind]. apply IH. intros w Hw. apply H. now right.
Qed.
Lemma traceback_full_keys bn items : forall o asg items' asg', traceback_full o bn items asg = Ok (items', asg') -> dkeys items' = dkeys items.
Proof.
  induction items as [|[rv f] later IH]; intros o asg items' asg' E; cbn [traceback_full] in E; [now inversion E|].
  apply bind_Ok in E as ([l a] & E1 & E). repeat (apply bind_Ok in E as (? & _ & E)). inversion E; subst.
  cbn [fst]. unfold dkeys in *. cbn [map fst]. f_equal. now apply IH in E1.
Qed.
Lemma dset_same {A} (d : dict A) k x : dget d k = Some x -> dset d k x = d.
Proof.
  induction d as [|[q w] r IH]; cbn [dget dset]; [discriminate|]. destruct (name_eqb_spec k q) as [->|Ne].
  - intros E. now inversion E.
  - intros E. now rewrite IH.
Qed.
Lemma traceback_full_gets bn items : forall o asg items' asg', traceback_full o bn items asg = Ok (items', asg') ->
  forall k, ~ In k (dkeys items) -> dget asg' k = dget asg k.
Proof.
  induction items as [|[rv f] later IH]; intros o asg items' asg' E k Hk; cbn [traceback_full] in E; [now inversion E|].
  apply bind_Ok in E as ([l a] & E1 & E). repeat (apply bind_Ok in E as (? & _ & E)). inversion E; subst. cbn [snd].
  rewrite dget_dset. unfold dkeys in Hk. cbn [map fst] in Hk. destruct (name_eqb_spec k rv) as [->|Ne]; [exfalso; apply Hk; now left|].
  apply (IH _ _ _ _ E1). intros K. apply Hk. now right.
Qed.
(** the second pass over the reduced factors, from any dict that already has the first pass's choices *)
Lemma traceback_again bn items : NoDup (dkeys items) -> scopes_nodup items -> forall o asg items' asg',
  traceback_full o bn items asg = Ok (items', asg') ->
  forall o2 asg2, (forall k, In k (dkeys items) -> dget asg2 k = dget asg' k) ->
  traceback_full o2 bn items' asg2 = Ok (items', asg2).
Proof.
  induction items as [|[rv f] later IH]; intros NK NS o asg items' asg' E o2 asg2 G; cbn [traceback_full] in E.
  - inversion E; subst. reflexivity.
  - apply bind_Ok in E as ([l a] & E1 & E). apply bind_Ok in E as (f' & Ef & E). apply bind_Ok in E as (vs & Ev & E).
    apply bind_Ok in E as (i & Ei & E). apply bind_Ok in E as (x & Ex & E). inversion E; subst. clear E. cbn [fst snd] in *.
    unfold dkeys in NK. cbn [map fst] in NK. inversion NK as [|? ? N1 N2]; subst.
    pose proof (traceback_full_keys _ _ _ _ _ _ E1) as Kl.
    destruct (reduce_later_scope _ _ _ _ _ (NS rv f (or_introl eq_refl)) Ef) as (_ & _ & S).
    cbn [traceback_full]. rewrite (IH N2 (fun r g Hg => NS r g (or_intror Hg)) _ _ _ _ E1).
    + cbn [bind fst snd]. rewrite Kl, reduce_later_none by assumption. cbn [bind]. rewrite Ev. cbn [bind]. rewrite Ei. cbn [bind].
      rewrite Ex. cbn [bind]. assert (D : dget asg2 rv = Some x).
      { rewrite (G rv); [now rewrite dget_dset, name_eqb_refl|]. unfold dkeys. cbn [map fst]. now left. }
      now rewrite (dset_same _ _ _ D).
    + intros k Hk. rewrite (G k) by (unfold dkeys; cbn [map fst]; now right). rewrite dget_dset.
      destruct (name_eqb_spec k rv) as [->|Ne]; [contradiction|reflexivity].
Qed.

Lemma In_dset {A} (d : dict A) k x q y : In (q, y) (dset d k x) -> In (q, y) d \/ (q, y) = (k, x).
Proof.
  induction d as [|[r w] t IH]; cbn [dset]; [intros [E|[]]; right; now symmetry|].
  destruct (name_eqb_spec k r) as [->|Ne]; intros [E|H].
  - right. now symmetry.
  - left. now right.
  - left. now left.
  - apply IH in H as [H|H]; [left; now right|now right].
Qed.
(** the factors kept for the traceback are well formed *)
Lemma history_items bn ps : wfnet bn -> forall o z, good o -> fine (ncard bn) bn (fz_phi z) -> nn (ncard bn) (fz_phi z) ->
  ops_ok bn (in_scopes (fz_phi z)) ps -> NoDup (dkeys (fz_map z)) -> scopes_nodup (fz_map z) ->
  forall z', fz_history o z ps = Ok z' -> NoDup (dkeys (fz_map z')) /\ scopes_nodup (fz_map z').
Proof.
  intros W. induction ps as [|p r IH]; intros o z Go F N O K1 K2 z' E; cbn [fz_history] in E; [inversion E; now subst|].
  destruct O as (O1 & O2 & O3).
  destruct (step_ok bn p (sub o 0) z W (good_sub _ 0 Go) F N O1 O2) as (z1 & E1 & F1 & N1 & S1 & P1).
  rewrite E1 in E. cbn [bind] in E.
  assert (J : NoDup (dkeys (fz_map z1)) /\ scopes_nodup (fz_map z1)).
  { destruct p as [v|v|v x]; cbn [fz_apply op_var] in *.
    - unfold fz_sum_elim in E1. repeat (apply bind_Ok in E1 as (? & _ & E1)). inversion E1; subst. auto.
    - destruct (max_elim_ok _ bn (sub o 0) z v (good_sub _ 0 Go) F N O1) as (psi & psi' & E2 & _ & _ & _ & _ & R & _).
      rewrite E2 in E1. inversion E1; subst z1. cbn [fz_map]. split; [now apply NoDup_dkeys_dset|].
      intros rv f Hf. apply In_dset in Hf as [Hf|Hf]; [now apply (K2 rv)|]. inversion Hf; subst. apply R.
    - unfold fz_sub in E1. repeat (apply bind_Ok in E1 as (? & _ & E1)). inversion E1; subst. auto. }
  apply (IH (sub o 1) z1 (good_sub _ 1 Go) F1 N1) with (z' := z'); try tauto.
  apply (ops_ok_iff bn r (fun w => in_scopes (fz_phi z) w /\ w <> op_var p)); [|assumption]. intros w. symmetry. apply S1.
Qed.

(** *** the whole run: sums and observations, then maxima over everything left, then traceback_map *)
Lemma trace_run bn nodes pre order o o2 : wfnet bn -> nonneg_net bn -> incl nodes (bn_V bn) -> good o ->
  (forall p, In p pre -> ~ is_max p) -> ops_ok bn (mentioned bn nodes) (pre ++ map MaxOut order) ->
  (forall w, mentioned bn nodes w -> In w (map op_var pre) \/ In w order) ->
  exists z0 z z' m, fz_init_nodes bn nodes = Ok z0 /\ fz_history o z0 (pre ++ map MaxOut order) = Ok z /\
    fz_traceback o2 z = Ok (z', m) /\ (forall o3, fz_traceback o3 z' = Ok (z', m)) /\
    (forall v x, In (Given v x) pre -> dget m v = Some x) /\
    (forall v, In v order -> exists x i, dget m v = Some x /\ val_index bn v x = Some i) /\
    (forall v x, dget m v = Some x -> In v order \/ In (Given v x) pre) /\
    (forall b, valid (ncard bn) order b ->
       (ops_mean bn pre (nodes_prob bn nodes) b <= ops_mean bn pre (nodes_prob bn nodes) (asg_of bn m))%Qc).
Proof.
  intros W NN I Go NM O All. destruct (init_nodes_ok bn nodes W NN I) as (fs & E & F & N & S & P).
  set (z0 := mkFz bn fs [] []). apply ops_ok_app in O as [O1 O2].
  assert (O1' : ops_ok bn (in_scopes (fz_phi z0)) pre).
  { apply (ops_ok_iff bn pre (mentioned bn nodes)); [|assumption]. intros w. symmetry. apply S. }
  destruct (history_ok bn pre W o z0 Go F N O1') as (z1 & E1 & F1 & S1 & P1).
  pose proof (history_nn bn pre W o z0 Go F N O1' z1 E1) as N1.
  destruct (history_app pre (map MaxOut order) o z0 Go) as (o' & Go' & Happ). rewrite E1 in Happ. cbn [bind] in Happ. rewrite history_max in Happ.
  assert (S1' : forall w, in_scopes (fz_phi z1) w <-> mentioned bn nodes w /\ ~ In w (map op_var pre)) by (intros w; rewrite S1; cbn [z0 fz_phi]; now rewrite S).
  destruct (ops_ok_vars bn _ _ O2) as [ND Om]. rewrite map_map in ND. cbn [op_var] in ND. rewrite map_id in ND.
  assert (Om' : forall w, In w order -> mentioned bn nodes w /\ ~ In w (map op_var pre)).
  { intros w Hw. apply (Om (MaxOut w)). now apply in_map. }
  assert (Io : incl order (bn_V bn)).
  { intros w Hw. destruct (Om' w Hw) as [(v & Hv & [<-|Hp]) _]; [now apply I|]. now apply (wn_par _ W v (I v Hv)). }
  assert (S2 : forall w, in_scopes (fz_phi z1) w <-> In w order).
  { intros w. rewrite S1'. split; [intros [H1 H2]; destruct (All w H1); tauto|apply Om']. }
  assert (M1 : fz_map z1 = []) by now rewrite (history_map pre NM o z0 z1 E1).
  destruct (map_elim_ok bn W order o' z1 Go' F1 N1 ND Io S2) as (z & items & Em & Mz & Az & Kz & Fz & Sz & Tr).
  { intros w _. rewrite M1. intros []. }
  rewrite M1 in Mz. cbn [app] in Mz.
  destruct (Tr o2 (fz_asg z)) as (m & Et & Tout & Tin & Tle & Teq).
  rewrite traceback_full_snd in Et. apply bind_Ok in Et as ([items' m'] & Et & Em'). cbn [snd] in Em'. inversion Em'; subst m'. clear Em'.
  assert (Bz : fz_bn z = bn).
  { rewrite Em in Happ. pose proof (history_bn _ _ _ _ Happ). assumption. }
  exists z0, z, (mkFz (fz_bn z) (fz_phi z) items' m), m. unfold fz_init_nodes. rewrite E. cbn [bind]. split; [reflexivity|].
  split; [now rewrite Happ|]. unfold fz_traceback. rewrite Mz, Bz, Et. cbn [bind fst snd fz_bn fz_map fz_asg fz_phi]. split; [reflexivity|].
  assert (Ga : forall v x, dget (fz_asg z1) v = Some x <-> In (Given v x) pre).
  { intros v x. destruct (ops_ok_vars bn pre _ O1) as [NDp _]. destruct (history_asg pre o z0 z1 E1 NDp v) as [A1 A2]. split; [|apply A1].
    intros H. destruct (in_dec (fun p q : fz_op => ltac:(decide equality; apply name_eq_dec)) (Given v x) pre) as [K|K]; [assumption|].
    exfalso. assert (D : dget (fz_asg z0) v = Some x) by (rewrite <- A2; [assumption|]; intros y Hy; pose proof Hy as Hy'; apply A1 in Hy'; rewrite H in Hy'; inversion Hy'; subst; contradiction).
    discriminate D. }
  split; [|split; [|split; [assumption|split]]].
  - intros o3. assert (IT : NoDup (dkeys items) /\ scopes_nodup items).
    { rewrite <- Mz. rewrite Em in Happ. apply (history_items bn (pre ++ map MaxOut order) W o z0 Go F N) with (z' := z); try assumption.
      - apply ops_ok_app. split; [assumption|]. apply (ops_ok_iff bn _ _ _) with (2 := O2). intros w. cbn [z0 fz_phi]. now rewrite <- S.
      - constructor.
      - intros ? ? []. }
    rewrite (traceback_again bn items (proj1 IT) (proj2 IT) _ _ _ _ Et o3 m) by reflexivity. reflexivity.
  - intros v x Hx. rewrite Tout; [rewrite Az; now apply Ga|]. intros K. apply Om' in K as [_ K]. apply K.
    apply in_map_iff. exists (Given v x). auto.
  - intros v x Hx. destruct (in_dec name_eq_dec v order) as [K|K]; [now left|]. right. apply Ga. rewrite <- Az, <- (Tout v K). assumption.
  - assert (Vm : valid (ncard bn) order (asg_of bn m)).
    { intros w Hw. destruct (Tin w Hw) as (x & i & Hx & Hi). unfold asg_of. rewrite Hx, Hi.
      unfold val_index, nvalues in Hi. unfold ncard. destruct (dget (bn_F bn) w); [now apply index_of_lt in Hi|discriminate]. }
    assert (Q : forall b, valid (ncard bn) order b -> prodval (fz_phi z1) b = ops_mean bn pre (nodes_prob bn nodes) b).
    { intros b Vb. rewrite P1 by (intros w Hw; apply S2 in Hw; now apply Vb).
      apply (ops_mean_congr bn pre _ _ (in_scopes (fz_phi z0)) b O1'); [intros c Hc; now apply P|].
      intros w Hw Hn. apply Vb. destruct (All w) as [K|K]; [now apply S|contradiction|assumption]. }
    intros b Vb. rewrite <- !Q by assumption. now apply Tle.
Qed.
