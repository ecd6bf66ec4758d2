(** Properties_Nodes.v -- theorem C132: learning the parameters of some nodes only.
    Specification: SpecLearn.v (same_columns, smoothed, rel_freq). *)
From Verif Require Import Py Num BayesNet Factor SpecFactor Radix Graph GraphNet Data SpecLearn ParamLearn ParamFacts ParamMain Rounding Examples ConstraintFacts Properties_Learn LearnInfer.
Open Scope nat_scope.

(** ** only some columns are read *)
Lemma Forall2_mapM {A B} (R : A -> A -> Prop) (f g : A -> res B) l l' : Forall2 R l l' -> (forall x y, R x y -> f x = g y) -> mapM f l = mapM g l'.
Proof. intros F H. induction F as [|x y l l' Rxy F IH]; cbn [mapM]; [reflexivity|]. now rewrite (H x y Rxy), IH. Qed.
Lemma column_same cols t t' i : same_columns cols t t' -> In i cols -> column t i = column t' i.
Proof.
  intros [N F] Hi. unfold column. rewrite <- N. destruct (i <? t_ncols t); [|reflexivity]. apply (Forall2_mapM _ _ _ _ _ F). intros r r' H. unfold nget. now rewrite H.
Qed.
Lemma learn_values_same cols t t' l bn : same_columns cols t t' -> (forall i, i < length l -> In i cols) -> learn_values t l bn = learn_values t' l bn.
Proof.
  intros S H. unfold learn_values. apply foldM_ext. intros [vals b] [i v] Hx. cbn [fst snd]. rewrite (column_same cols t t'); [reflexivity|assumption|]. apply H.
  unfold enum in Hx. apply in_combine_l, in_seq in Hx. lia.
Qed.
Lemma observe_same l r r' : (forall i, In (NInt i) l -> nth_error r i = nth_error r' i) -> observe_row l r = observe_row l r'.
Proof.
  intros H. unfold observe_row. induction l as [|v l IH]; cbn [mapM]; [reflexivity|]. rewrite IH by (intros i Hi; apply H; now right).
  assert (E : row_get r v = row_get r' v). { destruct v as [i|s]; [|reflexivity]. cbn [row_get]. unfold nget. rewrite H by now left. reflexivity. } now rewrite E.
Qed.
Lemma rows_same {St} (f : St -> nat * list name -> res St) (R : list name -> list name -> Prop) rs rs' : Forall2 R rs rs' -> (forall s k r r', R r r' -> f s (k, r) = f s (k, r')) ->
  forall k s, foldM f (combine (seq k (length rs)) rs) s = foldM f (combine (seq k (length rs')) rs') s.
Proof.
  intros F H. induction F as [|r r' rs rs' Rr F IH]; intros k s; [reflexivity|]. cbn [length seq combine foldM]. rewrite (H s k r r' Rr). destruct (f s (k, r')); cbn [bind]; [apply IH|reflexivity].
Qed.
(** the parameters learned for the nodes [l] depend on the columns 0 .. len(l)-1 (the values) and on the columns of [l] only:
    what the data say about parents outside [l] is not looked at *)
Theorem C132_ignores_other_columns : forall o bn t t' ess l, same_columns (read_columns l) t t' ->
  bayes_estimator o bn t ess (Some l) = bayes_estimator o bn t' ess (Some l) /\ mle_estimator o bn t (Some l) = mle_estimator o bn t' (Some l).
Proof.
  intros o bn t t' ess l S.
  assert (H0 : forall i, i < length l -> In i (read_columns l)) by (intros i Hi; apply in_or_app; left; apply in_seq; lia).
  assert (H1 : forall i, In (NInt i) l -> In i (read_columns l)) by (intros i Hi; apply in_or_app; right; apply in_flat_map; exists (NInt i); split; [assumption|now left]).
  assert (Len : length (t_rows t) = length (t_rows t')). { destruct S as [_ F]. clear -F. induction F; cbn [length]; congruence. }
  assert (Obs : forall r r', (forall i, In i (read_columns l) -> nth_error r i = nth_error r' i) -> observe_row l r = observe_row l r') by (intros r r' H; apply observe_same; auto).
  split.
  - unfold bayes_estimator. rewrite Len, (learn_values_same _ t t' l bn S H0). destruct (learn_values t' l bn) as [st|]; cbn [bind]; [|reflexivity].
    destruct (bayes_prior _ l (snd st)) as [b|]; cbn [bind]; [|reflexivity]. unfold enum.
    rewrite (rows_same (bayes_row o l) _ _ _ (proj2 S)); [reflexivity|]. intros s k r r' H. unfold bayes_row. cbn [fst snd]. now rewrite (Obs r r' H).
  - unfold mle_estimator, mle_count. rewrite (learn_values_same _ t t' l bn S H0). destruct (learn_values t' l bn) as [[vals b1]|]; cbn [bind]; [|reflexivity].
    destruct (mle_zero l b1) as [[C0 b2]|]; cbn [bind]; [|reflexivity]. unfold enum.
    rewrite (rows_same (mle_row o b2 l) _ _ _ (proj2 S)); [reflexivity|]. intros s k r r' H. unfold mle_row. cbn [fst snd]. now rewrite (Obs r r' H).
Qed.
Print Assumptions C132_ignores_other_columns.

(** ** the other nodes *)
Definition kept (u : name) (b b' : bayesnet) : Prop := bn_V b' = bn_V b /\ bn_E b' = bn_E b /\ dget (bn_F b') u = dget (bn_F b) u.
Lemma kept_refl u b : kept u b b. Proof. now repeat split. Qed.
Lemma kept_trans u a b c : kept u a b -> kept u b c -> kept u a c.
Proof. intros (A1 & A2 & A3) (B1 & B2 & B3). split; [congruence|]. split; congruence. Qed.
Lemma kept_fold {A} u (f : bayesnet -> A -> res bayesnet) l : (forall b x b', In x l -> f b x = Ok b' -> kept u b b') -> forall b b', foldM f l b = Ok b' -> kept u b b'.
Proof.
  induction l as [|x l IH]; intros H b b' E; cbn [foldM] in E; [injection E as <-; apply kept_refl|]. apply bind_Ok in E as (b1 & E1 & E). eapply kept_trans; [apply (H b x b1); [now left|exact E1]|]. apply IH; [|exact E]. intros c y c' Hy. apply H. now right.
Qed.
Lemma set_values_kept u b v vs b' : u <> v -> bn_set_values b v vs = Ok b' -> kept u b b'.
Proof. intros N E. unfold bn_set_values in E. apply bind_Ok in E as (d & _ & E). injection E as <-. split; [reflexivity|]. split; [reflexivity|]. cbn. rewrite dget_dset. apply name_eqb_neq in N. now rewrite N. Qed.
Lemma set_cpt_kept u b v c b' : u <> v -> bn_set_cpt b v c = Ok b' -> kept u b b'.
Proof. intros N E. unfold bn_set_cpt in E. apply bind_Ok in E as (d & _ & E). injection E as <-. split; [reflexivity|]. split; [reflexivity|]. cbn. rewrite dget_dset. apply name_eqb_neq in N. now rewrite N. Qed.
Lemma learn_values_kept u t l : ~ In u l -> forall k vals b st, foldM (fun st ni => let '(vals, bn) := st in do c <- column t (fst ni) ;; do bn' <- bn_set_values bn (snd ni) (np_unique c) ;; Ok (dset vals (snd ni) (np_unique c), bn'))
    (combine (seq k (length l)) l) (vals, b) = Ok st -> kept u b (snd st).
Proof.
  induction l as [|v l IH]; intros Nu k vals b st E; cbn [length seq combine foldM] in E; [injection E as <-; apply kept_refl|]. cbn [fst snd] in E. apply bind_Ok in E as (s1 & E1 & E).
  apply bind_Ok in E1 as (c & _ & E1). apply bind_Ok in E1 as (b1 & E1 & E2). injection E2 as <-. eapply kept_trans; [eapply set_values_kept; [|exact E1]; intros ->; apply Nu; now left|].
  eapply IH; [|exact E]. intros H. apply Nu. now right.
Qed.
(** bayes_estimator leaves the parameters of the nodes outside [l] as they are (mle_estimator removes them: C70) *)
Theorem C132_others_kept : forall o bn t ess l bn' u, bayes_estimator o bn t ess (Some l) = Ok bn' -> ~ In u l ->
  bn_nodes bn' = bn_nodes bn /\ bn_parents bn' u = bn_parents bn u /\ bn_values bn' u = bn_values bn u /\ bn_cpt bn' u = bn_cpt bn u.
Proof.
  intros o bn t ess l bn' u E Nu. assert (K : kept u bn bn').
  { unfold bayes_estimator in E. apply bind_Ok in E as (st & E1 & E). apply bind_Ok in E as (b2 & E2 & E). apply bind_Ok in E as (b3 & E3 & E).
    eapply kept_trans; [eapply learn_values_kept; [exact Nu|exact E1]|]. eapply kept_trans; [|eapply kept_trans].
    - eapply kept_fold; [|exact E2]. intros b x b' Hx H. cbv beta in H. apply bind_Ok in H as (k & _ & H). destruct (k =? 0); [discriminate|]. eapply set_cpt_kept; [|exact H]. intros ->. contradiction.
    - eapply kept_fold; [|exact E3]. intros b x b' _ H. unfold bayes_row in H. apply bind_Ok in H as (obs & _ & H). eapply kept_fold; [|exact H]. intros c y c' Hy H'. cbv beta in H'.
      apply bind_Ok in H' as (off & _ & H'). apply bind_Ok in H' as (q & _ & H'). apply bind_Ok in H' as (q' & _ & H'). eapply set_cpt_kept; [|exact H']. intros ->. contradiction.
    - eapply kept_fold; [|exact E]. intros b x b' Hx H. cbv beta in H. apply bind_Ok in H as (q & _ & H). apply bind_Ok in H as (k & _ & H). apply bind_Ok in H as (q' & _ & H). eapply set_cpt_kept; [|exact H]. intros ->. contradiction. }
  destruct K as (V & _ & F). unfold bn_nodes, bn_parents, bn_values, bn_cpt, getitem. rewrite V, F. now repeat split.
Qed.
Print Assumptions C132_others_kept.

(** ** nodes that come first and contain their parents *)
(** the node list of a network plays no part once the nodes are given *)
Definition up_V (V : list name) (b : bayesnet) : bayesnet := mkBN V (bn_E b) (bn_F b).
Definition lift {A B} (g : A -> B) (m : res A) : res B := do x <- m ;; Ok (g x).
Lemma foldM_lift {A B S} (g : A -> B) (f : A -> S -> res A) (f' : B -> S -> res B) l : (forall s x, f' (g s) x = lift g (f s x)) -> forall s, foldM f' l (g s) = lift g (foldM f l s).
Proof. intros H. induction l as [|x l IH]; intros s; cbn [foldM]; [reflexivity|]. rewrite H. unfold lift at 1. destruct (f s x) as [s'|e]; cbn [bind]; [apply IH|reflexivity]. Qed.
Lemma set_values_up V b v vs : bn_set_values (up_V V b) v vs = lift (up_V V) (bn_set_values b v vs).
Proof. unfold bn_set_values, lift. cbn [up_V bn_F]. destruct (getitem (bn_F b) v); reflexivity. Qed.
Lemma set_cpt_up V b v c : bn_set_cpt (up_V V b) v c = lift (up_V V) (bn_set_cpt b v c).
Proof. unfold bn_set_cpt, lift. cbn [up_V bn_F]. destruct (getitem (bn_F b) v); reflexivity. Qed.
Lemma learn_values_up V t l b : learn_values t l (up_V V b) = lift (fun st => (fst st, up_V V (snd st))) (learn_values t l b).
Proof.
  unfold learn_values. rewrite <- (foldM_lift (fun st : dict (list name) * bayesnet => (fst st, up_V V (snd st))) (fun st ni => let '(vals, bn) := st in do c <- column t (fst ni) ;; do bn' <- bn_set_values bn (snd ni) (np_unique c) ;; Ok (dset vals (snd ni) (np_unique c), bn'))
     (fun st ni => let '(vals, bn) := st in do c <- column t (fst ni) ;; do bn' <- bn_set_values bn (snd ni) (np_unique c) ;; Ok (dset vals (snd ni) (np_unique c), bn'))); [reflexivity|].
  intros [vals c] [i v]. cbn [fst snd]. unfold lift. destruct (column t i) as [x|]; cbn [bind]; [|reflexivity]. rewrite set_values_up. unfold lift. destruct (bn_set_values c v (np_unique x)); reflexivity.
Qed.
Lemma bayes_estimator_up V o b t ess l : bayes_estimator o (up_V V b) t ess (Some l) = lift (up_V V) (bayes_estimator o b t ess (Some l)).
Proof.
  unfold bayes_estimator. rewrite learn_values_up. unfold lift at 1. destruct (learn_values t l b) as [[vals b1]|]; cbn [bind fst snd]; [|reflexivity].
  set (e := match ess with None => _ | Some q => q end).
  assert (E1 : bayes_prior e l (up_V V b1) = lift (up_V V) (bayes_prior e l b1)).
  { unfold bayes_prior. apply foldM_lift. intros s x. change (p_idx (up_V V s) x) with (p_idx s x). unfold lift. destruct (p_idx s x) as [k|]; cbn [bind]; [|reflexivity]. destruct (k =? 0); [reflexivity|]. rewrite set_cpt_up. reflexivity. }
  rewrite E1. unfold lift at 1. destruct (bayes_prior e l b1) as [b2|]; cbn [bind]; [|reflexivity].
  assert (E2 : foldM (bayes_row o l) (enum (t_rows t)) (up_V V b2) = lift (up_V V) (foldM (bayes_row o l) (enum (t_rows t)) b2)).
  { apply foldM_lift. intros s x. unfold bayes_row. destruct (observe_row l (snd x)) as [obs|]; cbn [bind]; [|reflexivity]. apply foldM_lift. intros c v.
    change (cell_offset (sub o (fst x)) (up_V V c) obs v) with (cell_offset (sub o (fst x)) c obs v). change (bn_cpt (up_V V c) v) with (bn_cpt c v). unfold lift.
    destruct (cell_offset (sub o (fst x)) c obs v) as [off|]; cbn [bind]; [|reflexivity]. destruct (bn_cpt c v) as [q|]; cbn [bind]; [|reflexivity]. destruct (incr_at off q) as [q'|]; cbn [bind]; [|reflexivity]. now rewrite set_cpt_up. }
  rewrite E2. unfold lift at 1. destruct (foldM (bayes_row o l) (enum (t_rows t)) b2) as [b3|]; cbn [bind]; [|reflexivity].
  apply foldM_lift. intros s x. change (bn_cpt (up_V V s) x) with (bn_cpt s x). change (bn_card (up_V V s) x) with (bn_card s x). unfold lift.
  destruct (bn_cpt s x) as [q|]; cbn [bind]; [|reflexivity]. destruct (bn_card s x) as [k|]; cbn [bind]; [|reflexivity]. destruct (norm_cpt 0 k q) as [q'|]; cbn [bind]; [|reflexivity]. now rewrite set_cpt_up.
Qed.
(** for the nodes 0 .. k-1, if they contain their parents, the learned entries are the smoothed frequencies, as if all nodes had been learned *)
Theorem C132_first_nodes : forall o bn t k n ess, good o -> skeleton bn -> table_ok t -> t_rows t <> [] -> bn_V bn = map NInt (seq 0 n) -> k <= n -> n <= t_ncols t ->
  (forall i, i < k -> incl (nparents bn (NInt i)) (map NInt (seq 0 k))) ->
  let e := match ess with Some e => e | None => nQc (length (t_rows t)) end in (0 < e)%Qc ->
  exists b ball, bayes_estimator o bn t ess (Some (map NInt (seq 0 k))) = Ok b /\ bayes_estimator o bn t ess None = Ok ball /\ bn_V b = bn_V bn /\
    forall i, i < k -> nparents b (NInt i) = nparents bn (NInt i) /\ levels t (NInt i) (nvalues b (NInt i)) /\
      nvalues b (NInt i) = nvalues ball (NInt i) /\
      forall a, valid (ncard b) (NInt i :: nparents b (NInt i)) a -> cond_prob b (NInt i) a = Some (py_round 5 (smoothed t e b (NInt i) a)).
Proof.
  intros o bn t k n ess G S T NR EV Lk Ln Cl e He.
  assert (Sub : incl (map NInt (seq 0 k)) (bn_V bn)). { rewrite EV. intros x Hx. apply in_map_iff in Hx as (i & <- & Hi). apply in_map. apply in_seq in Hi. apply in_seq. lia. }
  assert (S' : skeleton (up_V (map NInt (seq 0 k)) bn)).
  { constructor; cbn [up_V bn_V bn_F].
    - apply FinFun.Injective_map_NoDup; [intros x y H; now inversion H|apply seq_NoDup].
    - intros v Hv. apply (sk_F _ S). now apply Sub.
    - intros v Hv. change (nparents (up_V (map NInt (seq 0 k)) bn) v) with (nparents bn v). apply (sk_scope _ S). now apply Sub.
    - intros v Hv. change (nparents (up_V (map NInt (seq 0 k)) bn) v) with (nparents bn v). apply in_map_iff in Hv as (i & <- & Hi). apply in_seq in Hi. apply Cl. lia. }
  destruct (C43_bayes_estimator o (up_V (map NInt (seq 0 k)) bn) t k ess G S' T NR eq_refl ltac:(lia) He) as (b' & E' & W' & V' & _ & P' & F'). fold e in F'.
  destruct (C43_bayes_estimator o bn t n ess G S T NR EV Ln He) as (ball & Ea & _ & Va & _ & _ & Fa).
  change (bayes_estimator o (up_V (map NInt (seq 0 k)) bn) t ess None) with (bayes_estimator o (up_V (map NInt (seq 0 k)) bn) t ess (Some (map NInt (seq 0 k)))) in E'.
  rewrite bayes_estimator_up in E'. unfold lift in E'. apply bind_Ok in E' as (b & Eb & E'). injection E' as <-.
  exists b, ball. split; [exact Eb|]. split; [exact Ea|]. split.
  { destruct (C132_others_kept o bn t ess (map NInt (seq 0 k)) b (NStr "") Eb) as [Q _]; [|exact Q]. intros H. apply in_map_iff in H as (i & Q & _). discriminate. }
  intros i Hi. assert (Iv : In (NInt i) (map NInt (seq 0 k))) by (apply in_map, in_seq; lia). cbn [up_V bn_V] in *.
  split; [exact (P' _ Iv)|]. assert (L1 : levels t (NInt i) (nvalues b (NInt i))) by exact (proj1 F' _ Iv). split; [exact L1|]. split.
  - destruct L1 as [S1 L1]. destruct (proj1 Fa (NInt i)) as [S2 L2]; [rewrite Va; now apply Sub|]. apply LearnInfer.sorted_same; [assumption..|]. intros x. now rewrite L1, L2.
  - intros a Va'. exact (proj2 F' (NInt i) a Iv Va').
Qed.
Print Assumptions C132_first_nodes.

(** ** refuted: node 0 with parent 1, its table learned alone *)
Definition exDep : table := mkT 2 (map (map NInt) [[0; 0]; [0; 0]; [1; 1]; [1; 1]]).
Definition exInd : table := mkT 2 (map (map NInt) [[0; 0]; [0; 1]; [1; 0]; [1; 1]]).
Definition exPar : bayesnet := mkBN [NInt 0; NInt 1] [(NInt 0, []); (NInt 1, [NInt 0])] [(NInt 0, mkF [NInt 1] [NInt 0; NInt 1] []); (NInt 1, mkF [] [NInt 0; NInt 1] [])].
(** in exDep node 0 copies its parent, in exInd it is independent of it; learned alone its table is the same from both, so it is the table that
    learning all nodes gives for at most one of them *)
Theorem C132_refuted : forall o, good o -> exists bd bi, bayes_estimator o exPar exDep (Some 1%Qc) None = Ok bd /\ bayes_estimator o exPar exInd (Some 1%Qc) None = Ok bi /\
  bn_cpt bd (NInt 0) <> bn_cpt bi (NInt 0) /\
  bayes_estimator o exPar exDep (Some 1%Qc) (Some [NInt 0]) = bayes_estimator o exPar exInd (Some 1%Qc) (Some [NInt 0]).
Proof.
  intros o G.
  assert (Sk : skeleton exPar).
  { constructor.
    - repeat constructor; cbn; intuition congruence.
    - intros v [<-|[<-|[]]]; cbn; eauto.
    - intros v [<-|[<-|[]]]; cbn; repeat constructor; cbn; intuition congruence.
    - intros v [<-|[<-|[]]]; cbn; intros x Hx; cbn in *; intuition. }
  assert (T1 : table_ok exDep) by (intros r Hr; cbn in Hr; repeat (destruct Hr as [<-|Hr]; [reflexivity|]); destruct Hr).
  assert (T2 : table_ok exInd) by (intros r Hr; cbn in Hr; repeat (destruct Hr as [<-|Hr]; [reflexivity|]); destruct Hr).
  destruct (C43_bayes_estimator o exPar exDep 2 (Some 1%Qc) G Sk T1 ltac:(discriminate) eq_refl (le_n 2) eq_refl) as (bd & Ed & Wd & Vd & _ & Pd & Ld & Fd).
  destruct (C43_bayes_estimator o exPar exInd 2 (Some 1%Qc) G Sk T2 ltac:(discriminate) eq_refl (le_n 2) eq_refl) as (bi & Ei & Wi & Vi & _ & Pi & Li & Fi).
  exists bd, bi. split; [exact Ed|]. split; [exact Ei|]. split.
  2:{ apply C132_ignores_other_columns. split; [reflexivity|]. cbn. repeat (constructor; [intros i Hi; destruct Hi as [<-|[<-|[]]]; reflexivity|]). constructor. }
  assert (Lev : forall t, t = exDep \/ t = exInd -> forall v vs, In v [NInt 0; NInt 1] -> levels t v vs -> vs = [NInt 0; NInt 1]).
  { intros t Ht v vs Hv [Sv Lv]. apply LearnInfer.sorted_same; [assumption|exact (LearnInfer.numbers_sorted 2 0)|]. intros x. rewrite Lv. split.
    - intros (r & Hr & Ex). destruct Ht as [-> | ->]; cbn in Hr; (repeat (destruct Hr as [<-|Hr]; [destruct Hv as [<-|[<-|[]]]; cbn in Ex; injection Ex as <-; cbn; auto|])); destruct Hr.
    - intros [<-|[<-|[]]]; [exists [NInt 0; NInt 0]|exists [NInt 1; NInt 1]]; (split; [destruct Ht as [-> | ->]; cbn; auto 8|]); destruct Hv as [<-|[<-|[]]]; reflexivity. }
  assert (Hd : forall v, In v [NInt 0; NInt 1] -> nvalues bd v = [NInt 0; NInt 1]). { intros v Hv. apply (Lev exDep (or_introl eq_refl) v); [assumption|]. apply Ld. now rewrite Vd. }
  assert (Hi : forall v, In v [NInt 0; NInt 1] -> nvalues bi v = [NInt 0; NInt 1]). { intros v Hv. apply (Lev exInd (or_intror eq_refl) v); [assumption|]. apply Li. now rewrite Vi. }
  assert (P0 : nparents bd (NInt 0) = [NInt 1] /\ nparents bi (NInt 0) = [NInt 1]) by (split; [apply (Pd (NInt 0)); now left|apply (Pi (NInt 0)); now left]). destruct P0 as [P0 P1].
  assert (Vbd : In (NInt 0) (bn_V bd)) by (rewrite Vd; now left). assert (Vbi : In (NInt 0) (bn_V bi)) by (rewrite Vi; now left).
  assert (Ad : valid (ncard bd) (NInt 0 :: nparents bd (NInt 0)) (fun _ => 0)). { rewrite P0. intros v [<-|[<-|[]]]; rewrite nvalues_card, Hd by (cbn; auto); cbn; lia. }
  assert (Ai : valid (ncard bi) (NInt 0 :: nparents bi (NInt 0)) (fun _ => 0)). { rewrite P1. intros v [<-|[<-|[]]]; rewrite nvalues_card, Hi by (cbn; auto); cbn; lia. }
  specialize (Fd (NInt 0) (fun _ => 0) Vbd Ad). specialize (Fi (NInt 0) (fun _ => 0) Vbi Ai).
  intros E. assert (Q : cond_prob bd (NInt 0) (fun _ => 0) = cond_prob bi (NInt 0) (fun _ => 0)).
  { unfold cond_prob. rewrite P0, P1. cbn [radix]. unfold bn_cpt in E. destruct (wn_F _ Wd _ Vbd) as [d1 D1]. destruct (wn_F _ Wi _ Vbi) as [d2 D2].
    rewrite (getitem_Some _ _ _ D1), (getitem_Some _ _ _ D2) in E. cbn [bind] in E. injection E as E. unfold ncpt. rewrite D1, D2, E. now rewrite !Nat.mul_0_r. }
  rewrite Fd, Fi in Q. injection Q as Q. revert Q. unfold smoothed. rewrite P0, P1. cbn [map config]. rewrite !nvalues_card, !Hd, !Hi by (cbn; auto). cbn [length nth]. vm_compute. discriminate.
Qed.
Print Assumptions C132_refuted.
Example C132_nonvacuous : skeleton (exLbn [NInt 0; NInt 1]) /\ (forall i, i < 2 -> incl (nparents (exLbn [NInt 0; NInt 1]) (NInt i)) (map NInt (seq 0 2))) /\
  exists b, bayes_estimator id_oracle (exLbn [NInt 0; NInt 1]) exL None (Some [NInt 0; NInt 1]) = Ok b /\ bn_values b (NInt 1) = Ok [NInt 0; NInt 1; NInt 2] /\ bn_cpt b (NInt 2) = Ok [].
Proof.
  split; [apply exLbn_skeleton; now left|]. split; [intros i Hi; destruct i as [|[|i]]; [intros x []|intros x []|lia]|].
  destruct (bayes_estimator id_oracle (exLbn [NInt 0; NInt 1]) exL None (Some [NInt 0; NInt 1])) as [b|] eqn:E; [|exfalso; revert E; vm_compute; discriminate].
  exists b. split; [reflexivity|]. split; [|destruct (C132_others_kept _ _ _ _ _ _ (NInt 2) E) as (_ & _ & _ & ->); [cbn; intuition congruence|reflexivity]].
  assert (X : match bayes_estimator id_oracle (exLbn [NInt 0; NInt 1]) exL None (Some [NInt 0; NInt 1]) with Ok b => bn_values b (NInt 1) | Raise e => Raise e end = Ok [NInt 0; NInt 1; NInt 2]) by (vm_compute; reflexivity). now rewrite E in X.
Qed.
