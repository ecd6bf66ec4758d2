(** Properties_LearnErr.v -- theorem C133: when parameter learning raises.
    Specification: none beyond the model's table (Data.v) and network (BayesNet.v). *)
From Verif Require Import Py Num BayesNet Factor SpecFactor Radix Graph GraphNet Data SpecLearn ParamLearn ParamFacts ParamMain Rounding Examples Properties_Learn.
Open Scope nat_scope.

(** the nodes of the network are numbers of columns of the data *)
Definition names_column (t : table) (v : name) : Prop := exists i, v = NInt i /\ i < t_ncols t.
Lemma names_in_cols t v : names_column t v <-> in_cols t v.
Proof. split; [intros (i & -> & L); exact L|]. destruct v as [i|s]; [intros L; exists i; auto|intros []]. Qed.
Lemma columns_enough t l : NoDup l -> (forall v, In v l -> names_column t v) -> length l <= t_ncols t.
Proof.
  intros N H. rewrite <- (seq_length (t_ncols t) 0), <- (map_length NInt (seq 0 (t_ncols t))). apply NoDup_incl_length; [assumption|].
  intros v Hv. destruct (H v Hv) as (i & -> & L). apply in_map, in_seq. lia.
Qed.
Lemma learn_values_index t nodes : table_ok t -> forall k bn vals, k <= t_ncols t -> t_ncols t < k + length nodes -> (forall v, In v nodes -> exists d, dget (bn_F bn) v = Some d) ->
  foldM (fun st ni => let '(vals, bn) := st in do c <- column t (fst ni) ;; do bn' <- bn_set_values bn (snd ni) (np_unique c) ;; Ok (dset vals (snd ni) (np_unique c), bn'))
    (combine (seq k (length nodes)) nodes) (vals, bn) = Raise IndexError.
Proof.
  intros T. induction nodes as [|n nodes IH]; intros k bn vals L1 L2 Hd; cbn [length] in *; [lia|]. cbn [seq combine foldM fst snd].
  destruct (Nat.eq_dec k (t_ncols t)) as [-> |Nk]; [unfold column; rewrite Nat.ltb_irrefl; reflexivity|].
  rewrite column_ok by (assumption || lia). cbn [bind]. destruct (Hd n (or_introl eq_refl)) as [d D]. unfold bn_set_values at 1. rewrite (getitem_Some _ _ _ D). cbn [bind].
  apply IH; [lia|lia|]. intros v Hv. cbn. rewrite dget_dset. destruct (name_eqb v n); [eauto|]. apply Hd. now right.
Qed.
Lemma observe_index t r nodes : table_ok t -> In r (t_rows t) -> (exists v, In v nodes /\ ~ names_column t v) -> observe_row nodes r = Raise IndexError.
Proof.
  intros T Hr. unfold observe_row. induction nodes as [|n nodes IH]; intros (v & Hv & Nv); [destruct Hv|]. cbn [mapM].
  destruct n as [i|s]; [|reflexivity]. cbn [row_get]. unfold nget. destruct (nth_error r i) as [x|] eqn:E; [|reflexivity]. cbn [bind]. rewrite IH; [reflexivity|].
  exists v. split; [|exact Nv]. destruct Hv as [<-|Hv]; [|exact Hv]. exfalso. apply Nv. exists i. split; [reflexivity|]. rewrite <- (T r Hr). apply nth_error_Some. congruence.
Qed.

(** ** C133 *)
(** on data with at least one row: if every node is the number of a column both learners return; if one is not (a string, say,
    or a number past the last column) both raise IndexError *)
Theorem C133_nodes_are_columns : forall o bn t ess, good o -> skeleton bn -> has_edge_lists bn -> table_ok t -> t_rows t <> [] ->
  ((forall v, In v (bn_nodes bn) -> names_column t v) ->
     (exists b, mle_estimator o bn t None = Ok b) /\
     ((0 < match ess with Some e => e | None => nQc (length (t_rows t)) end)%Qc -> exists b, bayes_estimator o bn t ess None = Ok b)) /\
  ((exists v, In v (bn_nodes bn) /\ ~ names_column t v) ->
     mle_estimator o bn t None = Raise IndexError /\ bayes_estimator o bn t ess None = Raise IndexError).
Proof.
  intros o bn t ess G S HE T NR. unfold bn_nodes. split.
  - intros H. assert (L := columns_enough t _ (sk_V _ S) H). assert (Hc : forall v, In v (bn_V bn) -> in_cols t v) by (intros v Hv; apply names_in_cols; auto). split.
    + destruct (mle_estimator_ok o bn t G S T NR L Hc HE) as (bn2 & bn' & E & _). eauto.
    + intros He. destruct (bayes_estimator_ok o bn t ess G S T NR L Hc He) as (b & E & _). eauto.
  - intros Bad. destruct (le_lt_dec (length (bn_V bn)) (t_ncols t)) as [L|L].
    + destruct (learn_values_ok t bn T S L) as (vals & bn1 & E1 & V1 & EE1 & H1).
      assert (S1 : skeleton bn1) by (eapply learned_skel; [exact S|exact V1|]; intros v Hv; apply (H1 v Hv)).
      destruct (t_rows t) as [|r rs] eqn:Er; [congruence|]. assert (Hr : In r (t_rows t)) by (rewrite Er; now left). assert (Ob := observe_index t r (bn_V bn) T Hr Bad). split.
      * unfold mle_estimator, mle_count. rewrite E1. cbn [bind]. destruct (mle_zero_gen bn1 S1 (bn_V bn) bn1 [] (shape_refl _ (sk_F _ S1))) as (C0 & bn2 & E2 & _); [apply S|rewrite V1; apply incl_refl|].
        assert (E2' : mle_zero (bn_V bn) bn1 = Ok (C0, bn2)) by exact E2. rewrite E2'. cbn [bind]. rewrite Er. unfold enum. cbn [length seq combine foldM]. unfold mle_row at 1. cbn [snd]. rewrite Ob. reflexivity.
      * unfold bayes_estimator. rewrite E1. cbn [bind snd].
        assert (C1 : forall v, In v (bn_V bn) -> 0 < ncard bn1 v).
        { intros v Hv. rewrite nvalues_card. destruct (H1 v Hv) as (_ & c & D). unfold nvalues. rewrite D. cbn [f_values]. destruct (pos_levels_nonempty t (bn_V bn) v ltac:(rewrite Er; discriminate) Hv) as [K _]. destruct (pos_levels t (bn_V bn) v); [congruence|cbn [length]; lia]. }
        destruct (bayes_prior_gen bn1 S1 (match ess with Some e => e | None => nQc (length (t_rows t)) end)) with (nodes := bn_V bn) (bn := bn1) as (bn2 & E2 & _).
        { intros v Hv. assert (0 < scope_size bn1 v); [|lia]. apply size_pos. intros u Hu. apply C1. rewrite <- V1. destruct Hu as [<-|Hu]; [assumption|now apply (sk_par _ S1 v)]. }
        { apply shape_refl, (sk_F _ S1). } { apply S. } { rewrite V1. apply incl_refl. }
        assert (E2' : bayes_prior (match ess with None => nQc (length (t_rows t)) | Some q => q end) (bn_V bn) bn1 = Ok bn2) by (destruct ess; exact E2). rewrite E2'. cbn [bind]. rewrite Er. unfold enum. cbn [length seq combine foldM]. unfold bayes_row at 1. cbn [snd]. rewrite Ob. reflexivity.
    + assert (E : learn_values t (bn_V bn) bn = Raise IndexError) by (apply learn_values_index; [exact T|lia|exact L|apply (sk_F _ S)]).
      split; [unfold mle_estimator, mle_count|unfold bayes_estimator]; rewrite E; reflexivity.
Qed.
Print Assumptions C133_nodes_are_columns.
(** data without rows: every table is empty; mle_estimator raises ValueError (range with step 0), bayes_estimator
    ZeroDivisionError (the prior count over 0 cells); with fewer columns than nodes both raise IndexError *)
Theorem C133_no_rows : forall o bn t ess, skeleton bn -> has_edge_lists bn -> t_rows t = [] -> bn_nodes bn <> [] ->
  (length (bn_nodes bn) <= t_ncols t -> mle_estimator o bn t None = Raise ValueError /\ bayes_estimator o bn t ess None = Raise ZeroDivisionError /\
     exists F b, mle_counts o bn t None = Ok (F, b) /\ forall v, In v (bn_nodes bn) -> dget F v = Some ([], [])) /\
  (t_ncols t < length (bn_nodes bn) -> mle_estimator o bn t None = Raise IndexError /\ bayes_estimator o bn t ess None = Raise IndexError).
Proof.
  intros o bn t ess S HE NR NE. unfold bn_nodes in *. assert (T : table_ok t) by (intros r Hr; rewrite NR in Hr; destruct Hr). split; intros L.
  - destruct (learn_values_ok t bn T S L) as (vals & bn1 & E1 & V1 & EE1 & H1).
    assert (S1 : skeleton bn1) by (eapply learned_skel; [exact S|exact V1|]; intros v Hv; apply (H1 v Hv)).
    assert (P0 : forall v, In v (bn_V bn) -> pos_levels t (bn_V bn) v = []). { intros v Hv. unfold pos_levels. destruct (index_of v (bn_V bn)); [|reflexivity]. unfold colu. now rewrite NR. }
    assert (C0 : forall v, In v (bn_V bn) -> ncard bn1 v = 0). { intros v Hv. rewrite nvalues_card. destruct (H1 v Hv) as (_ & c & D). unfold nvalues. rewrite D, P0 by assumption. reflexivity. }
    assert (Z : forall v, In v (bn_V bn) -> scope_size bn1 v = 0). { intros v Hv. unfold scope_size, size. cbn [map nprod fold_right]. now rewrite C0. }
    destruct (mle_zero_gen bn1 S1 (bn_V bn) bn1 [] (shape_refl _ (sk_F _ S1))) as (C & bn2 & E2 & S2 & _ & H2); [apply S|rewrite V1; apply incl_refl|].
    assert (E2' : mle_zero (bn_V bn) bn1 = Ok (C, bn2)) by exact E2.
    assert (EC : mle_count o t (bn_V bn) bn = Ok (vals, C, bn2)) by (unfold mle_count; rewrite E1; cbn [bind]; rewrite E2'; cbn [bind]; rewrite NR; reflexivity).
    assert (DC : forall v, In v (bn_V bn) -> dget C v = Some []) by (intros v Hv; destruct (H2 v Hv) as [D _]; rewrite D, Z by assumption; reflexivity).
    assert (DV : forall v, In v (bn_V bn) -> dget vals v = Some []) by (intros v Hv; destruct (H1 v Hv) as [D _]; rewrite D, P0 by assumption; reflexivity).
    split; [|split].
    + unfold mle_estimator. rewrite EC. cbn [bind]. destruct S2 as (V2 & EE2 & K2).
      destruct (bn_V bn) as [|v l] eqn:EV; [congruence|]. cbn [foldM]. assert (Hv : In v (bn_V bn)) by (rewrite EV; now left).
      rewrite (mapM_ok _ (fun var => (var, mem v (match dget (bn_E bn2) var with Some c => c | None => [] end)))).
      2:{ intros u Hu. destruct (HE u) as [c D]; [now rewrite EV|]. rewrite EE2, EE1. rewrite (getitem_Some _ _ _ D), D. reflexivity. }
      cbn [bind]. rewrite (getitem_Some _ _ _ (DV v (or_introl eq_refl))). cbn [bind]. rewrite (getitem_Some _ _ _ (DC v (or_introl eq_refl))). cbn [bind].
      destruct (K2 v) as (_ & _ & KC & d & D); [rewrite V1; now left|]. unfold bn_card. rewrite (getitem_Some _ _ _ D). cbn [bind].
      assert (Zd : length (f_values d) = 0) by (unfold ncard in KC at 1; rewrite D in KC; rewrite KC; apply C0; now left). rewrite Zd. reflexivity.
    + unfold bayes_estimator. rewrite E1. cbn [bind snd]. destruct (bn_V bn) as [|v l] eqn:EV; [congruence|]. unfold bayes_prior. cbn [foldM].
      rewrite (p_idx_ok bn1 S1 bn1 v) by (first [apply shape_refl, (sk_F _ S1)|rewrite V1; now left]). cbn [bind]. rewrite Z by now left. reflexivity.
    + unfold mle_counts. rewrite EC. cbn [bind]. rewrite (mapM_ok _ (fun rv => (rv, ([], [])))).
      2:{ intros v Hv. rewrite (getitem_Some _ _ _ (DV v Hv)). cbn [bind]. rewrite (getitem_Some _ _ _ (DC v Hv)). reflexivity. }
      cbn [bind]. eexists _, _. split; [reflexivity|]. intros v Hv. apply mem_In in Hv. now rewrite dget_map_pair, Hv.
  - assert (E : learn_values t (bn_V bn) bn = Raise IndexError) by (apply learn_values_index; [exact T|lia|exact L|apply (sk_F _ S)]).
    split; [unfold mle_estimator, mle_count|unfold bayes_estimator]; rewrite E; reflexivity.
Qed.
Print Assumptions C133_no_rows.
(** the learning example of C41 over columns 0, 1 and 2, the same network with a string for a name, and data with no rows *)
Definition exNamed : bayesnet := mkBN [NInt 0; nm "b"] [(NInt 0, [nm "b"]); (nm "b", [])] [(NInt 0, mkF [] [] []); (nm "b", mkF [NInt 0] [] [])].
Example C133_nonvacuous : skeleton (exLbn [NInt 0; NInt 1]) /\ has_edge_lists (exLbn [NInt 0; NInt 1]) /\ (forall v, In v (bn_nodes (exLbn [NInt 0; NInt 1])) -> names_column exL v) /\
  skeleton exNamed /\ has_edge_lists exNamed /\ ~ names_column exL (nm "b") /\ mle_estimator id_oracle exNamed exL None = Raise IndexError /\
  bayes_estimator rev_oracle exNamed exL None None = Raise IndexError /\
  mle_estimator id_oracle (exLbn [NInt 0; NInt 1]) (mkT 3 []) None = Raise ValueError.
Proof.
  split; [apply exLbn_skeleton; now left|]. split; [intros v [<-|[<-|[<-|[]]]]; cbn; eauto|]. split; [intros v [<-|[<-|[<-|[]]]]; eexists; (split; [reflexivity|cbn; lia])|].
  assert (ND : NoDup [NInt 0; nm "b"] /\ NoDup [nm "b"; NInt 0]) by (split; (constructor; [intros [E|[]]; discriminate|constructor; [intros []|constructor]])).
  split; [constructor|].
  { exact (proj1 ND). } { intros v [<-|[<-|[]]]; cbn; eauto. }
  { intros v [<-|[<-|[]]]; [constructor; [intros []|constructor]|exact (proj2 ND)]. }
  { intros v [<-|[<-|[]]]; intros x Hx; cbn in *; intuition. }
  split; [intros v [<-|[<-|[]]]; cbn; eauto|]. split; [intros (i & E & _); discriminate|]. split; [vm_compute; reflexivity|]. split; vm_compute; reflexivity.
Qed.
