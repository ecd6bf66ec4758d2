(** Properties_Emp.v -- theorem C107: EmpiricalDistribution.  Specification: SpecData.v (contingency tables). *)
From Verif Require Import Py Num BayesNet Data SpecConstraint SpecLearn SpecData DataUtils DataFacts HistFacts MiFacts Empirical EmpFacts Properties_Data.
Open Scope nat_scope.

Lemma nQc_nz' n : 0 < n -> nQc n <> 0%Qc.
Proof. intros H E. apply nQc_pos in H. rewrite E in H. discriminate. Qed.
(** the constructor does not accept names *)
Theorem C107_names : forall t l, new_empirical t (Some l) = Raise AttributeError.
Proof. reflexivity. Qed.
(** three methods read names that do not exist, in every state the object can reach *)
Theorem C107_undefined_names : forall ed h l r rvs, let ed' := run_calls ed h in
  fst (run_call ed' (CIdxMap l)) = Raise NameError /\ fst (run_call ed' (CJpd rvs)) = Raise NameError /\
  fst (run_call ed' (CCpd (ArgName r) (ArgTuple rvs))) = Raise NameError /\ fst (run_call ed' CMi) = Raise UnboundLocalError.
Proof. intros. split; [reflexivity|]. split; [reflexivity|]. split; reflexivity. Qed.
Print Assumptions C107_undefined_names.
(** otherwise, for columns of consecutive codes: the counts are the contingency table of the data; the joint is not the
    empirical distribution but that plus 1/1000 in every cell, so it sums to 1 + cells/1000 *)
Theorem C107_constructor : forall t ranges, table_ok t -> t_rows t <> [] -> Forall2 (consecutive t) (columns (t_ncols t)) ranges ->
  exists ed, new_empirical t None = Ok ed /\ ed_names ed = columns (t_ncols t) /\ ed_nrow ed = length (t_rows t) /\ ed_nvar ed = t_ncols t /\
    ed_bins ed = map snd ranges /\ ed_counts ed = contingency t (columns (t_ncols t)) ranges /\
    ed_joint ed = map (fun c => (nQc c / nQc (length (t_rows t)) + Q2Qc (1 # 1000))%Qc) (ed_counts ed) /\
    qsum (ed_joint ed) = (1 + nQc (fold_right Nat.mul 1%nat (map snd ranges)) * Q2Qc (1 # 1000))%Qc /\ ed_cache ed = [].
Proof.
  intros t ranges W NE F. destruct (hist_contingency t _ _ W NE F) as [U H]. unfold new_empirical.
  assert (Sel : select t (columns (t_ncols t)) = Ok (map (ints t) (columns (t_ncols t)))).
  { apply select_ok; [exact W|]. intros v Hv. assert (C : exists ak, consecutive t v ak). { clear - F Hv. induction F; [destruct Hv|]. destruct Hv as [<-|Hv]; eauto. } destruct C as [ak C]. now apply (consecutive_coded t v ak). }
  rewrite Sel. cbn [bind]. rewrite U, H. cbn [bind]. eexists. split; [reflexivity|]. cbn [ed_names ed_nrow ed_nvar ed_bins ed_counts ed_joint ed_cache].
  rewrite (contingency_sum t _ _ W F). do 6 (split; [reflexivity|]). split; [|reflexivity].
  set (L := contingency _ _ _). rewrite qsum_map_plus. 
  assert (P : qsum (map (fun c => nQc c / nQc (length (t_rows t)))%Qc L) = 1%Qc).
  { unfold Qcdiv. rewrite (qsum_map_mult_r (/ nQc (length (t_rows t)))%Qc nQc L). rewrite <- nQc_list_sum. unfold L. rewrite (contingency_sum t _ _ W F). apply Qcmult_inv_r. apply nQc_nz'. destruct (t_rows t); [congruence|cbn; lia]. }
  rewrite P. f_equal. assert (LL : length L = fold_right Nat.mul 1 (map snd ranges)) by (unfold L, contingency; rewrite map_length; apply tuples_length). rewrite <- LL. clear. induction L as [|x L IH]; [cbn; rewrite nQc_0; ring|]. cbn [map qsum fold_right length]. rewrite nQc_S. unfold qsum in IH. rewrite IH. ring.
Qed.
Print Assumptions C107_constructor.

Definition assigns (c : call) : bool := match c with CNames _ => true | _ => false end.
(** [ed'] is [ed] with some answers of mpd remembered *)
Definition same_but_cache (ed ed' : empirical) : Prop :=
  ed_names ed' = ed_names ed /\ ed_nrow ed' = ed_nrow ed /\ ed_nvar ed' = ed_nvar ed /\ ed_bins ed' = ed_bins ed /\ ed_counts ed' = ed_counts ed /\ ed_joint ed' = ed_joint ed /\
  forall rv a, dget (ed_cache ed') rv = Some a -> dget (ed_cache ed) rv = Some a \/ marginal_of ed rv = Ok a.
Lemma marginal_same ed ed' rv : same_but_cache ed ed' -> marginal_of ed' rv = marginal_of ed rv.
Proof. intros (H1 & _ & H3 & H4 & _ & H6 & _). unfold marginal_of. now rewrite H1, H3, H4, H6. Qed.
Lemma run_call_same ed ed' c : same_but_cache ed ed' -> assigns c = false -> same_but_cache ed (snd (run_call ed' c)).
Proof.
  intros S A. destruct c; try discriminate; cbn [run_call snd]; try exact S. unfold mpd. destruct rv; [exact S|]. destruct (dget (ed_cache ed') (NStr s)) as [a|] eqn:D; [exact S|].
  destruct (marginal_of ed' (NStr s)) as [a|e] eqn:M; [|exact S]. cbn [snd]. pose proof S as (H1 & H2 & H3 & H4 & H5 & H6 & H7). repeat (split; [assumption|]). cbn [ed_cache]. intros rv a' H.
  rewrite dget_dset in H. destruct (name_eqb_spec rv (NStr s)) as [-> |N]; [injection H as <-; right; now rewrite <- (marginal_same ed ed')|now apply H7].
Qed.
Lemma run_calls_same ed h : forall ed', same_but_cache ed ed' -> forallb (fun c => negb (assigns c)) h = true -> same_but_cache ed (run_calls ed' h).
Proof.
  induction h as [|c h IH]; intros ed' S A; [exact S|]. cbn in A. apply andb_true_iff in A as [A1 A2]. cbn [run_calls fold_left]. apply IH; [|exact A2]. apply run_call_same; [exact S|]. now apply negb_true_iff.
Qed.
Lemma same_refl ed : same_but_cache ed ed.
Proof. repeat (split; [reflexivity|]). intros rv a H. now left. Qed.
(** on an object whose names were not assigned, whatever was called before, no call returns a distribution *)
Theorem C107_fresh : forall t ed h c a, new_empirical t None = Ok ed -> forallb (fun c => negb (assigns c)) h = true -> assigns c = false ->
  fst (run_call (run_calls ed h) c) = Ok a -> (c = CBayesCounts \/ c = CAxisTuple) /\ a = ANone \/ exists i, c = CIdx (NInt i) /\ a = AIndex i /\ i < t_ncols t.
Proof.
  intros t ed h c a E Hh Hc R. assert (En : ed_names ed = columns (t_ncols t) /\ ed_cache ed = []).
  { unfold new_empirical in E. destruct (select t (columns (t_ncols t))) as [cs|]; [|discriminate]. cbn [bind] in E. destruct (hist _ _ cs); [|discriminate]. cbn [bind] in E. injection E as <-. now split. }
  destruct En as [En Ec]. pose proof (run_calls_same ed h ed (same_refl ed) Hh) as S. set (ed' := run_calls ed h) in *. clearbody ed'. pose proof S as (S1 & _ & _ & _ & _ & _ & S7).
  assert (NS : forall s, marginal_of ed (NStr s) = Raise ValueError).
  { intros s. unfold marginal_of. rewrite En. unfold list_index, columns. replace (index_of (NStr s) (map NInt (seq 0 (t_ncols t)))) with (@None nat); [reflexivity|].
    symmetry. induction (seq 0 (t_ncols t)) as [|x l IH]; [reflexivity|]. cbn. now rewrite IH. }
  destruct c; try discriminate; cbn [run_call fst] in R.
  - exfalso. unfold mpd in R. destruct rv; [discriminate|]. destruct (dget (ed_cache ed') (NStr s)) as [b|] eqn:D; [apply S7 in D; rewrite Ec, NS in D; destruct D; discriminate|]. rewrite (marginal_same ed ed') in R by exact S. rewrite NS in R. discriminate.
  - exfalso. destruct rhs; try discriminate. destruct lhs; discriminate.
  - right. rewrite S1, En in R. destruct (list_index (columns (t_ncols t)) rv) as [i|] eqn:I; [|discriminate]. cbn [bind] in R. injection R as <-. unfold list_index in I. destruct (index_of rv (columns (t_ncols t))) as [k|] eqn:K; [|discriminate]. injection I as <-.
    assert (Hk : nth_error (columns (t_ncols t)) k = Some rv) by now apply index_of_Some. exists k. unfold columns in Hk. rewrite nth_error_map in Hk. assert (L : k < t_ncols t). { destruct (nth_error (seq 0 (t_ncols t)) k) eqn:Z; [|discriminate]. rewrite <- (seq_length (t_ncols t) 0). apply nth_error_Some. congruence. }
    rewrite (nth_error_nth' _ 0) in Hk by (rewrite seq_length; exact L). rewrite seq_nth in Hk by exact L. injection Hk as <-. split; [reflexivity|]. split; [reflexivity|exact L].
  - left. injection R as <-. split; [now left|reflexivity].
  - left. injection R as <-. split; [now right|reflexivity].
Qed.
Print Assumptions C107_fresh.

(** once the names are set to distinct strings, one per column: after any calls, mpd of the i-th name is the number of rows
    with each level of column i divided by the number of rows, plus 1/1000 for each combination of levels of the other columns *)
Theorem C107_mpd : forall t ranges ed names h i rv v ak, table_ok t -> t_rows t <> [] -> Forall2 (consecutive t) (columns (t_ncols t)) ranges -> new_empirical t None = Ok ed ->
  NoDup names -> length names = t_ncols t -> forallb (fun c => negb (assigns c)) h = true -> nth_error names i = Some (NStr rv) -> nth_error (columns (t_ncols t)) i = Some v -> nth_error ranges i = Some ak ->
  fst (run_call (run_calls (snd (run_call ed (CNames names))) h) (CMpd (NStr rv))) =
    Ok (AArray (map (fun k => (nQc (rows_with t [(v, NInt (fst ak + k))]) / nQc (length (t_rows t)) + nQc (others (map snd ranges) i) * Q2Qc (1 # 1000))%Qc) (seq 0 (snd ak)))).
Proof.
  intros t ranges ed names h i rv v ak W NE F E ND L Hh Hi Hv Ha. destruct (C107_constructor t ranges W NE F) as (ed0 & E0 & _ & _ & Nv & Bi & Co & Jo & _ & Ca). rewrite E in E0. injection E0 as <-.
  set (ed1 := snd (run_call ed (CNames names))). assert (M : marginal_of ed1 (NStr rv) = Ok (map (fun k => (nQc (rows_with t [(v, NInt (fst ak + k))]) / nQc (length (t_rows t)) + nQc (others (map snd ranges) i) * Q2Qc (1 # 1000))%Qc) (seq 0 (snd ak)))).
  { unfold marginal_of, ed1. cbn [run_call snd ed_names ed_nvar ed_bins ed_joint]. unfold list_index. rewrite (index_of_nth names i _ ND Hi). cbn [bind]. rewrite Nv.
    assert (Li : i < t_ncols t) by (rewrite <- L; apply nth_error_Some; congruence). apply Nat.ltb_lt in Li as Lb. rewrite Lb. apply f_equal. rewrite Bi, Jo, Co.
    assert (Nb : nth i (map snd ranges) 0 = snd ak) by (apply nth_error_nth; now rewrite nth_error_map, Ha). rewrite Nb. apply map_ext_in. intros k Hk. apply in_seq in Hk.
    unfold contingency. set (g := fun idx => rows_with t _).
    assert (Fil : forall l, map snd (filter (fun p => nth i (fst p) 0 =? k) (combine l (map (fun c => (nQc c / nQc (length (t_rows t)) + Q2Qc (1 # 1000))%Qc) (map g l)))) = map (fun idx => (nQc (g idx) / nQc (length (t_rows t)) + Q2Qc (1 # 1000))%Qc) (filter (fun idx => nth i idx 0 =? k) l)).
    { induction l as [|x l IH]; [reflexivity|]. cbn [map combine filter fst]. destruct (nth i x 0 =? k); cbn [map snd]; now rewrite IH. }
    rewrite Fil, qsum_map_plus. f_equal.
    - unfold Qcdiv. rewrite (qsum_map_mult_r (/ nQc (length (t_rows t)))%Qc (fun idx => nQc (g idx))). f_equal. rewrite <- (map_map g nQc), <- nQc_list_sum. f_equal. now apply contingency_marginal.
    - rewrite <- (tuples_slice (map snd ranges) i k); [|rewrite map_length; apply nth_error_Some; congruence|lia]. generalize (filter (fun idx => nth i idx 0 =? k) (tuples (map snd ranges))). clear. induction l as [|x l IH]; [cbn; rewrite nQc_0; ring|]. cbn [map qsum fold_right length]. rewrite nQc_S. unfold qsum in IH. rewrite IH. ring. }
  pose proof (run_calls_same ed1 h ed1 (same_refl ed1) Hh) as S. cbn [run_call fst]. unfold mpd. destruct (dget (ed_cache (run_calls ed1 h)) (NStr rv)) as [a|] eqn:D.
  - apply S in D as [D|D]; [|rewrite M in D; now injection D as <-]. unfold ed1 in D. cbn in D. rewrite Ca in D. discriminate.
  - rewrite (marginal_same ed1 _ _ S), M. reflexivity.
Qed.
Print Assumptions C107_mpd.
(** an answer once given is given for ever, whatever names are assigned afterwards *)
Theorem C107_stale : forall ed ed' rv a h, run_call ed (CMpd rv) = (Ok a, ed') -> fst (run_call (run_calls ed' h) (CMpd rv)) = Ok a.
Proof.
  intros ed ed' rv a h R. cbn [run_call] in R. assert (D : exists l, a = AArray l /\ dget (ed_cache ed') rv = Some l /\ exists s, rv = NStr s).
  { unfold mpd in R. destruct rv as [|s]; [discriminate|]. destruct (dget (ed_cache ed) (NStr s)) as [l|] eqn:D; [injection R as <- <-; exists l; eauto|]. destruct (marginal_of ed (NStr s)) as [l|]; [|discriminate]. injection R as <- <-. exists l. split; [reflexivity|]. split; [|eauto]. cbn [ed_cache]. rewrite dget_dset. now destruct (name_eqb_spec (NStr s) (NStr s)). }
  destruct D as (l & -> & D & s & ->). assert (G : dget (ed_cache (run_calls ed' h)) (NStr s) = Some l).
  { clear R ed. revert ed' D. induction h as [|c h IH]; intros ed D; [exact D|]. cbn [run_calls fold_left]. apply IH. destruct c; try exact D. cbn [run_call]. unfold mpd. destruct rv as [|s']; [exact D|]. destruct (dget (ed_cache ed) (NStr s')) eqn:Ds; [exact D|]. destruct (marginal_of ed (NStr s')); [|exact D].
    cbn [snd ed_cache]. rewrite dget_dset. destruct (name_eqb_spec (NStr s) (NStr s')) as [Q|Q]; [congruence|exact D]. }
  cbn [run_call]. unfold mpd. now rewrite G.
Qed.
Print Assumptions C107_stale.

Example C107_nonvacuous : table_ok exBits /\ t_rows exBits <> [] /\ Forall2 (consecutive exBits) (columns (t_ncols exBits)) [(0, 2); (0, 2); (0, 2); (0, 2)] /\
  exists ed, new_empirical exBits None = Ok ed /\ qsum (ed_joint ed) = Q2Qc (1016 # 1000) /\
    fst (run_call (run_calls (snd (run_call ed (CNames (map NStr ["a"; "b"; "c"; "d"]%string)))) [CJpd [NInt 0]; CMpd (NStr "b")]) (CMpd (NStr "a"))) = Ok (AArray [Q2Qc (408 # 1000); Q2Qc (608 # 1000)]).
Proof.
  split; [apply exBits_ok|]. split; [discriminate|]. split; [cbn; repeat (constructor; [apply exBits_consecutive; lia|]); constructor|]. eexists. split; [vm_compute; reflexivity|]. split; [apply Qc_is_canon; vm_compute; reflexivity|].
  match goal with |- ?x = _ => let y := eval vm_compute in x in change (y = Ok (AArray [Q2Qc (408 # 1000); Q2Qc (608 # 1000)])) end. do 2 apply f_equal. apply f_equal2; [apply Qc_is_canon; vm_compute; reflexivity|]. apply f_equal2; [apply Qc_is_canon; vm_compute; reflexivity|reflexivity].
Qed.
