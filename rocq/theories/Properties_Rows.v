(** Properties_Rows.v -- theorem C153: the order of the rows of the data does not matter.
    Specification: SpecLearn.v, SpecConstraint.v.  functional_extensionality is used where a test enters an algorithm as an argument. *)
From Verif Require Import Py Num BayesNet SpecFactor Graph SpecGraph GraphNet Data SpecLearn ParamLearn ParamFacts ParamMain SpecConstraint Constraint SpecScore StructScore StructFacts StructTabu SpecData DataUtils DataFacts HistFacts MiFacts LearnInfer Factorization
  Examples Properties_Learn Properties_Data ChowLiu RowOrder.
From Coq Require Import FunctionalExtensionality.
Open Scope nat_scope.

(** the same rows, in another order *)
Definition rows_reordered (t t' : table) : Prop := t_ncols t = t_ncols t' /\ Permutation (t_rows t) (t_rows t').

(** ** the tests: the same number or the same exception, whatever is computed from the histogram *)
Theorem C153_tests : forall A (F : list nat -> list nat -> A) (G : list nat -> list nat -> nat -> A) H rnd t t' cols, rows_reordered t t' ->
  mi_test G t cols = mi_test G t' cols /\ mutual_information F t cols = mutual_information F t' cols /\ conditional_mi F t cols = conditional_mi F t' cols /\
  entropy F t cols = entropy F t' cols /\ mi_from_en H rnd t cols = mi_from_en H rnd t' cols.
Proof.
  intros A F G H rnd t t' cols [N P]. pose proof (length_perm _ _ P) as L.
  assert (EC : forall B (K : list nat -> list nat -> B) gs, entropy_cols K (length (t_rows t)) (map (fun g => map g (t_rows t)) gs) = entropy_cols K (length (t_rows t')) (map (fun g => map g (t_rows t')) gs)).
  { intros B K gs. unfold entropy_cols. pose proof (nuniques_perm _ _ P gs) as U. pose proof (hist_perm _ _ P (map nunique (map (fun g => map g (t_rows t)) gs)) gs) as Hi. pose proof (merge3_perm _ _ P gs) as M.
    destruct gs as [|x [|y [|z gs]]]; [reflexivity|cbn [map] in *; rewrite <- U, Hi; reflexivity|cbn [map] in *; rewrite <- U, Hi; reflexivity|].
    destruct M as [(hs & E & E')|(e & E & E')]; cbn [map] in E, E' |- *; rewrite E, E'; cbn [bind]; [|reflexivity]. now rewrite (amax_perm _ _ P). }
  assert (E1 : forall B (K : list nat -> list nat -> B) c, entropy K t c = entropy K t' c).
  { intros B K c. unfold entropy. destruct (select_perm t t' c N P) as [(gs & E & E')|(e & E & E')]; rewrite E, E'; cbn [bind]; [apply EC|reflexivity]. }
  split; [|split; [|split; [|split; [apply E1|]]]].
  - unfold mi_test. destruct (select_perm t t' cols N P) as [(gs & E & E')|(e & E & E')]; rewrite E, E'; cbn [bind]; [|reflexivity].
    assert (Two : forall g, (let bins := map nunique (map (fun g => map g (t_rows t)) g) in do h <- hist (length (t_rows t)) bins (map (fun g => map g (t_rows t)) g) ;; Ok (G bins h (length (t_rows t)))) =
      (let bins := map nunique (map (fun g => map g (t_rows t')) g) in do h <- hist (length (t_rows t')) bins (map (fun g => map g (t_rows t')) g) ;; Ok (G bins h (length (t_rows t'))))).
    { intros g. cbn zeta. now rewrite (hist_perm _ _ P), (nuniques_perm _ _ P), L. }
    destruct gs as [|x [|y [|z [|z' gs]]]]; [reflexivity|reflexivity|exact (Two [x; y])|exact (Two [x; y; z])|]. cbn [map].
    destruct (merge_perm _ _ P (z :: z' :: gs)) as [(g & M & M')|[M M']]; cbn [map] in M, M'; rewrite M, M'; cbn [bind]; [exact (Two [x; y; g])|reflexivity].
  - unfold mutual_information. destruct (select_perm t t' cols N P) as [(gs & E & E')|(e & E & E')]; rewrite E, E'; cbn [bind]; [|reflexivity]. cbn zeta. rewrite <- (nuniques_perm _ _ P).
    destruct gs as [|x [|y [|z gs]]]; [reflexivity|cbn [map]; now rewrite (hist_perm _ _ P _ [x])|cbn [map]; now rewrite (hist_perm _ _ P _ [x; y])|]. cbn [map].
    destruct (merge_perm _ _ P (y :: z :: gs)) as [(g & M & M')|[M M']]; cbn [map] in M, M'; rewrite M, M'; cbn [bind]; [|reflexivity].
    pose proof (hist_perm _ _ P (firstn 2 (map nunique (map (fun g => map g (t_rows t)) (x :: y :: z :: gs)))) [x; g]) as Hi. cbn [map] in Hi. now rewrite Hi.
  - unfold conditional_mi. destruct (select_perm t t' cols N P) as [(gs & E & E')|(e & E & E')]; rewrite E, E'; cbn [bind]; [|reflexivity]. pose proof (nuniques_perm _ _ P gs) as U.
    pose proof (hist_perm _ _ P (map nunique (map (fun g => map g (t_rows t)) gs)) gs) as Hi. pose proof (merge3_perm _ _ P gs) as M.
    destruct gs as [|x [|y [|z gs]]]; [reflexivity|cbn [map] in *; rewrite <- U, Hi; reflexivity|cbn [map] in *; rewrite <- U, Hi; reflexivity|].
    destruct M as [(hs & M & M')|(e & M & M')]; cbn [map] in M, M' |- *; rewrite M, M'; cbn [bind]; [|reflexivity]. now rewrite (amax_perm _ _ P).
  - unfold mi_from_en. destruct cols as [|x [|y [|z cols]]]; [reflexivity|reflexivity| |].
    + rewrite <- (E1 _ H [x; y]). assert (D : forall c, entropy_1d H t c = entropy_1d H t' c); [|now rewrite D]. intros c. unfold entropy_1d. rewrite <- L.
      destruct (select_perm t t' [c] N P) as [(gs & E & E')|(e & E & E')]; rewrite E, E'; cbn [bind]; [|reflexivity]. destruct gs as [|g [|g' gs]]; [reflexivity| |reflexivity]. cbn [map].
      destruct (length (t_rows t) =? 1) eqn:O; [|reflexivity]. apply Nat.eqb_eq in O. pose proof (hist_perm _ _ P [1] [g]) as Hi. rewrite <- L, O in Hi. cbn [map] in Hi. now rewrite Hi.
    + destruct (select_perm t t' (x :: y :: z :: cols) N P) as [(gs & E & E')|(e & E & E')]; rewrite E, E'; cbn [bind]; [|reflexivity].
      destruct (merge3_perm _ _ P gs) as [(hs & M & M')|(e & M & M')]; rewrite M, M'; cbn [bind]; [|reflexivity]. destruct hs as [|a [|b [|c [|d hs]]]]; try reflexivity. cbn [map].
      pose proof (EC _ H [a; c]) as Q1. pose proof (EC _ H [a; b; c]) as Q2. cbn [map] in Q1, Q2. now rewrite Q1, Q2.
Qed.
Print Assumptions C153_tests.

(** ** structure learning *)
Lemma unique_perm l l' : Permutation l l' -> np_unique l = np_unique l'.
Proof. intros P. apply sorted_same; try apply np_unique_sorted. intros x. rewrite !In_np_unique. split; apply Permutation_in; [exact P|now apply Permutation_sym]. Qed.
Lemma value_dict_perm t t' : rows_reordered t t' -> value_dict t = value_dict t'.
Proof.
  intros [N P]. unfold value_dict. rewrite <- N. generalize (seq 0 (t_ncols t)). intros l. induction l as [|i l IH]; [reflexivity|]. cbn [mapM].
  destruct (column_perm t t' i N P) as [(g & E & E')|[E E']]; rewrite E, E'; cbn [bind]; [|reflexivity]. rewrite (unique_perm (map g (t_rows t)) (map g (t_rows t'))) by now apply Permutation_map. now rewrite IH.
Qed.
(** the constraint-based learners with the shipped tests, and Chow-Liu: exactly the same result or the same exception *)
Theorem C153_constraint : forall (F : list nat -> list nat -> option Qc) (G : list nat -> list nat -> nat -> option Qc) t t', rows_reordered t t' ->
  (forall alpha, pc (mi_test G t) alpha t = pc (mi_test G t') alpha t') /\
  (forall fuel o alpha sel, gs fuel o (mi_test G t) alpha t sel = gs fuel o (mi_test G t') alpha t' sel) /\
  (forall o alpha sel, iamb o (mutual_information F t) (mi_test G t) alpha t sel = iamb o (mutual_information F t') (mi_test G t') alpha t' sel) /\
  chow_liu_shipped t = chow_liu_shipped t' /\
  forall K : res (option Qc) -> res Qc, chow_liu (fun x y => K (mutual_information F t [x; y])) t = chow_liu (fun x y => K (mutual_information F t' [x; y])) t'.
Proof.
  intros F G t t' R. pose proof (value_dict_perm t t' R) as V. pose proof (proj1 R) as N.
  assert (TE : mi_test G t = mi_test G t') by (apply functional_extensionality; intros c; apply (C153_tests _ F G (fun _ _ => None) (fun x => x) t t' c R)).
  assert (ME : mutual_information F t = mutual_information F t') by (apply functional_extensionality; intros c; apply (C153_tests _ F G (fun _ _ => None) (fun x => x) t t' c R)).
  split; [intros alpha; unfold pc; now rewrite TE, V, N|]. split; [intros fuel o alpha sel; unfold gs; now rewrite TE, V, N|]. split; [intros o alpha sel; unfold iamb; now rewrite TE, ME, V, N|].
  unfold chow_liu_shipped, chow_liu. rewrite V, N, ME. split; [reflexivity|]. intros K. reflexivity.
Qed.
Print Assumptions C153_constraint.
(** the score-based learners, whatever the iteration orders of the two calls *)
Theorem C153_search : forall (F : list nat -> list nat -> option Qc) o o' t t' metric r debug, rows_reordered t t' -> good o -> good o' -> table_ok t -> t_rows t <> [] ->
  (forall m, hc o t (mutual_information F t) metric m debug r = hc o' t' (mutual_information F t') metric m debug r) /\
  (forall k m, tabu o t (mutual_information F t) metric k m debug r = tabu o' t' (mutual_information F t') metric k m debug r) /\
  (forall fuel s m R M, hc_rr o t (mutual_information F t) metric fuel s m R M debug r = hc_rr o' t' (mutual_information F t') metric fuel s m R M debug r).
Proof.
  intros F o o' t t' metric r debug R Go Go' T NR. pose proof (proj1 R) as N. pose proof (length_perm _ _ (proj2 R)) as L.
  assert (ME : mutual_information F t = mutual_information F t') by (apply functional_extensionality; intros c; apply (C153_tests _ F (fun _ _ _ => None) (fun _ _ => None) (fun x => x) t t' c R)).
  assert (T' : table_ok t'). { intros x Hx. rewrite <- N. apply T. apply (Permutation_in _ (Permutation_sym (proj2 R)) Hx). }
  assert (NR' : t_rows t' <> []) by (intros E; pose proof (proj2 R) as Q; rewrite E in Q; apply Permutation_sym, Permutation_nil in Q; contradiction).
  destruct (fit_edgeless_ok o t metric Go T NR) as (b & E & C). destruct (fit_edgeless_ok o' t' metric Go' T' NR') as (b' & E' & C').
  assert (Cc : col_nodes t = col_nodes t') by (unfold col_nodes; now rewrite N). assert (St : start t = start t') by (unfold start; now rewrite N).
  unfold hc, hc_run, tabu, tabu_run, hc_rr. rewrite E, E'. cbn [bind]. rewrite C, C', Cc, St, ME, L. now split; [|split].
Qed.
Print Assumptions C153_search.

(** ** parameter learning: the same values of every node and the same tables *)
Lemma rows_with_perm t t' q : rows_reordered t t' -> rows_with t q = rows_with t' q.
Proof.
  intros [_ P]. unfold rows_with. induction P; cbn [filter]; auto; [destruct (forallb (entryb x) q); cbn [length]; lia|destruct (forallb (entryb x) q), (forallb (entryb y) q); cbn [length]; lia|lia].
Qed.
Lemma levels_same t t' v l l' : rows_reordered t t' -> levels t v l -> levels t' v l' -> l = l'.
Proof.
  intros [_ P] [S H] [S' H']. apply sorted_same; [assumption|assumption|]. intros x. rewrite H, H'. split; intros (r & Hr & E); exists r; (split; [|exact E]); [now apply (Permutation_in _ P)|now apply (Permutation_in _ (Permutation_sym P))].
Qed.
Definition same_learned (b1 b2 : bayesnet) : Prop := bn_V b1 = bn_V b2 /\ bn_E b1 = bn_E b2 /\
  forall v, In v (bn_V b1) -> nparents b1 v = nparents b2 v /\ nvalues b1 v = nvalues b2 v /\ forall a, valid (ncard b1) (v :: nparents b1 v) a -> cond_prob b1 v a = cond_prob b2 v a.
Theorem C153_parameters : forall o o' bn t t' n ess, rows_reordered t t' -> good o -> good o' -> skeleton bn -> has_edge_lists bn -> parents_in_node_order bn ->
  table_ok t -> t_rows t <> [] -> bn_V bn = map NInt (seq 0 n) -> n <= t_ncols t -> (forall e, ess = Some e -> (0 < e)%Qc) ->
  (exists b1 b2, mle_estimator o bn t None = Ok b1 /\ mle_estimator o' bn t' None = Ok b2 /\ same_learned b1 b2) /\
  (exists b1 b2, bayes_estimator o bn t ess None = Ok b1 /\ bayes_estimator o' bn t' ess None = Ok b2 /\ same_learned b1 b2).
Proof.
  intros o o' bn t t' n ess R G G' Sk HE PO T NR EV Ln He. pose proof (proj1 R) as N. pose proof (length_perm _ _ (proj2 R)) as L.
  assert (T' : table_ok t'). { intros x Hx. rewrite <- N. apply T. apply (Permutation_in _ (Permutation_sym (proj2 R)) Hx). }
  assert (NR' : t_rows t' <> []) by (intros E; pose proof (proj2 R) as Q; rewrite E in Q; apply Permutation_sym, Permutation_nil in Q; contradiction).
  assert (Fr : forall b1 b2, bn_V b1 = bn_V bn -> bn_V b2 = bn_V bn -> (forall v, In v (bn_V bn) -> nparents b1 v = nparents bn v) -> (forall v, In v (bn_V bn) -> nparents b2 v = nparents bn v) ->
    (forall v, In v (bn_V b1) -> levels t v (nvalues b1 v)) -> (forall v, In v (bn_V b2) -> levels t' v (nvalues b2 v)) ->
    forall v, In v (bn_V bn) -> nparents b1 v = nparents b2 v /\ nvalues b1 v = nvalues b2 v).
  { intros b1 b2 V1 V2 P1 P2 L1 L2 v Hv. split; [now rewrite P1, P2|]. apply (levels_same t t' v _ _ R); [apply L1; now rewrite V1|apply L2; now rewrite V2]. }
  assert (Cf : forall b1 b2 vs a, (forall v, In v vs -> nvalues b1 v = nvalues b2 v) -> config (nvalues b1) vs a = config (nvalues b2) vs a).
  { intros b1 b2 vs a H. apply map_ext_in. intros v Hv. now rewrite H. }
  split.
  - destruct (C41_mle_probabilities o bn t n G Sk HE PO T NR EV Ln) as (b1 & E1 & _ & V1 & Ed1 & P1 & [L1 F1]).
    destruct (C41_mle_probabilities o' bn t' n G' Sk HE PO T' NR' EV ltac:(lia)) as (b2 & E2 & _ & V2 & Ed2 & P2 & [L2 F2]).
    exists b1, b2. split; [exact E1|]. split; [exact E2|]. split; [congruence|]. split; [congruence|]. pose proof (Fr b1 b2 V1 V2 P1 P2 L1 L2) as Q. rewrite V1. intros v Hv.
    destruct (Q v Hv) as [Qp Qv]. split; [exact Qp|]. split; [exact Qv|]. intros a Va.
    assert (I : forall w, In w (v :: nparents b1 v) -> In w (bn_V bn)) by (intros w [<-|Hw]; [exact Hv|rewrite P1 in Hw by exact Hv; now apply (sk_par _ Sk v Hv)]).
    assert (Va2 : valid (ncard b2) (v :: nparents b2 v) a) by (rewrite <- Qp; intros w Hw; specialize (Va w Hw); rewrite nvalues_card in *; now rewrite <- (proj2 (Q w (I w Hw)))).
    rewrite F1 by (rewrite ?V1; assumption). rewrite F2 by (rewrite ?V2; assumption). rewrite !(rows_with_perm t t' _ R), <- Qp.
    now rewrite (Cf b1 b2 (v :: nparents b1 v) a), (Cf b1 b2 (nparents b1 v) a) by (intros w Hw; apply (Q w), I; auto; now right).
  - assert (He1 : (0 < match ess with Some e => e | None => nQc (length (t_rows t)) end)%Qc) by (destruct ess as [e|]; [now apply He|apply nQc_pos; destruct (t_rows t); [congruence|cbn [length]; lia]]).
    assert (He2 : (0 < match ess with Some e => e | None => nQc (length (t_rows t')) end)%Qc) by (now rewrite <- L).
    destruct (C43_bayes_estimator o bn t n ess G Sk T NR EV Ln He1) as (b1 & E1 & _ & V1 & Ed1 & P1 & [L1 F1]).
    destruct (C43_bayes_estimator o' bn t' n ess G' Sk T' NR' EV ltac:(lia) He2) as (b2 & E2 & _ & V2 & Ed2 & P2 & [L2 F2]). rewrite <- L in F2.
    exists b1, b2. split; [exact E1|]. split; [exact E2|]. split; [congruence|]. split; [congruence|]. pose proof (Fr b1 b2 V1 V2 P1 P2 L1 L2) as Q. rewrite V1. intros v Hv.
    destruct (Q v Hv) as [Qp Qv]. split; [exact Qp|]. split; [exact Qv|]. intros a Va.
    assert (I : forall w, In w (v :: nparents b1 v) -> In w (bn_V bn)) by (intros w [<-|Hw]; [exact Hv|rewrite P1 in Hw by exact Hv; now apply (sk_par _ Sk v Hv)]).
    assert (Cd : forall w, In w (v :: nparents b1 v) -> ncard b1 w = ncard b2 w) by (intros w Hw; rewrite !nvalues_card; now rewrite (proj2 (Q w (I w Hw)))).
    assert (Va2 : valid (ncard b2) (v :: nparents b2 v) a) by (rewrite <- Qp; intros w Hw; rewrite <- Cd by exact Hw; now apply Va).
    rewrite F1 by (rewrite ?V1; assumption). rewrite F2 by (rewrite ?V2; assumption). unfold smoothed. cbn zeta. rewrite !(rows_with_perm t t' _ R), <- Qp.
    rewrite (Cf b1 b2 (v :: nparents b1 v) a), (Cf b1 b2 (nparents b1 v) a) by (intros w Hw; apply (Q w), I; auto; now right).
    rewrite (map_ext_in (ncard b1) (ncard b2) (v :: nparents b1 v) Cd). now rewrite (Cd v (or_introl eq_refl)).
Qed.
Print Assumptions C153_parameters.
(** five rows and the same five rows backwards: the tests return, hill climbing and pc return, and both estimators learn *)
Definition exRev : table := mkT 4 (rev (t_rows exBits)).
Example C153_nonvacuous : rows_reordered exBits exRev /\ t_rows exBits <> t_rows exRev /\ table_ok exBits /\ (forall e, Some (nQc 1) = Some e -> (0 < e)%Qc) /\
  mi_test (fun b h n => (b, h, n)) exBits [NInt 0; NInt 1; NInt 2; NInt 3] = mi_test (fun b h n => (b, h, n)) exRev [NInt 0; NInt 1; NInt 2; NInt 3] /\
  match mi_test (fun b h n => (b, h, n)) exBits [NInt 0; NInt 1; NInt 2; NInt 3] with Ok _ => True | Raise _ => False end /\
  match pc (mi_test (fun _ h _ => Some (nQc (hd 0 h))) exBits) (nQc 1) exBits with Ok bn => bn_V bn = map NInt (seq 0 4) | Raise _ => False end /\
  match hc id_oracle exBits (mutual_information (fun _ h => Some (nQc (hd 0 h))) exBits) "AIC" 3 false None with Ok bn => length (bn_V bn) = 4 | Raise _ => False end.
Proof.
  split; [split; [reflexivity|apply Permutation_rev]|]. split; [discriminate|]. split; [apply exBits_ok|]. split; [intros e [= <-]; reflexivity|].
  split; [vm_compute; reflexivity|]. split; [vm_compute; exact I|]. split; vm_compute; reflexivity.
Qed.
