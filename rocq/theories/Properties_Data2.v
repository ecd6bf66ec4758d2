(** Properties_Data2.v -- theorems C83 to C89: what the binning of merged columns makes of the tests and of
    structure search.  Specification: SpecData.v, SpecScore.v. *)
From Verif Require Import Py Num BayesNet SpecFactor Graph SpecGraph GraphNet Data SpecLearn SpecConstraint Constraint SpecScore StructScore StructFacts StructTabu SpecData DataUtils DataFacts HistFacts MiFacts DiscFacts Properties_Score Properties_Data Examples.
Open Scope nat_scope.

(** ** C83 *)
(** with parents of zeros and ones the mutual information of a family depends on the first parent only,
    whatever is computed from the histogram *)
Theorem C83_first_parent_only : forall A (F : list nat -> list nat -> A) t v p rest, table_ok t -> coded t v -> binary t p -> (forall q, In q rest -> binary t q) ->
  mutual_information F t (v :: p :: rest) = mutual_information F t [v; p].
Proof. intros. now apply mi_first. Qed.
Print Assumptions C83_first_parent_only.
(** column 3 is the exclusive or of columns 0 and 1 ... *)
Definition exXor : table := mkT 3 (map (map NInt) [[0; 0; 0]; [0; 1; 1]; [1; 0; 1]; [1; 1; 0]]).
Lemma exXor_ok : table_ok exXor.
Proof. intros r H; cbn in H; repeat (destruct H as [<-|H]; [reflexivity|]); destruct H. Qed.
Lemma exXor_binary i : i < 3 -> binary exXor (NInt i).
Proof.
  intros Hi. exists i. split; [reflexivity|]. split; [exact Hi|]. intros r x. unfold cell. destruct i as [|[|[|i]]]; [| | |lia]; (destruct r as [|[|[|[|r]]]]; cbn; [intros [= <-]; auto..|destruct r; discriminate]).
Qed.
(** ... and is determined by both together, but its score with both parents is the score with one *)
Example C83_nonvacuous : table_ok exXor /\ coded exXor (NInt 2) /\ binary exXor (NInt 0) /\ binary exXor (NInt 1) /\
  (forall A (F : list nat -> list nat -> A), mutual_information F exXor [NInt 2; NInt 0; NInt 1] = Ok (F [2; 2] [1; 1; 1; 1])) /\
  forall A (F : list nat -> list nat -> A), mutual_information F exXor [NInt 2; NInt 0] = Ok (F [2; 2] [1; 1; 1; 1]).
Proof.
  split; [apply exXor_ok|]. split; [apply binary_coded, exXor_binary; lia|]. split; [apply exXor_binary; lia|]. split; [apply exXor_binary; lia|]. split; intros A F; reflexivity.
Qed.

(** ** C84 *)
Definition single_parents (g : gstate) : Prop := forall x y z, edge (g_c g) x z -> edge (g_c g) y z -> x = y.
Definition all_binary (t : table) : Prop := forall i, i < t_ncols t -> binary t (NInt i).
Lemma add_orphan F t r g u v pv : table_ok t -> all_binary t -> search_graph (col_nodes t) g -> dget (g_p g) v = Some pv ->
  legal (col_nodes t) r (edge (g_c g)) (Addition, (u, v)) -> (exists d, gains (mutual_information F t) (length (t_rows t)) (g_p g) (Addition, (u, v)) d /\ (0 < d)%Qc) -> pv = [].
Proof.
  intros W B SG Hpv (Iu & Iv & _) (d & Gd & Pd). inversion Gd as [u0 v0 pv0 x y D X Y| |]; subst. rewrite Hpv in D. injection D as <-.
  destruct pv as [|p rest]; [reflexivity|exfalso]. destruct (sg_pl _ _ SG v (p :: rest) Hpv) as [_ Inc].
  assert (Bn : forall q, In q (col_nodes t) -> binary t q) by (intros q Hq; unfold col_nodes in Hq; apply in_map_iff in Hq as (i & <- & Hi); apply in_seq in Hi; apply B; lia).
  cbn [app] in Y. rewrite mi_first in X; [|exact W|now apply binary_coded, Bn|apply Bn, Inc; now left|intros q Hq; apply Bn, Inc; now right].
  rewrite mi_first in Y; [|exact W|now apply binary_coded, Bn|apply Bn, Inc; now left|intros q Hq; apply in_app_or in Hq as [Hq|[<-|[]]]; [apply Bn, Inc; now right|now apply Bn]].
  rewrite X in Y. injection Y as ->. replace (nQc (length (t_rows t)) * (y - y))%Qc with 0%Qc in Pd by ring. exact (Qclt_not_eq _ _ Pd eq_refl).
Qed.
Lemma single_step F t r g m g' : table_ok t -> all_binary t -> search_graph (col_nodes t) g -> single_parents g ->
  legal (col_nodes t) r (edge (g_c g)) m -> (exists d, gains (mutual_information F t) (length (t_rows t)) (g_p g) m d /\ (0 < d)%Qc) ->
  stepped (col_nodes t) false g m g' -> search_graph (col_nodes t) g' /\ single_parents g'.
Proof.
  intros W B SG SP Lg Gn St. unfold stepped in St. cbn [negb] in St. destruct m as [[] [u v]]; cbn [fst] in St.
  - destruct St as [SG' Af]. split; [exact SG'|]. destruct (dget (g_p g) v) as [pv|] eqn:Dv.
    2:{ exfalso. apply dget_None in Dv. apply Dv. rewrite (sg_p _ _ SG). apply Lg. }
    pose proof (add_orphan F t r g u v pv W B SG Dv Lg Gn) as ->.
    assert (NoE : forall x, ~ edge (g_c g) x v). { intros x E. apply (sg_agree _ _ SG) in E as (l & Dl & Il). rewrite Dv in Dl. injection Dl as <-. destruct Il. }
    intros x y z Ex Ey. apply Af in Ex, Ey. cbn [after] in Ex, Ey. destruct Ex as [Ex|[Q1 Q2]], Ey as [Ey|[R1 R2]]; subst; [now apply (SP x y z)|now apply NoE in Ex|now apply NoE in Ey|reflexivity].
  - destruct St as [SG' Af]. split; [exact SG'|]. intros x y z Ex Ey. apply Af in Ex, Ey. cbn [after] in Ex, Ey. now apply (SP x y z).
  - subst g'. split; assumption.
Qed.
Lemma single_start t : single_parents (start t).
Proof. intros x y z E. now apply edgeless_edge in E. Qed.
(** hill climbing on zeros and ones never gives a node two parents, whatever is computed from the histograms *)
Theorem C84_hc : forall F o t metric max_iter r bn, good o -> table_ok t -> t_rows t <> [] -> all_binary t ->
  hc o t (mutual_information F t) metric max_iter false r = Ok bn -> forall u u' v, edge (bn_E bn) u v -> edge (bn_E bn) u' v -> u = u'.
Proof.
  intros F o t metric max_iter r bn G W NR B E. destruct (C36_hc o t (mutual_information F t) metric max_iter false r G W NR) as [(e & cols & E' & _)|(bn' & log & g & E' & _ & _ & Ee & _ & _ & _ & _ & C)]; [congruence|].
  assert (bn' = bn) as -> by congruence. rewrite Ee. intros u u' v.
  refine (proj2 (proj1 (climb_inv _ _ _ (fun g => search_graph (col_nodes t) g /\ single_parents g) _ _ _ _ _ C (conj (search_start t) (single_start t)))) u u' v).
  intros g0 m g1 [SG SP] [Lg (d & Gd & Pd & _)] St. apply (single_step F t r g0 m g1 W B SG SP Lg); [exists d; auto|exact St].
Qed.
Print Assumptions C84_hc.
Lemma tabu_climb_inv debug (chosen : list move -> gstate -> move -> Prop) (next : gstate -> move -> gstate -> Prop) finished (P : gstate -> Prop) : (forall past g m g', P g -> chosen past g m -> next g m g' -> P g') ->
  forall n past g log g', tabu_climb debug chosen next finished n past g log g' -> P g -> P g'.
Proof. intros St n past g log g' H. induction H; intros Pg; [exact Pg|exact Pg|]. apply IHtabu_climb. eapply St; eassumption. Qed.
Theorem C84_tabu : forall F o t metric k max_iter r bn, good o -> table_ok t -> t_rows t <> [] -> 5 <= k -> all_binary t ->
  tabu o t (mutual_information F t) metric k max_iter false r = Ok bn -> forall u u' v, edge (bn_E bn) u v -> edge (bn_E bn) u' v -> u = u'.
Proof.
  intros F o t metric k max_iter r bn G W NR K B E. destruct (C38_tabu o t (mutual_information F t) metric k max_iter false r G W NR K) as [(e & cols & E' & _)|(bn' & log & g & E' & _ & _ & Ee & _ & _ & _ & C)]; [congruence|].
  assert (bn' = bn) as -> by congruence. rewrite Ee. intros u u' v.
  refine (proj2 (tabu_climb_inv _ _ _ _ (fun g => search_graph (col_nodes t) g /\ single_parents g) _ _ _ _ _ _ C (conj (search_start t) (single_start t))) u u' v).
  intros past g0 m g1 [SG SP] [[Lg _] (d & Gd & Pd & _)] St. apply (single_step F t r g0 m g1 W B SG SP Lg); [exists d; auto|exact St].
Qed.
Print Assumptions C84_tabu.
(** a score that decreases with every column: all edges would be added if it saw them *)
Definition exF : list nat -> list nat -> option Qc := fun bins _ => Some (nQc (10 - length bins)).
Example C84_nonvacuous : table_ok exXor /\ all_binary exXor /\ t_rows exXor <> [] /\
  (exists bn, hc id_oracle exXor (mutual_information exF exXor) "AIC" 100 false None = Ok bn /\ bn_E bn = [(n0, [n1; n2]); (n1, []); (n2, [])]) /\
  (exists bn, tabu id_oracle exXor (mutual_information exF exXor) "AIC" 5 100 false None = Ok bn /\ bn_E bn = [(n0, [n1; n2]); (n1, []); (n2, [])]).
Proof.
  split; [apply exXor_ok|]. split; [intros i Hi; now apply exXor_binary|]. split; [discriminate|]. split; eexists; (split; [vm_compute; reflexivity|reflexivity]).
Qed.

(** ** C85 *)
Definition all_four (t : table) (z w : name) : Prop := exists i j, z = NInt i /\ w = NInt j /\ forall a b, a <= 1 -> b <= 1 -> exists r, cell t r i = Some (NInt a) /\ cell t r j = Some (NInt b).
Lemma all_four_rows t z w : table_ok t -> binary t z -> binary t w -> all_four t z w -> forall a b, a <= 1 -> b <= 1 -> exists r, r < length (t_rows t) /\ nth r (ints t z) 0 = a /\ nth r (ints t w) 0 = b.
Proof.
  intros W Bz Bw (i & j & -> & -> & H) a b La Lb. destruct (H a b La Lb) as (r & Ha & Hb). exists r.
  assert (R : r < length (t_rows t)) by (unfold cell in Ha; apply nth_error_Some; destruct (nth_error (t_rows t) r); [discriminate|discriminate]). split; [exact R|].
  destruct (ints_ok t (NInt i) W (binary_coded _ _ Bz)) as (_ & _ & i' & E & Q). injection E as <-. rewrite (Q r R) in Ha.
  destruct (ints_ok t (NInt j) W (binary_coded _ _ Bw)) as (_ & _ & j' & E & Q'). injection E as <-. rewrite (Q' r R) in Hb. split; congruence.
Qed.
(** a test of x and y given two columns of zeros and ones: the second one does not count *)
Theorem C85_second_condition_ignored : forall B (G : list nat -> list nat -> nat -> B) t x y z w w', table_ok t -> coded t x -> coded t y -> binary t z -> binary t w -> binary t w' ->
  all_four t z w -> all_four t z w' -> mi_test G t [x; y; z; w] = mi_test G t [x; y; z; w'].
Proof.
  intros B G t x y z w w' W Cx Cy Bz Bw Bw' A A'.
  destruct (four_bins t z w W Bz Bw (all_four_rows t z w W Bz Bw A)) as (m & Em & Um & Bm). destruct (four_bins t z w' W Bz Bw' (all_four_rows t z w' W Bz Bw' A')) as (m' & Em' & Um' & Bm').
  assert (S : forall q, binary t q -> select t [x; y; z; q] = Ok (map (ints t) [x; y; z; q])) by (intros q Bq; apply select_ok; [exact W|intros v [<-|[<-|[<-|[<-|[]]]]]; [exact Cx|exact Cy|now apply binary_coded|now apply binary_coded]]).
  unfold mi_test. rewrite (S w Bw), (S w' Bw'). cbn [bind map]. rewrite Em, Em'. cbn [bind map]. rewrite Um, Um'.
  erewrite hist_ext; [reflexivity|]. cbn [combine map fst snd]. now rewrite Bm, Bm'.
Qed.
Print Assumptions C85_second_condition_ignored.
(** x is a function of z and w; w' says nothing about x: the test of x and y given (z, w) is the test given (z, w') *)
Definition exCond : table := mkT 5 (map (map NInt) [[0; 0; 0; 0; 0]; [0; 1; 0; 0; 1]; [1; 0; 0; 1; 0]; [1; 1; 0; 1; 1]; [1; 0; 1; 0; 0]; [1; 1; 1; 0; 1]; [0; 0; 1; 1; 0]; [0; 1; 1; 1; 1]]).
Example C85_nonvacuous : table_ok exCond /\ all_four exCond (NInt 2) (NInt 3) /\ all_four exCond (NInt 2) (NInt 4) /\ (forall i, i < 5 -> binary exCond (NInt i)) /\
  exists m, (forall A (G : list nat -> list nat -> nat -> A), mi_test G exCond [NInt 0; NInt 1; NInt 2; NInt 3] = Ok (G [2; 2; 4] m 8)) /\ m = [1;0;0;1; 1;0;0;1; 1;0;0;1; 1;0;0;1].
Proof.
  split; [intros r H; cbn in H; repeat (destruct H as [<-|H]; [reflexivity|]); destruct H|].
  split; [exists 2, 3; split; [reflexivity|]; split; [reflexivity|]; intros [|[|a]] [|[|b]] La Lb; try lia; [exists 0|exists 2|exists 4|exists 6]; split; reflexivity|].
  split; [exists 2, 4; split; [reflexivity|]; split; [reflexivity|]; intros [|[|a]] [|[|b]] La Lb; try lia; [exists 0|exists 1|exists 4|exists 5]; split; reflexivity|].
  split; [|eexists; split; [intros A G; vm_compute; reflexivity|reflexivity]].
  intros i Hi. exists i. split; [reflexivity|]. split; [exact Hi|]. intros r x. unfold cell. destruct i as [|[|[|[|[|i]]]]]; [| | | | |lia]; (destruct r as [|[|[|[|[|[|[|[|r]]]]]]]]; cbn; [intros [= <-]; auto..|destruct r; discriminate]).
Qed.

(** ** C86 *)
(** the first parent given to a node is one that carries the least information about it *)
Theorem C86_least_informative : forall o t mi metric max_iter debug r log g, good o -> table_ok t -> t_rows t <> [] ->
  hc_run o t mi metric max_iter debug r = Ok (log, g) ->
  forall g0 u v, In (g0, (Addition, (u, v))) log -> dget (g_p g0) v = Some [] ->
  forall u' i i', legal (col_nodes t) r (edge (g_c g0)) (Addition, (u', v)) -> mi [v; u] = Ok (Some i) -> mi [v; u'] = Ok (Some i') -> (i <= i')%Qc.
Proof.
  intros o t mi metric max_iter debug r log g G T NR E g0 u v I Dv u' i i' Lg Mi Mi'. pose proof (hc_run_ok o t mi metric max_iter debug r G T NR) as H. rewrite E in H. destruct H as [_ C].
  assert (Ch : hc_chosen mi (length (t_rows t)) r (col_nodes t) g0 (Addition, (u, v))).
  { clear -C I. induction C as [g|n g F|n g m g1 log g2 Ch Nx C IH]; [destruct I|destruct I|]. destruct I as [Q|I]; [injection Q as -> ->; exact Ch|now apply IH]. }
  destruct Ch as [_ (d & Gd & _ & Best)]. inversion Gd as [u0 v0 pv x y D X Y| |]; subst. rewrite Dv in D. injection D as <-. cbn [app] in Y. rewrite Mi in Y. injection Y as <-.
  assert (Q : gains mi (length (t_rows t)) (g_p g0) (Addition, (u', v)) (nQc (length (t_rows t)) * (x - i'))%Qc) by (eapply gains_add; [exact Dv|exact X|exact Mi']).
  apply (Best _ _ Lg) in Q. assert (P : (0 < nQc (length (t_rows t)))%Qc) by (apply nQc_pos; destruct (t_rows t); [congruence|simpl; lia]).
  revert Q P. generalize (nQc (length (t_rows t))). intros q Q P. apply Qcnot_lt_le. intros L. assert (K : ((x - i) * q < (x - i') * q)%Qc) by (apply Qcmult_lt_compat_r; [exact P|qclra]). rewrite (Qcmult_comm (x - i)), (Qcmult_comm (x - i')) in K. exact (Qclt_not_le _ _ K Q).
Qed.
Print Assumptions C86_least_informative.
(** a score in which column 0 tells nothing about column 1 and column 2 tells everything: 0 becomes its parent *)
Definition exScore : score := ex_score [([n1], qq 1 1); ([n1; n0], qq 0 1); ([n1; n2], qq 1 1)].
Example C86_nonvacuous : exists log g g0, hc_run id_oracle exD3 exScore "AIC" 100 false None = Ok (log, g) /\ In (g0, (Addition, (n0, n1))) log /\ dget (g_p g0) n1 = Some [] /\
  exScore [n1; n0] = Ok (Some (qq 0 1)) /\ exScore [n1; n2] = Ok (Some (qq 1 1)).
Proof. eexists _, _, _. split; [vm_compute; reflexivity|]. split; [left; reflexivity|]. split; [reflexivity|]. split; reflexivity. Qed.

(** ** C87 *)
Definition has_one (t : table) (v : name) : Prop := exists i, v = NInt i /\ occurs t i (NInt 1).
Lemma bit_max t v : table_ok t -> binary t v -> nmax_list (ints t v) = if in_dec Nat.eq_dec 1 (ints t v) then 1 else 0.
Proof.
  intros W B. destruct (binary_ints t v W B) as [_ D]. destruct (in_dec Nat.eq_dec 1 (ints t v)) as [I|I].
  - pose proof (nmax_ge _ _ I). pose proof (D _ (nmax_in (ints t v) ltac:(intros Z; rewrite Z in I; destruct I))). lia.
  - destruct (ints t v) as [|x l] eqn:E; [reflexivity|]. pose proof (nmax_in (x :: l) ltac:(discriminate)) as M. pose proof (D _ M). destruct (nmax_list (x :: l)) as [|[|q]]; [reflexivity|contradiction|lia].
Qed.
Lemma has_one_max t v : table_ok t -> binary t v -> has_one t v -> nmax_list (ints t v) = 1.
Proof. intros W B (i & -> & O). rewrite bit_max by assumption. destruct (in_dec _ _ _) as [|N]; [reflexivity|]. exfalso. apply N. apply In_ints; [exact W|now apply binary_coded|]. eauto. Qed.
Lemma hist_ones N c1 c2 c3 : length c1 = N -> length c2 = N -> length c3 = N -> hist N [1; 1; 1] [c1; c2; c3] = Ok [N].
Proof.
  intros L1 L2 L3. unfold hist. cbn [existsb Nat.eqb orb combine map fst snd]. rewrite !binned_one, L1, L2, L3. cbn [tuples seq flat_map map app]. f_equal. f_equal.
  cbn [transpose]. clear. induction N as [|n IH]; [reflexivity|]. cbn [repeat combine map fst snd filter]. change (row_eqb [0; 0; 0] [0; 0; 0]) with true. cbn [length]. now rewrite IH.
Qed.
(** three columns of zeros and ones: conditional mutual information and entropy see a single cell with all rows *)
Theorem C87_conditional_constant : forall A (F : list nat -> list nat -> A) t x y z, table_ok t -> t_rows t <> [] -> (forall v, In v [x; y; z] -> binary t v /\ has_one t v) ->
  conditional_mi F t [x; y; z] = Ok (F [1; 1; 1] [length (t_rows t)]) /\ entropy F t [x; y; z] = Ok (F [1; 1; 1] [length (t_rows t)]).
Proof.
  intros A F t x y z W NR B. assert (S : select t [x; y; z] = Ok (map (ints t) [x; y; z])) by (apply select_ok; [exact W|intros v Hv; apply binary_coded, B, Hv]).
  assert (L : forall v, In v [x; y; z] -> length (ints t v) = length (t_rows t)) by (intros v Hv; now apply binary_ints, B).
  assert (M : forall v, In v [x; y; z] -> nmax_list (ints t v) = 1) by (intros v Hv; apply has_one_max; [exact W|apply B, Hv|apply B, Hv]).
  assert (H : hist_amax (length (t_rows t)) (map (ints t) [x; y; z]) = Ok ([1; 1; 1], [length (t_rows t)])).
  { unfold hist_amax. destruct (Nat.eqb_spec (length (t_rows t)) 0) as [Z|_]; [destruct (t_rows t); [congruence|discriminate]|]. cbn [map]. rewrite !M by (simpl; auto). rewrite hist_ones by (apply L; simpl; auto). reflexivity. }
  unfold conditional_mi, entropy, entropy_cols. rewrite S. cbn [bind map merge3]. cbn [map] in H. rewrite H. split; reflexivity.
Qed.
Print Assumptions C87_conditional_constant.
(** three columns coded 1..a, 1..b, 1..c (the codes that discretize gives): the largest code is the number of levels, and
    both functions work on the right contingency table *)
Lemma max_from_one t v k : table_ok t -> t_rows t <> [] -> consecutive t v (1, k) -> nmax_list (ints t v) = k.
Proof.
  intros W NE C. pose proof (consecutive_ints t v (1, k) W C) as H. cbn [fst snd] in H.
  destruct (ints_ok t v W (consecutive_coded _ _ _ C)) as (_ & L & _).
  assert (N : ints t v <> []) by (destruct (ints t v); [destruct (t_rows t); [congruence|discriminate L]|discriminate]).
  pose proof (proj1 (H _) (nmax_in _ N)) as B. assert (K : 0 < k) by lia. pose proof (nmax_ge _ k (proj2 (H k) ltac:(lia))). lia.
Qed.
Theorem C87_coded_from_one : forall A (F : list nat -> list nat -> A) t x y z a b c, table_ok t -> t_rows t <> [] ->
  consecutive t x (1, a) -> consecutive t y (1, b) -> consecutive t z (1, c) ->
  conditional_mi F t [x; y; z] = Ok (F [a; b; c] (contingency t [x; y; z] [(1, a); (1, b); (1, c)])) /\
  entropy F t [x; y; z] = Ok (F [a; b; c] (contingency t [x; y; z] [(1, a); (1, b); (1, c)])).
Proof.
  intros A F t x y z a b c W NR Cx Cy Cz.
  assert (Fa : Forall2 (consecutive t) [x; y; z] [(1, a); (1, b); (1, c)]) by (constructor; [exact Cx|constructor; [exact Cy|constructor; [exact Cz|constructor]]]).
  destruct (hist_contingency t _ _ W NR Fa) as [_ Hh].
  assert (S : select t [x; y; z] = Ok (map (ints t) [x; y; z])) by (apply select_ok; [exact W|intros v [<-|[<-|[<-|[]]]]; eapply consecutive_coded; eassumption]).
  assert (H : hist_amax (length (t_rows t)) (map (ints t) [x; y; z]) = Ok ([a; b; c], contingency t [x; y; z] [(1, a); (1, b); (1, c)])).
  { unfold hist_amax. destruct (Nat.eqb_spec (length (t_rows t)) 0) as [Z|_]; [destruct (t_rows t); [congruence|discriminate]|]. cbn [map] in Hh |- *.
    rewrite (max_from_one t x a), (max_from_one t y b), (max_from_one t z c) by assumption. cbn [snd] in Hh. rewrite Hh. reflexivity. }
  unfold conditional_mi, entropy, entropy_cols. rewrite S. cbn [bind map merge3]. cbn [map] in H. rewrite H. split; reflexivity.
Qed.
Print Assumptions C87_coded_from_one.
(** a column of zeros: ValueError *)
Theorem C87_zero_column_raises : forall A (F : list nat -> list nat -> A) t x y z, table_ok t -> (forall v, In v [x; y; z] -> binary t v) -> (exists v, In v [x; y; z] /\ ~ has_one t v) ->
  conditional_mi F t [x; y; z] = Raise ValueError /\ entropy F t [x; y; z] = Raise ValueError.
Proof.
  intros A F t x y z W B (v & Hv & N). assert (S : select t [x; y; z] = Ok (map (ints t) [x; y; z])) by (apply select_ok; [exact W|intros q Hq; apply binary_coded, B, Hq]).
  assert (H : hist_amax (length (t_rows t)) (map (ints t) [x; y; z]) = Raise ValueError).
  { unfold hist_amax. destruct (length (t_rows t) =? 0); [reflexivity|]. unfold hist.
    assert (Q : existsb (Nat.eqb 0) (map nmax_list (map (ints t) [x; y; z])) = true); [|now rewrite Q].
    apply existsb_exists. exists 0. split; [|reflexivity]. rewrite map_map. apply in_map_iff. exists v. split; [|exact Hv]. rewrite bit_max by (try exact W; now apply B). destruct (in_dec _ _ _) as [I|]; [|reflexivity].
    exfalso. apply N. apply In_ints in I as (i & -> & O); [|exact W|now apply binary_coded, B]. exists i. auto. }
  unfold conditional_mi, entropy, entropy_cols. rewrite S. cbn [bind map merge3]. cbn [map] in H. rewrite H. split; reflexivity.
Qed.
Print Assumptions C87_zero_column_raises.
(** mi_from_en of two columns always raises, and of three columns of zeros and ones does not depend on the second *)
Theorem C87_mi_from_en : forall H rnd t x y, table_ok t -> coded t x -> length (t_rows t) <> 1 -> mi_from_en H rnd t [x; y] = Raise AttributeError.
Proof.
  intros H rnd t x y W C N. unfold mi_from_en, entropy_1d. rewrite select_ok; [|exact W|intros v [<-|[]]; exact C]. cbn [bind map]. apply Nat.eqb_neq in N. rewrite N. reflexivity.
Qed.
Print Assumptions C87_mi_from_en.
(** with a single row: the difference of two numbers computed from the one-cell histograms *)
Theorem C87_mi_from_en_one_row : forall H rnd t x y, table_ok t -> coded t x -> coded t y -> length (t_rows t) = 1 ->
  mi_from_en H rnd t [x; y] = Ok (rnd (match H [1] [1], H [1; 1] [1] with Some a, Some b => Some (a - b)%Qc | _, _ => None end)).
Proof.
  intros H rnd t x y W Cx Cy N. unfold mi_from_en, entropy_1d, entropy. rewrite !select_ok; [|exact W|intros v [<-|[<-|[]]]; assumption|exact W|intros v [<-|[]]; exact Cx]. cbn [bind map]. rewrite N. cbn [Nat.eqb].
  assert (L : forall v, coded t v -> exists k, ints t v = [k]).
  { intros v C. assert (Lv : length (ints t v) = 1) by (rewrite <- N; now apply ints_ok). destruct (ints t v) as [|k [|]]; try discriminate Lv. now exists k. }
  destruct (L x Cx) as (k & ->). destruct (L y Cy) as (k' & ->).
  assert (H1 : hist 1 [1] [[k]] = Ok [1]) by (unfold hist; cbn; unfold binned, bin_of; cbn; now rewrite Nat.eqb_refl).
  assert (U : forall q, nunique [q] = 1) by (intros q; reflexivity).
  assert (H2 : hist 1 [1; 1] [[k]; [k']] = Ok [1]) by (unfold hist; cbn; unfold binned, bin_of; cbn; now rewrite !Nat.eqb_refl).
  rewrite H1. cbn [bind entropy_cols map]. rewrite !U, H2. reflexivity.
Qed.
Print Assumptions C87_mi_from_en_one_row.
Lemma mapM_len {A B} (f : A -> res B) l : forall ys, mapM f l = Ok ys -> length ys = length l.
Proof. induction l as [|a l IH]; intros ys H; cbn in H; [injection H as <-; reflexivity|]. destruct (f a); [|discriminate]. cbn in H. destruct (mapM f l); [|discriminate]. cbn in H. injection H as <-. cbn. f_equal. now apply IH. Qed.
(** with one or two columns the conditional version is the unconditional one *)
Theorem C87_conditional_few_columns : forall A (F : list nat -> list nat -> A) t x y,
  conditional_mi F t [x] = mutual_information F t [x] /\ conditional_mi F t [x; y] = mutual_information F t [x; y].
Proof.
  intros A F t x y. unfold conditional_mi, mutual_information. split.
  - destruct (select t [x]) as [cs|e] eqn:S; [|reflexivity]. assert (L : length cs = 1) by exact (mapM_len _ _ _ S). destruct cs as [|a [|b cs]]; try discriminate L. reflexivity.
  - destruct (select t [x; y]) as [cs|e] eqn:S; [|reflexivity]. assert (L : length cs = 2) by exact (mapM_len _ _ _ S). destruct cs as [|a [|b [|c cs]]]; try discriminate L. reflexivity.
Qed.
Print Assumptions C87_conditional_few_columns.
Theorem C87_mi_from_en_ignores : forall H rnd t x y y' z, table_ok t -> t_rows t <> [] -> (forall v, In v [x; y; y'; z] -> binary t v /\ has_one t v) ->
  mi_from_en H rnd t [x; y; z] = mi_from_en H rnd t [x; y'; z].
Proof.
  intros H rnd t x y y' z W NR B.
  assert (L : forall v, In v [x; y; y'; z] -> length (ints t v) = length (t_rows t)) by (intros v Hv; now apply binary_ints, B).
  assert (M : forall v, In v [x; y; y'; z] -> nmax_list (ints t v) = 1) by (intros v Hv; apply has_one_max; [exact W|apply B, Hv|apply B, Hv]).
  unfold mi_from_en. rewrite !select_ok; [|exact W|intros v [<-|[<-|[<-|[]]]]; apply binary_coded, B; simpl; auto|exact W|intros v [<-|[<-|[<-|[]]]]; apply binary_coded, B; simpl; auto].
  cbn [bind map merge3]. destruct (entropy_cols H (length (t_rows t)) [ints t x; ints t z]) as [a|e]; cbn [bind]; [|reflexivity].
  unfold entropy_cols. cbn [merge3 bind]. unfold hist_amax. destruct (length (t_rows t) =? 0); [reflexivity|]. cbn [map]. rewrite !M by (simpl; auto). rewrite !hist_ones by (apply L; simpl; auto). reflexivity.
Qed.
Print Assumptions C87_mi_from_en_ignores.
(** of three columns it is the rounded difference of two entropies: of the first and third, and of all three *)
Theorem C87_mi_from_en_value : forall H rnd t x y z, table_ok t -> (forall v, In v [x; y; z] -> coded t v) ->
  forall p q, entropy H t [x; z] = Ok (Some p) -> entropy H t [x; y; z] = Ok (Some q) -> mi_from_en H rnd t [x; y; z] = Ok (rnd (Some (p - q)%Qc)).
Proof.
  intros H rnd t x y z W C p q E1 E2. unfold entropy in E1, E2. rewrite select_ok in E1 by (try exact W; intros v [<-|[<-|[]]]; apply C; simpl; auto). rewrite select_ok in E2 by assumption.
  cbn [bind map] in E1, E2. unfold mi_from_en. rewrite select_ok by assumption. cbn [bind map merge3]. rewrite E1. cbn [bind]. rewrite E2. reflexivity.
Qed.
Print Assumptions C87_mi_from_en_value.
(** without columns, and with one column only *)
Theorem C87_no_columns : forall A (F : list nat -> list nat -> A) H rnd t x, conditional_mi F t [] = Raise TypeError /\ mutual_information F t [] = Raise TypeError /\ entropy F t [] = Raise ValueError /\
  mi_from_en H rnd t [] = Raise ValueError /\ mi_from_en H rnd t [x] = Raise UnboundLocalError.
Proof. intros A F H rnd t x. repeat split; reflexivity. Qed.
Print Assumptions C87_no_columns.
Example C87_nonvacuous : (forall v, In v [NInt 0; NInt 1; NInt 1; NInt 2] -> binary exXor v /\ has_one exXor v) /\ coded exXor (NInt 0) /\ length (t_rows exXor) <> 1.
Proof.
  split; [|split; [apply binary_coded, exXor_binary; lia|discriminate]]. intros v [<-|[<-|[<-|[<-|[]]]]]; (split; [apply exXor_binary; lia|]); eexists; (split; [reflexivity|]); [exists 2|exists 1|exists 1|exists 1]; reflexivity.
Qed.

(** ** C88 *)
Theorem C88_chi2_raises : forall t cols, exists e, chi2_test t cols = Raise e.
Proof. intros t cols. unfold chi2_test. destruct (select t cols) as [cs|e]; cbn [bind]; [|eauto]. destruct (hist _ _ cs) as [h|e]; cbn [bind]; [|eauto]. destruct (length cols <? 2); eauto. Qed.
Print Assumptions C88_chi2_raises.
Theorem C88_chi2_name_error : forall t cols ranges, table_ok t -> t_rows t <> [] -> Forall2 (consecutive t) cols ranges -> 2 <= length cols -> chi2_test t cols = Raise NameError.
Proof.
  intros t cols ranges W NE F L. destruct (hist_contingency t cols ranges W NE F) as [U H].
  assert (C : forall v, In v cols -> coded t v). { clear -F. induction F as [|v ak cols ranges C F IH]; intros w; [intros []|]. intros [<-|Hw]; [now apply (consecutive_coded _ _ ak)|auto]. }
  unfold chi2_test. rewrite (select_ok t cols W C). cbn [bind]. rewrite <- U in H. rewrite H. cbn [bind]. destruct (Nat.ltb_spec (length cols) 2); [lia|reflexivity].
Qed.
Print Assumptions C88_chi2_name_error.
(** one column is refused: the histogram has no axis 1 to sum over (independence_tests.py:393) *)
Theorem C88_chi2_one_column : forall t v ak, table_ok t -> t_rows t <> [] -> consecutive t v ak -> chi2_test t [v] = Raise ValueError.
Proof.
  intros t v ak W NE C. assert (F : Forall2 (consecutive t) [v] [ak]) by (constructor; [exact C|constructor]).
  destruct (hist_contingency t [v] [ak] W NE F) as [U H]. unfold chi2_test. rewrite select_ok; [|exact W|intros w [<-|[]]; now apply (consecutive_coded _ _ ak)].
  cbn [bind]. rewrite <- U in H. rewrite H. reflexivity.
Qed.
Print Assumptions C88_chi2_one_column.

(** ** C89 *)
(** are_independent answers True exactly when the p-value is below alpha, that is, when the test finds a dependence *)
Theorem C89_are_independent : forall test alpha cols, are_independent test alpha cols = Ok true <-> exists p, test cols = Ok (Some p) /\ (p < alpha)%Qc.
Proof.
  intros test alpha cols. unfold are_independent. destruct (test cols) as [[p|]|e]; cbn [bind]; split.
  - intros [= H]. exists p. split; [reflexivity|]. apply qltb_lt. exact H.
  - intros (p' & E & L). injection E as <-. f_equal. apply qltb_lt. exact L.
  - intros H. discriminate H.
  - intros (p' & E & _). discriminate E.
  - discriminate.
  - intros (p' & E & _). discriminate E.
Qed.
Print Assumptions C89_are_independent.
Example C89_nonvacuous : are_independent (fun _ => Ok (Some (qq 1 100))) alpha05 [n0; n1] = Ok true /\ are_independent (fun _ => Ok (Some (qq 1 2))) alpha05 [n0; n1] = Ok false.
Proof. split; vm_compute; reflexivity. Qed.
