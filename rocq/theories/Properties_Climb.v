(** Properties_Climb.v -- theorems C127: greedy search climbs.
    Specification: SpecClimb.v (the score of a whole graph), SpecScore.v (moves, score differences). *)
From Verif Require Import Py Num BayesNet SpecFactor Graph SpecGraph GraphTheory GraphNet GraphCheck Data SpecLearn ParamLearn SpecScore StructScore StructFacts StructTabu
  SpecClimb StructClimb Examples Properties_Score.
Open Scope nat_scope.

Lemma hc_run_run o t mi metric max_iter debug r log g : good o -> table_ok t -> t_rows t <> [] -> hc_run o t mi metric max_iter debug r = Ok (log, g) ->
  run mi (length (t_rows t)) r (col_nodes t) debug (start t) log g /\ search_graph (col_nodes t) g.
Proof.
  intros G T NR E. pose proof (hc_run_ok o t mi metric max_iter debug r G T NR) as H. rewrite E in H. split; [|apply H].
  unfold hc_run in E. destruct (fit_edgeless_ok o t metric G T NR) as (bn0 & E0 & N0). rewrite E0 in E. cbn [bind] in E. rewrite N0 in E.
  apply hc_loop_run in E; [exact E|apply search_start].
Qed.
Lemma tabu_loop_sg mi nrow debug r nodes : forall passes i g tl log g', search_graph nodes g -> tabu_loop passes i mi nrow debug r nodes g tl = Ok (log, g') -> search_graph nodes g'.
Proof.
  intros passes i g tl log g' SG E. apply tabu_loop_run in E; [|exact SG]. revert SG. induction E; intros SG; [exact SG|]. apply IHE.
  destruct (apply_move_ok nodes r debug g m SG H0) as (g1' & E1 & _ & S1). assert (g1' = g1) by congruence. now subst.
Qed.
Lemma tabu_run_run o t mi metric k max_iter debug r log g : good o -> table_ok t -> t_rows t <> [] -> tabu_run o t mi metric k max_iter debug r = Ok (log, g) ->
  run mi (length (t_rows t)) r (col_nodes t) debug (start t) log g /\ search_graph (col_nodes t) g.
Proof.
  intros G T NR E. unfold tabu_run in E. destruct (fit_edgeless_ok o t metric G T NR) as (bn0 & E0 & N0). rewrite E0 in E. cbn [bind] in E. rewrite N0 in E.
  split; [|apply tabu_loop_sg in E; [exact E|apply search_start]]. apply tabu_loop_run in E; [exact E|apply search_start].
Qed.
Lemma run_up mi nrow r nodes m debug g0 log g : (forall cols x, mi cols = Ok (Some x) -> m cols = x) -> run mi nrow r nodes debug g0 log g ->
  forall i gi mv, nth_error log i = Some (gi, mv) -> fst mv <> Reversal ->
  exists gj d, nth_error (path log g) (S i) = Some gj /\ gains mi nrow (g_p gi) mv d /\ (0 < d)%Qc /\ graph_score m nrow nodes gj = (graph_score m nrow nodes gi + d)%Qc.
Proof.
  intros Hm H i gi mv Hi NR. destruct (run_step _ _ _ _ _ _ _ _ H i gi mv Hi) as (gj & d & _ & Pj & SG & L & V & P & A).
  exists gj, d. split; [exact Pj|]. split; [exact V|]. split; [exact P|]. now apply (step_total mi nrow r nodes m Hm debug gi mv d gj).
Qed.

(** ** C127 *)
(** every addition and deletion raises the score of the whole graph by exactly the score difference it was chosen for *)
Theorem C127_score_goes_up : forall o t mi m metric max_iter debug r log g, good o -> table_ok t -> t_rows t <> [] ->
  (forall cols x, mi cols = Ok (Some x) -> m cols = x) ->
  hc_run o t mi metric max_iter debug r = Ok (log, g) ->
  forall i gi mv, nth_error log i = Some (gi, mv) -> fst mv <> Reversal ->
  exists gj d, nth_error (path log g) (S i) = Some gj /\ gains mi (length (t_rows t)) (g_p gi) mv d /\ (0 < d)%Qc /\
    graph_score m (length (t_rows t)) (col_nodes t) gj = (graph_score m (length (t_rows t)) (col_nodes t) gi + d)%Qc.
Proof.
  intros o t mi m metric max_iter debug r log g G T NR Hm E. destruct (hc_run_run _ _ _ _ _ _ _ _ _ G T NR E) as [H _]. now apply (run_up mi _ r _ m debug (start t)).
Qed.
Print Assumptions C127_score_goes_up.
(** so, without reversals, no graph is visited twice *)
Theorem C127_never_the_same_graph : forall o t mi metric max_iter debug r log g, good o -> table_ok t -> t_rows t <> [] ->
  hc_run o t mi metric max_iter debug r = Ok (log, g) -> no_reversal log ->
  forall i j gi gj, i < j -> nth_error (path log g) i = Some gi -> nth_error (path log g) j = Some gj -> ~ same_parents gi gj.
Proof.
  intros o t mi metric max_iter debug r log g G T NR E N i j gi gj L Hi Hj S. destruct (hc_run_run _ _ _ _ _ _ _ _ _ G T NR E) as [H _].
  pose proof (run_climbs _ _ _ _ (num_of mi) (num_of_Ok mi) _ _ _ _ H N i j gi gj L Hi Hj) as C.
  apply (total_same (length (t_rows t)) (col_nodes t) (num_of mi)) in S. rewrite S in C. revert C. apply Qcle_not_lt, Qcle_refl.
Qed.
Print Assumptions C127_never_the_same_graph.
(** and the search ends by itself: however large max_iter is, fewer than (n+1)^(n*n) moves are made *)
Theorem C127_bounded : forall o t mi metric max_iter debug r log g, good o -> table_ok t -> t_rows t <> [] ->
  hc_run o t mi metric max_iter debug r = Ok (log, g) -> no_reversal log -> length log < (t_ncols t + 1) ^ (t_ncols t * t_ncols t).
Proof.
  intros o t mi metric max_iter debug r log g G T NR E N. destruct (hc_run_run _ _ _ _ _ _ _ _ _ G T NR E) as [H S].
  pose proof (run_bound _ _ _ _ _ _ _ _ H S N) as B. unfold graph_bound, col_nodes in B. now rewrite map_length, seq_length in B.
Qed.
Print Assumptions C127_bounded.
(** with debug=False and a large enough max_iter hc ends where no legal move improves the score, or where the best
    legal move is a reversal *)
Theorem C127_end : forall o t mi metric max_iter r log g, good o -> table_ok t -> t_rows t <> [] ->
  (t_ncols t + 1) ^ (t_ncols t * t_ncols t) <= max_iter ->
  hc_run o t mi metric max_iter false r = Ok (log, g) ->
  none_better (legal (col_nodes t) r (edge (g_c g))) (gains mi (length (t_rows t)) (g_p g)) \/
  exists u v, best_of (legal (col_nodes t) r (edge (g_c g))) (gains mi (length (t_rows t)) (g_p g)) (Reversal, (u, v)).
Proof.
  intros o t mi metric max_iter r log g G T NR B E. destruct (no_reversal_dec log) as [N|N].
  - left. intros m d. apply (C36_local_optimum o t mi metric max_iter false r log g G T NR E). pose proof (C127_bounded _ _ _ _ _ _ _ _ _ G T NR E N). lia.
  - right. assert (X : exists g0 a, In (g0, (Reversal, a)) log).
    { clear -N. induction log as [|[g0 [k a]] log IH]; [destruct N; intros x y []|]. destruct k.
      - destruct IH as (g1 & b & I); [|exists g1, b; now right]. intros H. apply N. intros x y [Q|Q]; [inversion Q; discriminate|now apply (H x)].
      - destruct IH as (g1 & b & I); [|exists g1, b; now right]. intros H. apply N. intros x y [Q|Q]; [inversion Q; discriminate|now apply (H x)].
      - exists g0, a. now left. }
    destruct X as (g0 & [u v] & I). apply In_nth_error in I as (i & I). destruct (C37_stuck _ _ _ _ _ _ _ _ _ _ _ E I) as (-> & _ & _).
    exists u, v. pose proof (hc_run_ok o t mi metric max_iter false r G T NR) as H. rewrite E in H. destruct H as [_ C].
    clear -C I. revert i I. generalize (start t) as s, (S max_iter) as n, C. clear C. intros s n C. 
    enough (F : forall gx mx, In (gx, mx) log -> hc_chosen mi (length (t_rows t)) r (col_nodes t) gx mx) by (intros i I; apply F; now apply nth_error_In in I).
    induction C; intros gx mx I; [destruct I|destruct I|]. destruct I as [Q|I]; [inversion Q; now subst|now apply IHC].
Qed.
Print Assumptions C127_end.
(** beyond that bound max_iter makes no difference *)
Theorem C127_max_iter : forall o t mi metric max_iter max_iter' r, good o -> table_ok t -> t_rows t <> [] ->
  (t_ncols t + 1) ^ (t_ncols t * t_ncols t) <= max_iter -> max_iter <= max_iter' ->
  hc o t mi metric max_iter' false r = hc o t mi metric max_iter false r.
Proof.
  intros o t mi metric max_iter max_iter' r G T NR B L. unfold hc. assert (L' : S max_iter <= S max_iter') by lia.
  destruct (fit_edgeless_ok o t metric G T NR) as (bn0 & E0 & N0).
  destruct (hc_run o t mi metric max_iter false r) as [[log g]|e] eqn:E.
  - assert (C : length log < S max_iter \/ (false = false /\ ~ no_reversal log)).
    { destruct (no_reversal_dec log) as [N|N]; [left|now right]. pose proof (C127_bounded _ _ _ _ _ _ _ _ _ G T NR E N). lia. }
    unfold hc_run in *. rewrite E0 in *. cbn [bind] in *. destruct (hc_more _ _ _ _ _ _ _ _ _ E C _ L') as (log' & E'). rewrite E'. reflexivity.
  - unfold hc_run in *. rewrite E0 in *. cbn [bind] in *. rewrite (hc_more_raise _ _ _ _ _ _ _ _ E _ L'). reflexivity.
Qed.
Print Assumptions C127_max_iter.
(** the same for tabu search: it never makes a move that does not improve the score *)
Theorem C127_tabu : forall o t mi m metric k max_iter debug r log g, good o -> table_ok t -> t_rows t <> [] ->
  (forall cols x, mi cols = Ok (Some x) -> m cols = x) ->
  tabu_run o t mi metric k max_iter debug r = Ok (log, g) ->
  (forall i gi mv, nth_error log i = Some (gi, mv) -> fst mv <> Reversal ->
    exists gj d, nth_error (path log g) (S i) = Some gj /\ gains mi (length (t_rows t)) (g_p gi) mv d /\ (0 < d)%Qc /\
      graph_score m (length (t_rows t)) (col_nodes t) gj = (graph_score m (length (t_rows t)) (col_nodes t) gi + d)%Qc) /\
  (no_reversal log -> length log < (t_ncols t + 1) ^ (t_ncols t * t_ncols t) /\
    forall i j gi gj, i < j -> nth_error (path log g) i = Some gi -> nth_error (path log g) j = Some gj -> ~ same_parents gi gj).
Proof.
  intros o t mi m metric k max_iter debug r log g G T NR Hm E. destruct (tabu_run_run _ _ _ _ _ _ _ _ _ _ G T NR E) as [H S].
  split; [now apply (run_up mi _ r _ m debug (start t))|]. intros N. split.
  - pose proof (run_bound _ _ _ _ _ _ _ _ H S N) as B. unfold graph_bound, col_nodes in B. now rewrite map_length, seq_length in B.
  - intros i j gi gj L Hi Hj P. pose proof (run_climbs _ _ _ _ (num_of mi) (num_of_Ok mi) _ _ _ _ H N i j gi gj L Hi Hj) as C.
    apply (total_same (length (t_rows t)) (col_nodes t) (num_of mi)) in P. rewrite P in C. revert C. apply Qcle_not_lt, Qcle_refl.
Qed.
Print Assumptions C127_tabu.
Theorem C127_tabu_max_iter : forall o t mi metric k max_iter max_iter' r, good o -> table_ok t -> t_rows t <> [] ->
  (t_ncols t + 1) ^ (t_ncols t * t_ncols t) <= max_iter -> max_iter <= max_iter' ->
  tabu o t mi metric k max_iter' false r = tabu o t mi metric k max_iter false r.
Proof.
  intros o t mi metric k max_iter max_iter' r G T NR B L. unfold tabu. assert (L' : S max_iter <= S max_iter') by lia.
  destruct (fit_edgeless_ok o t metric G T NR) as (bn0 & E0 & N0).
  destruct (tabu_run o t mi metric k max_iter false r) as [[log g]|e] eqn:E.
  - assert (C : length log < S max_iter \/ (false = false /\ ~ no_reversal log)).
    { destruct (no_reversal_dec log) as [N|N]; [left|now right].
      destruct (C127_tabu o t mi (num_of mi) metric k max_iter false r log g G T NR (num_of_Ok mi) E) as [_ F]. destruct (F N) as [F1 _]. lia. }
    unfold tabu_run in *. rewrite E0 in *. cbn [bind] in *. destruct (tabu_more _ _ _ _ _ _ _ _ _ _ _ E C _ L') as (log' & E'). rewrite E'. reflexivity.
  - unfold tabu_run in *. rewrite E0 in *. cbn [bind] in *. rewrite (tabu_more_raise _ _ _ _ _ _ _ _ _ _ E _ L'). reflexivity.
Qed.
Print Assumptions C127_tabu_max_iter.
Example C127_nonvacuous : exists log g, hc_run id_oracle exD3 ex_len "AIC" 100 false None = Ok (log, g) /\ length log = 3 /\ no_reversal log /\
  map (graph_score (fun cols => nQc (10 - length cols)) 3 (col_nodes exD3)) (path log g) = map (fun z => qq z 1) [-81; -78; -75; -72]%Z.
Proof.
  eexists _, _. split; [vm_compute; reflexivity|]. split; [reflexivity|]. split.
  - intros g0 m H. cbn in H. destruct H as [H|[H|[H|[]]]]; inversion H; subst; discriminate.
  - vm_compute. repeat (f_equal; [apply Qc_is_canon; reflexivity|]). reflexivity.
Qed.
Example C127_nonvacuous_bound : exists log g, hc_run id_oracle exD2 ex_len "AIC" 100 false None = Ok (log, g) /\ length log = 1 /\ no_reversal log /\ (2 + 1) ^ (2 * 2) <= 100.
Proof.
  eexists _, _. split; [vm_compute; reflexivity|]. split; [reflexivity|]. split.
  - intros g0 m H. cbn in H. destruct H as [H|[]]; inversion H; subst; discriminate.
  - cbn. lia.
Qed.
(** with debug=True reversals can alternate for ever: the result depends on whether max_iter is even or odd, however large it is *)
Definition ex_cycle : score := ex_score [([n1], qq 1 1); ([n0], qq 1 1); ([n0; n0], qq 10 1); ([n1; n1], qq 10 1)].
Definition gA : gstate := mkG [(n0, [n1]); (n1, [])] [(n0, []); (n1, [n0])].
Definition gB : gstate := mkG [(n0, []); (n1, [n0])] [(n0, [n1]); (n1, [])].
Lemma flipA k : hc_loop (S k) ex_cycle 3 true None [n0; n1] gA = do lg <- hc_loop k ex_cycle 3 true None [n0; n1] gB ;; Ok ((gA, (Reversal, (n0, n1))) :: fst lg, snd lg).
Proof. reflexivity. Qed.
Lemma flipB k : hc_loop (S k) ex_cycle 3 true None [n0; n1] gB = do lg <- hc_loop k ex_cycle 3 true None [n0; n1] gA ;; Ok ((gB, (Reversal, (n1, n0))) :: fst lg, snd lg).
Proof. reflexivity. Qed.
Lemma flips : forall k, exists lA lB, length lA = k /\ length lB = k /\
  hc_loop k ex_cycle 3 true None [n0; n1] gA = Ok (lA, if Nat.even k then gA else gB) /\
  hc_loop k ex_cycle 3 true None [n0; n1] gB = Ok (lB, if Nat.even k then gB else gA).
Proof.
  induction k as [|k (lA & lB & La & Lb & EA & EB)]; [exists [], []; repeat split; reflexivity|].
  rewrite flipA, flipB, EA, EB. cbn [bind fst snd]. eexists _, _. split; [|split; [|split; [rewrite Nat.even_succ, <- Nat.negb_even|rewrite Nat.even_succ, <- Nat.negb_even]]].
  3: destruct (Nat.even k); reflexivity. 3: destruct (Nat.even k); reflexivity. all: cbn [length]; congruence.
Qed.
Theorem C127_reversals_cycle_refuted : exists t mi, table_ok t /\ t_rows t <> [] /\
  forall max_iter, exists bn log g, hc id_oracle t mi "AIC" max_iter true None = Ok bn /\ hc_run id_oracle t mi "AIC" max_iter true None = Ok (log, g) /\
    length log = S max_iter /\ (edge (bn_E bn) n0 n1 <-> Nat.even max_iter = true) /\ (edge (bn_E bn) n1 n0 <-> Nat.even max_iter = false).
Proof.
  exists exD2, ex_cycle. split; [intros r H; cbn in H; destruct H as [<-|[<-|[<-|[]]]]; reflexivity|]. split; [discriminate|]. intros k.
  assert (E : hc_run id_oracle exD2 ex_cycle "AIC" k true None =
    do lg <- hc_loop k ex_cycle 3 true None [n0; n1] gA ;; Ok ((start exD2, (Addition, (n0, n1))) :: fst lg, snd lg)) by reflexivity.
  destruct (flips k) as (lA & _ & La & _ & EA & _). rewrite EA in E. cbn [bind fst snd] in E. unfold hc. rewrite E. cbn [bind snd].
  destruct (Nat.even k).
  - eexists _, _, _. split; [vm_compute; reflexivity|]. split; [reflexivity|]. split; [cbn [length]; congruence|]. cbn [bn_E]. split.
    + split; [reflexivity|]. intros _. exists [n1]. split; [reflexivity|now left].
    + split; [|discriminate]. intros (c & D & H). cbn in D. inversion D; subst. destruct H.
  - eexists _, _, _. split; [vm_compute; reflexivity|]. split; [reflexivity|]. split; [cbn [length]; congruence|]. cbn [bn_E]. split.
    + split; [|discriminate]. intros (c & D & H). cbn in D. inversion D; subst. destruct H.
    + split; [reflexivity|]. intros _. exists [n0]. split; [reflexivity|now left].
Qed.
Print Assumptions C127_reversals_cycle_refuted.
