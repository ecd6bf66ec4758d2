(** Properties_Score.v -- theorems C36 to C39 and C73: greedy structure search (hc, tabu, hc_rr).
    Specification: SpecScore.v (moves, legality, score differences, climbs), SpecGraph.v. *)
From Verif Require Import Py Num BayesNet SpecFactor Graph SpecGraph GraphTheory GraphNet GraphCheck Data SpecLearn ParamLearn SpecScore StructScore StructFacts StructTabu Examples.
Open Scope nat_scope.

(** the moves and the stopping condition of hill climbing in the graph [g] *)
Definition hc_chosen (mi : score) (nrow : nat) (r : option (list (name * name))) (nodes : list name) (g : gstate) (m : move) : Prop :=
  best_of (legal nodes r (edge (g_c g))) (gains mi nrow (g_p g)) m.
Definition hc_finished (mi : score) (nrow : nat) (r : option (list (name * name))) (nodes : list name) (g : gstate) : Prop :=
  none_better (legal nodes r (edge (g_c g))) (gains mi nrow (g_p g)).

Lemma climb_length chosen next finished : forall n g log g', climb chosen next finished n g log g' -> length log <= n.
Proof. intros n g log g' H. induction H; cbn [length]; lia. Qed.
Lemma climb_early chosen next finished : forall n g log g', climb chosen next finished n g log g' -> length log < n -> finished g'.
Proof. intros n g log g' H. induction H; cbn [length]; intros L; [lia|assumption|]. apply IHclimb. lia. Qed.
Lemma climb_inv (chosen : gstate -> move -> Prop) (next : gstate -> move -> gstate -> Prop) finished (P : gstate -> Prop) : (forall g m g', P g -> chosen g m -> next g m g' -> P g') ->
  forall n g log g', climb chosen next finished n g log g' -> P g -> P g' /\ Forall (fun gm => P (fst gm)) log.
Proof.
  intros St n g log g' H. induction H; intros Pg; [auto|auto|].
  destruct IHclimb as [A B]; [now apply (St g m)|]. split; [exact A|]. now constructor.
Qed.
Lemma hc_run_ok o t mi metric max_iter debug r : good o -> table_ok t -> t_rows t <> [] ->
  match hc_run o t mi metric max_iter debug r with
  | Ok (log, g) => search_graph (col_nodes t) g /\ climb (hc_chosen mi (length (t_rows t)) r (col_nodes t)) (stepped (col_nodes t) debug)
       (hc_finished mi (length (t_rows t)) r (col_nodes t)) (S max_iter) (start t) log g
  | Raise e => exists cols, mi cols = Raise e
  end.
Proof.
  intros G T NR. unfold hc_run. destruct (fit_edgeless_ok o t metric G T NR) as (bn0 & E0 & N0). rewrite E0. cbn [bind]. rewrite N0.
  apply hc_loop_ok. apply search_start.
Qed.

(** ** C36 *)
Theorem C36_hc : forall o t mi metric max_iter debug r, good o -> table_ok t -> t_rows t <> [] ->
  (exists e cols, hc o t mi metric max_iter debug r = Raise e /\ mi cols = Raise e) \/
  exists bn log g, hc o t mi metric max_iter debug r = Ok bn /\ hc_run o t mi metric max_iter debug r = Ok (log, g) /\
    Permutation (bn_nodes bn) (map NInt (seq 0 (t_ncols t))) /\ bn_E bn = g_c g /\ acyclic (bn_E bn) /\ graph_ok bn /\ agree bn /\
    length log <= S max_iter /\
    climb (hc_chosen mi (length (t_rows t)) r (col_nodes t)) (stepped (col_nodes t) debug)
          (hc_finished mi (length (t_rows t)) r (col_nodes t)) (S max_iter) (start t) log g.
Proof.
  intros o t mi metric max_iter debug r G T NR. pose proof (hc_run_ok o t mi metric max_iter debug r G T NR) as H. unfold hc.
  destruct (hc_run o t mi metric max_iter debug r) as [[log g]|e]; cbn [bind snd].
  - right. destruct H as [SG C]. destruct (result_ok _ _ SG) as (bn & Eb & P & Ee & GO & A). exists bn, log, g.
    split; [exact Eb|]. split; [reflexivity|]. split; [exact P|]. split; [exact Ee|]. split; [rewrite Ee; apply SG|].
    split; [exact GO|]. split; [exact A|]. split; [now apply climb_length in C|exact C].
  - left. destruct H as (cols & H). exists e, cols. auto.
Qed.
Print Assumptions C36_hc.
(** every graph on the way is a DAG over the columns whose two dictionaries agree *)
Theorem C36_always_a_dag : forall o t mi metric max_iter debug r log g, good o -> table_ok t -> t_rows t <> [] ->
  hc_run o t mi metric max_iter debug r = Ok (log, g) -> forall g0 m, In (g0, m) log -> search_graph (col_nodes t) g0.
Proof.
  intros o t mi metric max_iter debug r log g G T NR E g0 m I. pose proof (hc_run_ok o t mi metric max_iter debug r G T NR) as H.
  rewrite E in H. destruct H as [_ C]. apply climb_inv with (P := search_graph (col_nodes t)) in C.
  - destruct C as [_ F]. rewrite Forall_forall in F. apply (F (g0, m) I).
  - intros a x b SG _ St. unfold stepped, made in St. destruct debug; cbn [negb] in St; [apply St|]. destruct (fst x); [apply St|apply St|now subst].
  - apply search_start.
Qed.
Print Assumptions C36_always_a_dag.
(** when it stops before the limit, no single legal move improves the score *)
Theorem C36_local_optimum : forall o t mi metric max_iter debug r log g, good o -> table_ok t -> t_rows t <> [] ->
  hc_run o t mi metric max_iter debug r = Ok (log, g) -> length log <= max_iter ->
  forall m d, legal (col_nodes t) r (edge (g_c g)) m -> gains mi (length (t_rows t)) (g_p g) m d -> (d <= 0)%Qc.
Proof.
  intros o t mi metric max_iter debug r log g G T NR E L. pose proof (hc_run_ok o t mi metric max_iter debug r G T NR) as H. rewrite E in H.
  destruct H as [_ C]. apply climb_early in C; [exact C|lia].
Qed.
Print Assumptions C36_local_optimum.

Lemma restriction_kept nodes mi nrow debug l : forall n g log g',
  climb (hc_chosen mi nrow (Some l) nodes) (stepped nodes debug) (hc_finished mi nrow (Some l) nodes) n g log g' ->
  (forall u v, edge (g_c g) u v -> In (u, v) l \/ (debug = true /\ In (v, u) l)) ->
  forall u v, edge (g_c g') u v -> In (u, v) l \/ (debug = true /\ In (v, u) l).
Proof.
  intros n g log g' C H. refine (proj1 (climb_inv _ _ _ (fun g => forall u v, edge (g_c g) u v -> In (u, v) l \/ (debug = true /\ In (v, u) l)) _ _ _ _ _ C H)).
  clear. intros g [k [a b]] g' H [Lg _] St u v E. unfold stepped in St. cbn [fst] in St.
  assert (Cases : (g' = g) \/ (edge (g_c g') u v -> after (edge (g_c g)) (k, (a, b)) u v)).
  { destruct debug, k; cbn [negb] in St; try (right; apply St). now left. }
  destruct Cases as [-> |Af]; [now apply H|]. specialize (Af E). destruct Lg as (_ & _ & Lg). destruct k; cbn [after] in Af.
  - destruct Af as [Af|[-> ->]]; [now apply H|]. left. destruct Lg as (_ & _ & Al & _). exact Al.
  - now apply H.
  - destruct debug; cbn [negb] in St.
    + destruct Af as [[Af _]|[-> ->]]; [now apply H|]. destruct Lg as [Lg _]. apply H in Lg. tauto.
    + subst g'. now apply H.
Qed.
Theorem C36_restriction : forall o t mi metric max_iter l bn, good o -> table_ok t -> t_rows t <> [] ->
  hc o t mi metric max_iter false (Some l) = Ok bn -> forall u v, edge (bn_E bn) u v -> In (u, v) l.
Proof.
  intros o t mi metric max_iter l bn G T NR E u v Huv. destruct (C36_hc o t mi metric max_iter false (Some l) G T NR) as [(e & cols & E' & _)|(bn' & log & g & E' & _ & _ & Ee & _ & _ & _ & _ & C)].
  - congruence.
  - assert (bn' = bn) as -> by congruence. rewrite Ee in Huv.
    destruct (restriction_kept _ _ _ _ _ _ _ _ _ C) with (u := u) (v := v) as [H|[H _]]; auto; [|discriminate].
    intros x y H. now apply edgeless_edge in H.
Qed.
Print Assumptions C36_restriction.
Theorem C36_restriction_debug : forall o t mi metric max_iter l bn, good o -> table_ok t -> t_rows t <> [] ->
  hc o t mi metric max_iter true (Some l) = Ok bn -> forall u v, edge (bn_E bn) u v -> In (u, v) l \/ In (v, u) l.
Proof.
  intros o t mi metric max_iter l bn G T NR E u v Huv. destruct (C36_hc o t mi metric max_iter true (Some l) G T NR) as [(e & cols & E' & _)|(bn' & log & g & E' & _ & _ & Ee & _ & _ & _ & _ & C)].
  - congruence.
  - assert (bn' = bn) as -> by congruence. rewrite Ee in Huv.
    destruct (restriction_kept _ _ _ _ _ _ _ _ _ C) with (u := u) (v := v) as [H|[_ H]]; auto.
    intros x y H. now apply edgeless_edge in H.
Qed.
Print Assumptions C36_restriction_debug.

(** examples: scores given by a table of values, 0 elsewhere *)
Definition ex_score (tbl : list (list name * Qc)) : score := fun cols =>
  Ok (Some (match find (fun e => if list_eq_dec name_eq_dec (fst e) cols then true else false) tbl with Some e => snd e | None => 0%Qc end)).
Definition n0 := NInt 0. Definition n1 := NInt 1. Definition n2 := NInt 2.
Definition exD2 : table := mkT 2 [[n0; n0]; [n0; n1]; [n1; n1]].
Definition exD3 : table := mkT 3 [[n0; n0; n1]; [n0; n1; n0]; [n1; n1; n1]].
(** every further parent is worth 1 per row *)
Definition ex_len : score := fun cols => Ok (Some (nQc (10 - length cols))).
(** 0 -> 1 is worth adding, and then worth reversing *)
Definition ex_flip : score := ex_score [([n1], qq 5 1); ([n1; n0], qq 4 1); ([n0; n0], qq 9 1)].
Example C36_nonvacuous : good id_oracle /\ table_ok exD3 /\ t_rows exD3 <> [] /\
  (exists log g, hc_run id_oracle exD3 ex_len "AIC" 100 false None = Ok (log, g) /\ length log = 3 /\
     g_c g = [(n0, [n1; n2]); (n1, [n2]); (n2, [])] /\ g_p g = [(n0, []); (n1, [n0]); (n2, [n0; n1])]) /\
  (exists bn, hc id_oracle exD3 ex_len "AIC" 100 false None = Ok bn /\ bn_nodes bn = [n0; n1; n2]) /\
  (exists bn, hc id_oracle exD3 ex_len "AIC" 100 false (Some [(n2, n1)]) = Ok bn /\ bn_E bn = [(n0, []); (n1, []); (n2, [n1])]).
Proof.
  split; [apply good_id|]. split; [intros r H; cbn in H; destruct H as [<-|[<-|[<-|[]]]]; reflexivity|]. split; [discriminate|].
  split; [|split].
  - eexists _, _. split; [vm_compute; reflexivity|]. split; [reflexivity|]. split; reflexivity.
  - eexists. split; [vm_compute; reflexivity|]. reflexivity.
  - eexists. split; [vm_compute; reflexivity|]. reflexivity.
Qed.
(** with debug=True the restriction list can be violated *)
Theorem C36_restriction_debug_refuted : exists t mi l bn, table_ok t /\ t_rows t <> [] /\
  hc id_oracle t mi "AIC" 100 true (Some l) = Ok bn /\ exists u v, edge (bn_E bn) u v /\ ~ In (u, v) l.
Proof.
  exists exD2, ex_flip, [(n0, n1)]. eexists.
  split; [intros r H; cbn in H; destruct H as [<-|[<-|[<-|[]]]]; reflexivity|]. split; [discriminate|].
  split; [vm_compute; reflexivity|]. exists n1, n0. split; [exists [n0]; split; [reflexivity|now left]|]. intros [H|[]]. discriminate H.
Qed.
Print Assumptions C36_restriction_debug_refuted.

(** ** C37 *)
(** the debug flag changes the result *)
Theorem C37_refuted : exists t mi bn bn', table_ok t /\ t_rows t <> [] /\
  hc id_oracle t mi "AIC" 100 false None = Ok bn /\ hc id_oracle t mi "AIC" 100 true None = Ok bn' /\
  edge (bn_E bn) n0 n1 /\ ~ edge (bn_E bn') n0 n1 /\ edge (bn_E bn') n1 n0.
Proof.
  exists exD2, ex_flip. eexists _, _.
  split; [intros r H; cbn in H; destruct H as [<-|[<-|[<-|[]]]]; reflexivity|]. split; [discriminate|].
  split; [vm_compute; reflexivity|]. split; [vm_compute; reflexivity|]. split; [exists [n1]; split; [reflexivity|now left]|].
  split; [|exists [n0]; split; [reflexivity|now left]]. intros (c & D & H). cbn in D. inversion D; subst. destruct H.
Qed.
Print Assumptions C37_refuted.
Lemma hc_loop_same mi nrow r nodes : forall passes g log g', hc_loop passes mi nrow true r nodes g = Ok (log, g') ->
  (forall g0 m, In (g0, m) log -> fst m <> Reversal) -> hc_loop passes mi nrow false r nodes g = Ok (log, g').
Proof.
  induction passes as [|k IH]; intros g log g'; cbn [hc_loop]; [auto|]. destruct (scan _ _ _ _ _ _) as [[[d m]|]|e]; cbn [bind]; [|auto|auto].
  destruct (apply_move true g m) as [g1|e] eqn:E1; cbn [bind]; [|discriminate].
  destruct (hc_loop k mi nrow true r nodes g1) as [[lg gg]|e] eqn:E2; cbn [bind fst snd]; [|discriminate]. intros E NR. inversion E; subst.
  assert (NRm : fst m <> Reversal) by (apply (NR g); now left).
  assert (apply_move false g m = Ok g1) as ->. { destruct m as [[] [u v]]; cbn [fst] in NRm; [exact E1|exact E1|now destruct NRm]. }
  cbn [bind]. rewrite (IH g1 lg g' E2); [reflexivity|]. intros g0 m0 I. apply (NR g0). now right.
Qed.
(** it changes the result only if a reversal is chosen *)
Theorem C37_same_without_reversals : forall o t mi metric max_iter r log g, hc_run o t mi metric max_iter true r = Ok (log, g) ->
  (forall g0 m, In (g0, m) log -> fst m <> Reversal) ->
  hc_run o t mi metric max_iter false r = Ok (log, g) /\ hc o t mi metric max_iter false r = hc o t mi metric max_iter true r.
Proof.
  intros o t mi metric max_iter r log g E NR.
  assert (E' : hc_run o t mi metric max_iter false r = Ok (log, g)).
  { unfold hc_run in *. destruct (fit_edgeless o t metric) as [bn|e]; cbn [bind] in *; [|discriminate]. now apply hc_loop_same. }
  split; [exact E'|]. unfold hc. now rewrite E, E'.
Qed.
Print Assumptions C37_same_without_reversals.
Example C37_same_nonvacuous : exists log g, hc_run id_oracle exD3 ex_len "AIC" 100 true None = Ok (log, g) /\ length log = 3 /\
  forall g0 m, In (g0, m) log -> fst m <> Reversal.
Proof.
  eexists _, _. split; [vm_compute; reflexivity|]. split; [reflexivity|]. intros g0 m H. cbn in H.
  destruct H as [H|[H|[H|[]]]]; inversion H; subst; discriminate.
Qed.
(** with debug=False, once a reversal is the best move the search repeats that pass, without changing
    the graph, until max_iter is exceeded *)
Lemma hc_stuck mi nrow r nodes g d a : scan mi nrow (fun _ => true) r nodes g = Ok (Some (d, (Reversal, a))) ->
  forall passes, hc_loop passes mi nrow false r nodes g = Ok (repeat (g, (Reversal, a)) passes, g).
Proof.
  intros E. induction passes as [|n IH]; cbn [hc_loop]; [reflexivity|]. rewrite E. cbn [bind]. destruct a as [u v]. cbn [apply_move bind]. rewrite IH. reflexivity.
Qed.
Theorem C37_stuck : forall o t mi metric max_iter r log g i g0 a, hc_run o t mi metric max_iter false r = Ok (log, g) ->
  nth_error log i = Some (g0, (Reversal, a)) ->
  g = g0 /\ length log = S max_iter /\ forall j, i <= j -> j <= max_iter -> nth_error log j = Some (g0, (Reversal, a)).
Proof.
  intros o t mi metric max_iter r log g i g0 a E. unfold hc_run in E. destruct (fit_edgeless o t metric) as [bn|e]; cbn [bind] in E; [|discriminate].
  assert (Gen : forall passes g1 log i, hc_loop passes mi (length (t_rows t)) false r (bn_nodes bn) g1 = Ok (log, g) -> nth_error log i = Some (g0, (Reversal, a)) ->
    g = g0 /\ length log = passes /\ forall j, i <= j -> j < passes -> nth_error log j = Some (g0, (Reversal, a))).
  { clear. induction passes as [|k IH]; intros g1 log i; cbn [hc_loop].
    - intros E. inversion E; subst. destruct i; discriminate.
    - destruct (scan mi _ _ r (bn_nodes bn) g1) as [[[d m]|]|e] eqn:Es; cbn [bind]; [| |discriminate].
      2:{ intros E. inversion E; subst. destruct i; discriminate. }
      destruct (apply_move false g1 m) as [g2|e] eqn:Ea; cbn [bind]; [|discriminate].
      destruct (hc_loop k mi _ false r (bn_nodes bn) g2) as [[lg gg]|e] eqn:El; cbn [bind fst snd]; [|discriminate].
      intros E. inversion E; subst. destruct i as [|i]; cbn [nth_error].
      + intros Q. inversion Q; subst. destruct a as [u v]. cbn [apply_move] in Ea. inversion Ea; subst g2.
        rewrite (hc_stuck _ _ _ _ _ _ _ Es) in El. inversion El; subst. split; [reflexivity|]. split; [cbn [length]; now rewrite repeat_length|].
        intros j _ Lj. change ((g, (Reversal, (u, v))) :: repeat (g, (Reversal, (u, v))) k) with (repeat (g, (Reversal, (u, v))) (S k)).
        now rewrite nth_error_repeat.
      + intros Q. destruct (IH g2 lg i El Q) as (A & B & C). split; [exact A|]. split; [cbn [length]; lia|].
        intros [|j] Lj Uj; [lia|]. cbn [nth_error]. apply C; lia. }
  intros Q. destruct (Gen _ _ _ _ E Q) as (A & B & C). split; [exact A|]. split; [exact B|]. intros j Lj Uj. apply C; lia.
Qed.
Print Assumptions C37_stuck.
Example C37_stuck_nonvacuous : exists log g g0, hc_run id_oracle exD2 ex_flip "AIC" 7 false None = Ok (log, g) /\
  nth_error log 1 = Some (g0, (Reversal, (n0, n1))) /\ length log = 8.
Proof. eexists _, _, _. split; [vm_compute; reflexivity|]. split; reflexivity. Qed.

(** ** C38 *)
(** the moves tabu search may choose in [g] after carrying out [past] (latest first) *)
Definition tabu_can (r : option (list (name * name))) (nodes : list name) (past : list move) (g : gstate) (m : move) : Prop :=
  legal nodes r (edge (g_c g)) m /\ free 5 past m.
Definition tabu_chosen mi nrow r nodes past g m := best_of (tabu_can r nodes past g) (gains mi nrow (g_p g)) m.
Definition tabu_done mi nrow r nodes past g := none_better (tabu_can r nodes past g) (gains mi nrow (g_p g)).
Lemma tabu_run_ok o t mi metric k max_iter debug r : good o -> table_ok t -> t_rows t <> [] -> 5 <= k ->
  match tabu_run o t mi metric k max_iter debug r with
  | Ok (log, g) => search_graph (col_nodes t) g /\ tabu_climb debug (tabu_chosen mi (length (t_rows t)) r (col_nodes t)) (stepped (col_nodes t) debug)
       (tabu_done mi (length (t_rows t)) r (col_nodes t)) (S max_iter) [] (start t) log g
  | Raise e => exists cols, mi cols = Raise e
  end.
Proof.
  intros G T NR K. unfold tabu_run. destruct (fit_edgeless_ok o t metric G T NR) as (bn0 & E0 & N0). rewrite E0. cbn [bind]. rewrite N0.
  change (repeat None k) with (tl_of k []). apply (tabu_loop_ok mi (length (t_rows t)) debug r (col_nodes t) k K (S max_iter) [] (start t)). apply search_start.
Qed.
Theorem C38_tabu : forall o t mi metric k max_iter debug r, good o -> table_ok t -> t_rows t <> [] -> 5 <= k ->
  (exists e cols, tabu o t mi metric k max_iter debug r = Raise e /\ mi cols = Raise e) \/
  exists bn log g, tabu o t mi metric k max_iter debug r = Ok bn /\ tabu_run o t mi metric k max_iter debug r = Ok (log, g) /\
    Permutation (bn_nodes bn) (map NInt (seq 0 (t_ncols t))) /\ bn_E bn = g_c g /\ acyclic (bn_E bn) /\ graph_ok bn /\ agree bn /\
    tabu_climb debug (tabu_chosen mi (length (t_rows t)) r (col_nodes t)) (stepped (col_nodes t) debug)
       (tabu_done mi (length (t_rows t)) r (col_nodes t)) (S max_iter) [] (start t) log g.
Proof.
  intros o t mi metric k max_iter debug r G T NR K. pose proof (tabu_run_ok o t mi metric k max_iter debug r G T NR K) as H. unfold tabu.
  destruct (tabu_run o t mi metric k max_iter debug r) as [[log g]|e]; cbn [bind snd].
  - right. destruct H as [SG C]. destruct (result_ok _ _ SG) as (bn & Eb & P & Ee & GO & A). exists bn, log, g.
    split; [exact Eb|]. split; [reflexivity|]. split; [exact P|]. split; [exact Ee|]. split; [rewrite Ee; apply SG|].
    split; [exact GO|]. split; [exact A|exact C].
  - left. destruct H as (cols & H). exists e, cols. auto.
Qed.
Print Assumptions C38_tabu.
Lemma tabu_past debug (chosen : list move -> gstate -> move -> Prop) next finished : (forall past g m, chosen past g m -> free 5 past m) ->
  forall n past g log g', tabu_climb debug chosen next finished n past g log g' ->
  forall l m0 j gj mj, nth_error past l = Some m0 -> nth_error log j = Some (gj, mj) -> l + j < 5 -> ~ forbids m0 mj.
Proof.
  intros Fr n past g log g' H. induction H; intros l m0 j gj mj Hl Hj L; [destruct j; discriminate|destruct j; discriminate|].
  destruct j as [|j]; cbn [nth_error] in Hj.
  - inversion Hj; subst. apply Fr in H. apply H. apply In_firstn. exists l. split; [lia|exact Hl].
  - destruct (carried debug m) eqn:Cm; [apply (IHtabu_climb (S l) m0 j gj mj)|apply (IHtabu_climb l m0 j gj mj)]; auto; lia.
Qed.
Lemma tabu_window debug (chosen : list move -> gstate -> move -> Prop) next finished : (forall past g m, chosen past g m -> free 5 past m) ->
  forall n past g log g', tabu_climb debug chosen next finished n past g log g' ->
  forall i j gi mi0 gj mj, nth_error log i = Some (gi, mi0) -> nth_error log j = Some (gj, mj) -> i < j -> j <= i + 5 -> carried debug mi0 = true -> ~ forbids mi0 mj.
Proof.
  intros Fr n past g log g' H. induction H; intros i j gi mi0 gj mj Hi Hj Lt Le Ci; [destruct i; discriminate|destruct i; discriminate|].
  destruct j as [|j]; [lia|]. cbn [nth_error] in Hj. destruct i as [|i]; cbn [nth_error] in Hi.
  - inversion Hi; subst. rewrite Ci in H1. apply (tabu_past _ _ _ _ Fr _ _ _ _ _ H1 0 mi0 j gj mj); auto; lia.
  - apply (IHtabu_climb i j gi mi0 gj mj); auto; lia.
Qed.
(** no addition or deletion of the last five passes is undone *)
Theorem C38_not_undone : forall o t mi metric k max_iter debug r log g, good o -> table_ok t -> t_rows t <> [] -> 5 <= k ->
  tabu_run o t mi metric k max_iter debug r = Ok (log, g) ->
  forall i j gi a gj b, nth_error log i = Some (gi, a) -> nth_error log j = Some (gj, b) -> i < j -> j <= i + 5 ->
    fst a <> Reversal -> ~ undoes a b.
Proof.
  intros o t mi metric k max_iter debug r log g G T NR K E i j gi a gj b Hi Hj Lt Le Na U.
  pose proof (tabu_run_ok o t mi metric k max_iter debug r G T NR K) as H. rewrite E in H. destruct H as [_ C].
  assert (Fr : forall past g m, tabu_chosen mi (length (t_rows t)) r (col_nodes t) past g m -> free 5 past m) by (intros past g0 m [[_ F] _]; exact F).
  apply (tabu_window _ _ _ _ Fr _ _ _ _ _ C i j gi a gj b Hi Hj Lt Le).
  - unfold carried. destruct a as [[] ?]; cbn [fst] in *; [reflexivity|reflexivity|now destruct Na].
  - destruct a as [[] [u v]], b as [[] [x y]]; cbn [undoes forbids fst] in *; try tauto; try (destruct U as [-> ->]; reflexivity); now destruct Na.
Qed.
Print Assumptions C38_not_undone.
(** a list of more than five entries is no longer than one of five *)
Theorem C38_at_most_five : forall o t mi metric k max_iter debug r, good o -> table_ok t -> t_rows t <> [] -> 5 <= k ->
  tabu o t mi metric k max_iter debug r = tabu o t mi metric 5 max_iter debug r.
Proof.
  intros o t mi metric k max_iter debug r G T NR K. unfold tabu, tabu_run. destruct (fit_edgeless_ok o t metric G T NR) as (bn0 & E0 & N0).
  rewrite E0. cbn [bind]. rewrite N0. change (repeat None k) with (tl_of k []). change (repeat None 5) with (tl_of 5 []).
  pose proof (tabu_long mi (length (t_rows t)) debug r (col_nodes t) k K (S max_iter) [] (start t) (search_start t)) as H. cbn [length] in H. now rewrite H.
Qed.
Print Assumptions C38_at_most_five.
(** a list of fewer than five entries: the same search, which fails at its (k+1)st carried-out move *)
Theorem C38_short_list : forall o t mi metric k max_iter debug r log g, good o -> table_ok t -> t_rows t <> [] -> k < 5 ->
  tabu_run o t mi metric 5 max_iter debug r = Ok (log, g) ->
  tabu o t mi metric k max_iter debug r =
    if length (filter (fun gm => carried debug (snd gm)) log) <=? k then tabu o t mi metric 5 max_iter debug r else Raise IndexError.
Proof.
  intros o t mi metric k max_iter debug r log g G T NR K E. unfold tabu. rewrite E. unfold tabu_run in *. destruct (fit_edgeless_ok o t metric G T NR) as (bn0 & E0 & N0).
  rewrite E0 in *. cbn [bind] in *. rewrite N0 in *. change (repeat None k) with (tl_of k []). change (repeat None 5) with (tl_of 5 []) in E.
  pose proof (tabu_short mi (length (t_rows t)) debug r (col_nodes t) k K (S max_iter) [] (start t) log g (search_start t) (Nat.le_0_l k) E) as H.
  cbn [length Nat.add] in H. rewrite H. unfold ncarried. destruct (_ <=? k); reflexivity.
Qed.
Print Assumptions C38_short_list.
(** a reversal can be undone at once: the list is searched for the same reversal, not for its inverse *)
Definition ex_flip2 : score := ex_score [([n1], qq 5 1); ([n1; n0], qq 4 1); ([n0; n0], qq 9 1); ([n1; n1], qq 19 1)].
Theorem C38_reversal_undone_refuted : exists t mi log g, table_ok t /\ t_rows t <> [] /\
  tabu_run id_oracle t mi "AIC" 5 100 true None = Ok (log, g) /\
  exists gi a gj b, nth_error log 1 = Some (gi, a) /\ nth_error log 2 = Some (gj, b) /\ undoes a b.
Proof.
  exists exD2, ex_flip2. eexists _, _.
  split; [intros r H; cbn in H; destruct H as [<-|[<-|[<-|[]]]]; reflexivity|]. split; [discriminate|].
  split; [vm_compute; reflexivity|]. eexists _, (Reversal, (n0, n1)), _, (Reversal, (n1, n0)). split; [reflexivity|]. split; [reflexivity|]. split; reflexivity.
Qed.
Print Assumptions C38_reversal_undone_refuted.
Definition exD4 : table := mkT 4 [[n0; n0; n1; n1]; [n0; n1; n0; n0]; [n1; n1; n1; n0]].
Example C38_nonvacuous : exists log g, table_ok exD4 /\ tabu_run id_oracle exD4 ex_len "BIC" 5 100 false None = Ok (log, g) /\ length log = 6 /\
  tabu id_oracle exD4 ex_len "BIC" 3 100 false None = Raise IndexError /\ (exists bn, tabu id_oracle exD4 ex_len "BIC" 3 2 false None = Ok bn).
Proof.
  eexists _, _. split; [intros r H; cbn in H; destruct H as [<-|[<-|[<-|[]]]]; reflexivity|].
  split; [vm_compute; reflexivity|]. split; [reflexivity|]. split; [vm_compute; reflexivity|]. eexists. vm_compute. reflexivity.
Qed.
(** with k = 6 the sixth last move is undone: 0 -> 6 is added in pass 0 and deleted in pass 6 *)
Definition exD7 : table := mkT 7 [map NInt [0; 0; 0; 0; 0; 0; 1]; map NInt [1; 1; 1; 1; 1; 1; 0]].
Definition ex_len6 : score := fun cols => if list_eq_dec name_eq_dec cols (map NInt [6; 1; 2; 3; 4; 5]) then Ok (Some (- nQc 100)%Qc) else ex_len cols.
Theorem C38_six_refuted : exists t mi r log g, table_ok t /\ t_rows t <> [] /\ tabu_run id_oracle t mi "AIC" 6 6 false r = Ok (log, g) /\
  exists g0 a g6 b, nth_error log 0 = Some (g0, a) /\ nth_error log 6 = Some (g6, b) /\ undoes a b.
Proof.
  exists exD7, ex_len6, (Some (map (fun i => (NInt i, NInt 6)) (seq 0 6))). eexists _, _.
  split; [intros r H; cbn in H; destruct H as [<-|[<-|[]]]; reflexivity|]. split; [discriminate|].
  split; [vm_compute; reflexivity|]. eexists _, (Addition, (NInt 0, NInt 6)), _, (Deletion, (NInt 0, NInt 6)). split; [reflexivity|]. split; [reflexivity|]. split; reflexivity.
Qed.
Print Assumptions C38_six_refuted.

(** ** C39 *)
(** For every sequence of draws: the result is a DAG over the columns, or the score function raised,
    or numpy refused to draw two of fewer than two nodes, or a random move waited [fuel] draws in vain *)
Theorem C39_hc_rr : forall o t mi metric fuel s max_iter R M debug r, good o -> table_ok t -> t_rows t <> [] -> valid_draws (col_nodes t) s ->
  match hc_rr o t mi metric fuel s max_iter R M debug r with
  | Ok bn => Permutation (bn_nodes bn) (map NInt (seq 0 (t_ncols t))) /\ acyclic (bn_E bn) /\ graph_ok bn /\ agree bn
  | Raise e => (exists cols, mi cols = Raise e) \/ (e = ValueError /\ t_ncols t < 2) \/ (e = OutOfFuel /\ waiting (col_nodes t) fuel s)
  end.
Proof.
  intros o t mi metric fuel s max_iter R M debug r G T NR VD. unfold hc_rr. destruct (fit_edgeless_ok o t metric G T NR) as (bn0 & E0 & N0).
  rewrite E0. cbn [bind]. rewrite N0.
  pose proof (rr_loop_ok mi (length (t_rows t)) debug r (col_nodes t) s fuel max_iter R M VD (S R * S max_iter) 0 0 0 (start t) (search_start t) ltac:(lia) ltac:(lia)) as H.
  assert (Le : (R - 0) * S max_iter + (S max_iter - 0) <= S R * S max_iter) by (rewrite !Nat.sub_0_r; cbn [Nat.mul]; lia).
  specialize (H Le). destruct (rr_loop _ _ _ _ _ _ _ _ _ _ _ _ _ _ _) as [g|e]; cbn [bind].
  - destruct (result_ok _ _ H) as (bn & Eb & P & Ee & GO & A). rewrite Eb. split; [exact P|]. split; [rewrite Ee; apply H|]. auto.
  - unfold col_nodes in H at 1. rewrite map_length, seq_length in H. exact H.
Qed.
Print Assumptions C39_hc_rr.
(** a deletion or reversal drawn for a graph without edges: the call never returns *)
Theorem C39_never_returns_refuted : forall o t mi metric s max_iter R M debug r, good o -> table_ok t -> t_rows t <> [] -> valid_draws (col_nodes t) s ->
  2 <= t_ncols t -> 0 < R -> 0 < M -> d_op (s 0) <> Addition ->
  (forall cols, exists x, mi cols = Ok x) -> hc_finished mi (length (t_rows t)) r (col_nodes t) (start t) ->
  forall fuel, hc_rr o t mi metric fuel s max_iter R M debug r = Raise OutOfFuel.
Proof.
  intros o t mi metric s max_iter R M debug r G T NR VD L HR HM Hop Htot Hfin fuel. unfold hc_rr. destruct (fit_edgeless_ok o t metric G T NR) as (bn0 & E0 & N0).
  rewrite E0. cbn [bind]. rewrite N0. cbn [Nat.mul Nat.add rr_loop].
  pose proof (scan_ok mi (length (t_rows t)) (fun _ => true) r (col_nodes t) (start t) (search_start t)) as Sc.
  destruct (scan mi (length (t_rows t)) (fun _ => true) r (col_nodes t) (start t)) as [b|e]; cbn [bind].
  2:{ destruct Sc as (cols & Sc). destruct (Htot cols) as (x & Hx). congruence. }
  destruct b as [[d m]|].
  - exfalso. destruct Sc as ([Lg _] & V & P & _). apply (Qclt_not_le _ _ P). now apply (Hfin m).
  - destruct (Nat.ltb_spec 0 R) as [_|]; [|lia]. destruct M as [|M]; [lia|]. cbn [rr_moves].
    rewrite (rr_hang (col_nodes t)); [reflexivity|apply search_start|exact VD| |exact Hop|].
    + unfold col_nodes. rewrite map_length, seq_length. exact L.
    + intros u v. apply edgeless_edge.
Qed.
Print Assumptions C39_never_returns_refuted.
Definition ex_draws (k : op) : nat -> draw := fun _ => mkDraw k n0 n1.
Definition ex_const : score := fun _ => Ok (Some 0%Qc).
Lemma ex_draws_valid k : valid_draws (col_nodes exD2) (ex_draws k).
Proof. intros _ i. cbn. split; [tauto|]. split; [tauto|discriminate]. Qed.
Example C39_never_returns_nonvacuous : valid_draws (col_nodes exD2) (ex_draws Deletion) /\ (forall cols, exists x, ex_const cols = Ok x) /\
  hc_finished ex_const (length (t_rows exD2)) None (col_nodes exD2) (start exD2).
Proof.
  split; [apply ex_draws_valid|]. split; [intros cols; eexists; reflexivity|].
  intros m d _ H. assert (d = 0%Qc) as -> ; [|apply Qcle_refl].
  destruct H; repeat match goal with H : ex_const _ = Ok (Some ?x) |- _ => assert (x = 0%Qc) as -> by (unfold ex_const in H; congruence); clear H end; ring.
Qed.
(** a restart may add edges outside the restriction list *)
Theorem C39_restriction_refuted : exists t mi s bn, table_ok t /\ t_rows t <> [] /\ valid_draws (col_nodes t) s /\
  hc_rr id_oracle t mi "AIC" 10 s 100 1 1 false (Some []) = Ok bn /\ exists u v, edge (bn_E bn) u v.
Proof.
  exists exD2, ex_const, (ex_draws Addition). eexists.
  split; [intros r H; cbn in H; destruct H as [<-|[<-|[<-|[]]]]; reflexivity|]. split; [discriminate|]. split; [apply ex_draws_valid|].
  split; [vm_compute; reflexivity|]. exists n0, n1. exists [n1]. split; [reflexivity|now left].
Qed.
Print Assumptions C39_restriction_refuted.

(** ** C73 *)
(** the score metric has no influence on the result *)
Theorem C73_metric_ignored : forall o t mi m1 m2, good o -> table_ok t -> t_rows t <> [] ->
  (forall max_iter debug r, hc o t mi m1 max_iter debug r = hc o t mi m2 max_iter debug r) /\
  (forall k max_iter debug r, tabu o t mi m1 k max_iter debug r = tabu o t mi m2 k max_iter debug r) /\
  (forall fuel s max_iter R M debug r, hc_rr o t mi m1 fuel s max_iter R M debug r = hc_rr o t mi m2 fuel s max_iter R M debug r).
Proof.
  intros o t mi m1 m2 G T NR. destruct (fit_edgeless_ok o t m1 G T NR) as (b1 & E1 & N1). destruct (fit_edgeless_ok o t m2 G T NR) as (b2 & E2 & N2).
  split; [|split]; intros.
  - unfold hc, hc_run. rewrite E1, E2; cbn [bind]; now rewrite N1, N2.
  - unfold tabu, tabu_run. rewrite E1, E2; cbn [bind]; now rewrite N1, N2.
  - unfold hc_rr. rewrite E1, E2; cbn [bind]; now rewrite N1, N2.
Qed.
Print Assumptions C73_metric_ignored.
