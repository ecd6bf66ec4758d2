(** Properties_Restart.v -- theorems C130: hill climbing with random restarts.
    Specification: SpecScore.v (moves, climbs, random walks, restarts), SpecClimb.v (the score of a whole graph). *)
From Verif Require Import Py Num BayesNet SpecFactor Graph SpecGraph GraphTheory GraphNet GraphCheck Data SpecLearn ParamLearn SpecScore StructScore StructFacts StructTabu
  SpecClimb StructClimb StructRestart Examples Properties_Score Properties_Climb.
Open Scope nat_scope.

Lemma hc_rr_segs o t mi metric fuel s max_iter R M debug r bn : good o -> table_ok t -> t_rows t <> [] -> valid_draws (col_nodes t) s ->
  hc_rr o t mi metric fuel s max_iter R M debug r = Ok bn ->
  exists g, search_graph (col_nodes t) g /\ bn_E bn = g_c g /\ rr_segs mi (length (t_rows t)) debug r (col_nodes t) s fuel max_iter M R (S max_iter) 0 (start t) g.
Proof.
  intros G T NR VD. unfold hc_rr. destruct (fit_edgeless_ok o t metric G T NR) as (bn0 & E0 & N0). rewrite E0. cbn [bind]. rewrite N0.
  pose proof (rr_loop_ok mi (length (t_rows t)) debug r (col_nodes t) s fuel max_iter R M VD (S R * S max_iter) 0 0 0 (start t) (search_start t) ltac:(lia) ltac:(lia)) as H.
  assert (Le : (R - 0) * S max_iter + (S max_iter - 0) <= S R * S max_iter) by (rewrite !Nat.sub_0_r; cbn [Nat.mul]; lia). specialize (H Le).
  destruct (rr_loop _ _ _ _ _ _ _ _ _ _ _ _ _ _ _) as [g|e] eqn:El; cbn [bind]; [|discriminate].
  apply rr_loop_segs in El; [|exact VD|apply search_start|lia|lia]. rewrite !Nat.sub_0_r in El.
  destruct (result_ok _ _ H) as (bn' & Eb & _ & Ee & _). intros Q. assert (bn' = bn) as -> by congruence. exists g. auto.
Qed.
Lemma segs_restarts mi nrow debug r nodes s fuel max_iter M : valid_draws nodes s -> forall R b n g g', rr_segs mi nrow debug r nodes s fuel max_iter M R b n g g' -> search_graph nodes g ->
  restarts (hc_chosen mi nrow r nodes) (stepped nodes debug) (hc_finished mi nrow r nodes) nodes s max_iter M R b n g g'.
Proof.
  intros VD R b n g g' H. induction H as [R b n g log g' E L|b n g log g' E L|R b n g log g1 n2 g2 g' E L W H IH]; intros SG.
  all: pose proof (hc_loop_ok mi nrow debug r nodes b g SG) as C; rewrite E in C; destruct C as [SG1 C].
  - now apply steps_used with log.
  - apply last_climb with log; [exact C|exact L|]. now apply (climb_early _ _ _ _ _ _ _ C).
  - destruct (rr_moves_walk nodes s fuel VD M n g1 g2 n2 SG1 W) as [Wk SG2].
    apply restart with log g1 n2 g2; [exact C|exact L|now apply (climb_early _ _ _ _ _ _ _ C)|exact Wk|now apply IH].
Qed.

(** ** C130 *)
(** the first climb may take max_iter + 1 steps, the climb after a restart max_iter *)
Theorem C130_shape : forall o t mi metric fuel s max_iter R M debug r bn, good o -> table_ok t -> t_rows t <> [] -> valid_draws (col_nodes t) s ->
  hc_rr o t mi metric fuel s max_iter R M debug r = Ok bn ->
  exists g, bn_E bn = g_c g /\
    restarts (hc_chosen mi (length (t_rows t)) r (col_nodes t)) (stepped (col_nodes t) debug) (hc_finished mi (length (t_rows t)) r (col_nodes t))
      (col_nodes t) s max_iter M R (S max_iter) 0 (start t) g.
Proof.
  intros o t mi metric fuel s max_iter R M debug r bn G T NR VD E. destruct (hc_rr_segs _ _ _ _ _ _ _ _ _ _ _ _ G T NR VD E) as (g & SG & Ee & H).
  exists g. split; [exact Ee|]. apply segs_restarts with fuel; [exact VD|exact H|apply search_start].
Qed.
Print Assumptions C130_shape.
(** without restarts, or with restarts that make no move, it is hc, whatever the random generator supplies *)
Theorem C130_no_restarts : forall o t mi metric fuel s max_iter M debug r,
  hc_rr o t mi metric fuel s max_iter 0 M debug r = hc o t mi metric max_iter debug r.
Proof.
  intros o t mi metric fuel s max_iter M debug r. unfold hc_rr, hc, hc_run. destruct (fit_edgeless o t metric) as [bn|e]; cbn [bind]; [|reflexivity].
  rewrite rr_loop_none by lia. rewrite Nat.sub_0_r. destruct (hc_loop _ _ _ _ _ _ _) as [[log g]|e]; reflexivity.
Qed.
Print Assumptions C130_no_restarts.
Theorem C130_no_moves : forall o t mi metric fuel s max_iter R debug r,
  hc_rr o t mi metric fuel s max_iter R 0 debug r = hc o t mi metric max_iter debug r.
Proof.
  intros o t mi metric fuel s max_iter R debug r. unfold hc_rr, hc, hc_run. destruct (fit_edgeless o t metric) as [bn|e]; cbn [bind]; [|reflexivity].
  rewrite rr_loop_still by nia. rewrite Nat.sub_0_r. destruct (hc_loop _ _ _ _ _ _ _) as [[log g]|e]; reflexivity.
Qed.
Print Assumptions C130_no_moves.
(** a call that returns after [fuel] draws per move at most returns the same with more *)
Theorem C130_draws : forall o t mi metric fuel fuel' s max_iter R M debug r bn, fuel <= fuel' ->
  hc_rr o t mi metric fuel s max_iter R M debug r = Ok bn -> hc_rr o t mi metric fuel' s max_iter R M debug r = Ok bn.
Proof.
  intros o t mi metric fuel fuel' s max_iter R M debug r bn L. unfold hc_rr. destruct (fit_edgeless o t metric) as [bn0|e]; cbn [bind]; [|discriminate].
  destruct (rr_loop _ _ _ _ _ _ _ _ _ _ _ _ _ _ _) as [g|e] eqn:E; cbn [bind]; [|discriminate].
  now rewrite (rr_loop_more _ _ _ _ _ _ _ _ _ _ _ L _ _ _ _ _ _ E).
Qed.
Print Assumptions C130_draws.
(** with debug=False and a large enough max_iter the result is, like that of hc, a graph that no legal move improves or
    one where the best legal move is a reversal *)
Lemma log_chosen mi nrow debug r nodes b g log g' : search_graph nodes g -> hc_loop b mi nrow debug r nodes g = Ok (log, g') ->
  forall gx mx, In (gx, mx) log -> hc_chosen mi nrow r nodes gx mx.
Proof.
  intros SG E. pose proof (hc_loop_ok mi nrow debug r nodes b g SG) as H. rewrite E in H. destruct H as [_ C]. clear -C.
  induction C; intros gx mx I; [destruct I|destruct I|]. destruct I as [Q|I]; [inversion Q; now subst|now apply IHC].
Qed.
Lemma log_stuck mi nrow r nodes : forall b g log g' g0 a, hc_loop b mi nrow false r nodes g = Ok (log, g') -> In (g0, (Reversal, a)) log -> g' = g0.
Proof.
  induction b as [|b IH]; intros g log g' g0 a; cbn [hc_loop]; [intros E; inversion E; now intros []|].
  destruct (scan mi nrow (fun _ => true) r nodes g) as [[[d m]|]|e] eqn:Es; cbn [bind]; [| |discriminate].
  2:{ intros E. inversion E. now intros []. }
  destruct (apply_move false g m) as [g1|e] eqn:Ea; cbn [bind]; [|discriminate].
  destruct (hc_loop b mi nrow false r nodes g1) as [[lg gg]|e] eqn:El; cbn [bind fst snd]; [|discriminate].
  intros E. inversion E; subst. intros [Q|I]; [|now apply (IH g1 lg g' g0 a)].
  inversion Q; subst. destruct a as [u v]. cbn [apply_move] in Ea. inversion Ea; subst g1. rewrite (hc_stuck _ _ _ _ _ _ _ Es) in El. now inversion El.
Qed.
Lemma has_reversal log : ~ no_reversal log -> exists g a, In (g, (Reversal, a)) log.
Proof.
  intros N. induction log as [|[g0 [k a]] log IH]; [destruct N; intros x y []|]. destruct k; [| |exists g0, a; now left].
  all: destruct IH as (g1 & b & I); [|exists g1, b; now right]; intros H; apply N; intros x y [Q|Q]; [inversion Q; discriminate|now apply (H x)].
Qed.
Lemma segs_end mi nrow r nodes s fuel max_iter M : valid_draws nodes s -> graph_bound (length nodes) <= max_iter ->
  forall R b n g g', rr_segs mi nrow false r nodes s fuel max_iter M R b n g g' -> search_graph nodes g -> max_iter <= b ->
  hc_finished mi nrow r nodes g' \/ exists u v, hc_chosen mi nrow r nodes g' (Reversal, (u, v)).
Proof.
  intros VD B R b n g g' H. induction H as [R b n g log g' E L|b n g log g' E L|R b n g log g1 n2 g2 g' E L W H IH]; intros SG Lb.
  all: pose proof (hc_loop_ok mi nrow false r nodes b g SG) as C; rewrite E in C; destruct C as [SG1 C].
  - right. destruct (no_reversal_dec log) as [N|N].
    + exfalso. apply hc_loop_run in E; [|exact SG]. pose proof (run_bound _ _ _ _ _ _ _ _ E SG1 N). lia.
    + destruct (has_reversal _ N) as (g0 & [u v] & I). pose proof (log_stuck _ _ _ _ _ _ _ _ _ _ E I) as ->. exists u, v. now apply (log_chosen _ _ _ _ _ _ _ _ _ SG E).
  - left. now apply (climb_early _ _ _ _ _ _ _ C).
  - destruct (rr_moves_walk nodes s fuel VD M n g1 g2 n2 SG1 W) as [_ SG2]. now apply IH.
Qed.
Theorem C130_end : forall o t mi metric fuel s max_iter R M r bn, good o -> table_ok t -> t_rows t <> [] -> valid_draws (col_nodes t) s ->
  (t_ncols t + 1) ^ (t_ncols t * t_ncols t) <= max_iter ->
  hc_rr o t mi metric fuel s max_iter R M false r = Ok bn ->
  exists g, search_graph (col_nodes t) g /\ bn_E bn = g_c g /\
    (none_better (legal (col_nodes t) r (edge (g_c g))) (gains mi (length (t_rows t)) (g_p g)) \/
     exists u v, best_of (legal (col_nodes t) r (edge (g_c g))) (gains mi (length (t_rows t)) (g_p g)) (Reversal, (u, v))).
Proof.
  intros o t mi metric fuel s max_iter R M r bn G T NR VD B E. destruct (hc_rr_segs _ _ _ _ _ _ _ _ _ _ _ _ G T NR VD E) as (g & SG & Ee & H).
  exists g. split; [exact SG|]. split; [exact Ee|]. apply segs_end in H; [exact H|exact VD| |apply search_start|lia].
  unfold graph_bound, col_nodes. now rewrite map_length, seq_length.
Qed.
Print Assumptions C130_end.
(** an example: 0 -> 1 is added, the restart reverses it, and nothing improves the score then *)
Example C130_nonvacuous : valid_draws (col_nodes exD2) (ex_draws Reversal) /\ (2 + 1) ^ (2 * 2) <= 100 /\
  (exists bn, hc id_oracle exD2 ex_len "AIC" 100 false None = Ok bn /\ bn_E bn = [(n0, [n1]); (n1, [])]) /\
  (exists bn, hc_rr id_oracle exD2 ex_len "AIC" 10 (ex_draws Reversal) 100 1 1 false None = Ok bn /\ bn_E bn = [(n0, []); (n1, [n0])]) /\
  (exists bn, hc_rr id_oracle exD2 ex_len "AIC" 10 (fun i => mkDraw Deletion (if i <? 3 then n1 else n0) (if i <? 3 then n0 else n1)) 100 1 1 false None = Ok bn /\ bn_E bn = [(n0, [n1]); (n1, [])]).
Proof.
  split; [apply ex_draws_valid|]. split; [cbn; lia|]. split; [|split]; eexists; (split; [vm_compute; reflexivity|reflexivity]).
Qed.
(** max_iter = 0: one step of climbing, or M random moves and no climbing after them *)
Example C130_max_iter_0 : 
  (exists bn, hc_rr id_oracle exD2 ex_const "AIC" 10 (ex_draws Addition) 0 5 1 false None = Ok bn /\ bn_E bn = [(n0, [n1]); (n1, [])]).
Proof. eexists; (split; [vm_compute; reflexivity|reflexivity]). Qed.
(** "random restarts find a graph at least as good as hc": no, the best graph found is not kept.  Two parents of one node are
    worth less than none here, but every single move from there is worse still. *)
Definition ex_hill (cols : list name) : Qc := match length cols with 0 => 0 | 1 => 0 | 2 => 1 | 3 => qq 1 2 | _ => qq 10 1 end%Qc.
Definition ex_uphill (i : nat) : draw := if i <? 2 then mkDraw Addition n0 n2 else mkDraw Addition n1 n2.
Theorem C130_never_worse_refuted : exists t m s bn bn' g g', table_ok t /\ t_rows t <> [] /\ valid_draws (col_nodes t) s /\
  hc id_oracle t (fun cols => Ok (Some (m cols))) "AIC" 100 false None = Ok bn /\
  hc_rr id_oracle t (fun cols => Ok (Some (m cols))) "AIC" 10 s 100 1 2 false None = Ok bn' /\
  bn_E bn = g_c g /\ bn_E bn' = g_c g' /\ search_graph (col_nodes t) g /\ search_graph (col_nodes t) g' /\
  (graph_score m (length (t_rows t)) (col_nodes t) g' < graph_score m (length (t_rows t)) (col_nodes t) g)%Qc.
Proof.
  assert (T : table_ok exD3) by (intros r H; cbn in H; destruct H as [<-|[<-|[<-|[]]]]; reflexivity).
  assert (VD : valid_draws (col_nodes exD3) ex_uphill).
  { intros _ i. unfold ex_uphill. destruct (i <? 2); cbn; (split; [tauto|]); (split; [tauto|discriminate]). }
  set (g := mkG [(n0, []); (n1, []); (n2, [])] [(n0, []); (n1, []); (n2, [])]).
  set (g' := mkG [(n0, [n2]); (n1, [n2]); (n2, [])] [(n0, []); (n1, []); (n2, [n0; n1])]).
  assert (S' : rr_moves 10 (col_nodes exD3) ex_uphill 0 2 g = Ok (g', 4)) by (vm_compute; reflexivity).
  apply (rr_moves_walk (col_nodes exD3) ex_uphill 10 VD) in S'; [|apply (search_start exD3)].
  exists exD3, ex_hill, ex_uphill. eexists _, _. exists g, g'. split; [exact T|]. split; [discriminate|]. split; [exact VD|].
  split; [vm_compute; reflexivity|]. split; [vm_compute; reflexivity|]. split; [reflexivity|]. split; [reflexivity|].
  split; [apply (search_start exD3)|]. split; [apply S'|]. vm_compute. reflexivity.
Qed.
Print Assumptions C130_never_worse_refuted.
