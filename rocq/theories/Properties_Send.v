(** Properties_Send.v -- theorem C148: messages sent from a clique of a new tree, twice and by
    Clique.send_initial_message.  Specification: SpecClique.v, SpecFactor.v. *)
From Verif Require Import Py Num BayesNet Factor SpecFactor SpecGraph SpecMst Radix SumOver FactorMul FactorOut FactorMore Factorization SpecInference VE VETotal GraphNet GraphFacts Graph Mst Chordal GraphCheck Dirac CliqueTree SpecClique CliqueFacts CliqueInit CliqueBuild CliqueSend CliqueBP CliqueMain CliqueExact Junction CliqueNet CliqueRef Properties_Graph Properties_Clique Examples.
Open Scope nat_scope.

(** a clique with another belief *)
Definition with_belief (c : clique) (b : nat) : clique := mkC (c_scope c) (c_F c) (c_psi c) (Some b) (c_msgs c).

Lemma upd_same {A} (l : list A) i x : nth_error l i = Some x -> upd_nth i x l = l.
Proof. revert i. induction l as [|y l IH]; intros [|i] H; cbn in *; try discriminate; [congruence|]. f_equal. now apply IH. Qed.
Lemma upd_lt {A} (l : list A) i x : nth_error l i = Some x -> i < length l.
Proof. intros H. apply nth_error_Some. congruence. Qed.
(** from a clique without messages whose belief is a copy of its potential both ways of sending do the same, up to the
    new copy of the potential *)
Lemma initial_as_send o h cs i j c d p b : nth_error cs i = Some c -> nth_error cs j = Some d -> i <> j ->
  c_psi c = Some p -> c_belief c = Some b -> c_msgs c = [] -> nth_error (h_obj h) p = nth_error (h_obj h) b ->
  match send_message o h cs i j with
  | Raise e => send_initial_message o h cs i j = Raise e
  | Ok (h', cs') => exists m, cs' = upd_nth j (add_msg d m) cs /\
      forall ob, nth_error (h_obj h') p = Some ob ->
      send_initial_message o h cs i j = Ok (mkH (h_obj h' ++ [ob]) (h_scope h') (h_card h') (h_stride h'), upd_nth i (with_belief c (length (h_obj h'))) (upd_nth j (add_msg d m) cs))
  end.
Proof.
  intros Ec Ed N Ep Eb Em Eo.
  assert (Eq : forall ob, mkC (c_scope c) (c_F c) (c_psi c) (Some ob) (c_msgs c) = with_belief c ob) by reflexivity.
  assert (Ecp : fcopy h b = fcopy h p) by (unfold fcopy, cell; now rewrite Eo).
  unfold send_message, send_initial_message. rewrite (cell_Some _ _ _ Ec). cbn [bind]. unfold ensure_belief. rewrite Eb, Ep. cbn [bind fst snd]. rewrite Em. cbn [fmul_all bind]. rewrite Ecp.
  destruct (fcopy h p) as [[h1 m]|e]; [|reflexivity]. cbn [bind fst snd]. rewrite (cell_Some _ _ _ Ed). cbn [bind].
  destruct (fsumout_all _ _ _ _) as [h2|e]; [|reflexivity]. cbn [bind].
  assert (Ei : mkC (c_scope c) (c_F c) (Some p) (Some b) [] = c) by (destruct c; cbn in *; congruence). rewrite Ei, (upd_same cs i c Ec), (cell_Some _ _ _ Ed). cbn [bind].
  exists m. split; [reflexivity|]. intros ob Ho. unfold fcopy. rewrite (cell_Some _ _ _ Ho). cbn [bind fst snd].
  rewrite (cell_Some _ _ c) by (rewrite nth_error_upd_other by congruence; exact Ec). cbn [bind]. reflexivity.
Qed.

(** ** C148 *)
(** from a clique i of a new tree to another clique j, whose scopes differ by ws: send_initial_message delivers the sum
    of the sender's potential over ws as send_message does; the sender's potential, its old and its new belief lose ws
    but keep the full table; nothing else changes.  If the potential lacks a variable of ws both raise KeyError. *)
Theorem C148_initial_message : forall nx mc o bn t o1 i j c d, wfnet bn -> good o -> good o1 -> clique_tree nx mc o bn = Ok t ->
  nth_error (t_C t) i = Some c -> nth_error (t_C t) j = Some d -> i <> j ->
  forall ws, NoDup ws -> (forall v, In v ws <-> In v (c_scope c) /\ ~ In v (c_scope d)) ->
  exists p b f, c_psi c = Some p /\ c_belief c = Some b /\ fload (t_heap t) b = Ok f /\ fload (t_heap t) p = Ok f /\ wf (ncard bn) f /\
  ((forall w, In w ws -> In w (f_scope f)) ->
   exists h' m b' fm, send_initial_message o1 (t_heap t) (t_C t) i j = Ok (h', upd_nth i (with_belief c b') (upd_nth j (add_msg d m) (t_C t))) /\ c_msgs (add_msg d m) = [m] /\
    fload h' m = Ok fm /\ repr (ncard bn) fm (sum_over (ncard bn) ws (val f)) /\ (forall v, In v (f_scope fm) <-> In v (f_scope f) /\ ~ In v ws) /\
    b' <> b /\ b' <> p /\ exists g, fload h' b' = Ok g /\ fload h' b = Ok g /\ fload h' p = Ok g /\ f_cpt g = f_cpt f /\ (forall v, In v (f_scope g) <-> In v (f_scope f) /\ ~ In v ws)) /\
  ((exists w, In w ws /\ ~ In w (f_scope f)) -> send_initial_message o1 (t_heap t) (t_C t) i j = Raise KeyError).
Proof.
  intros nx mc o bn t o1 i j c d W Go Go1 H Ec Ed Nij ws ND Hw. destruct (built_facts nx mc o bn t W Go H) as (es & xs & _ & _ & _ & Lv & Rd & _).
  destruct (Forall2_nth _ _ _ Rd i c Ec) as (x & Ex & Rx). destruct (ready_obj _ _ _ _ Rx) as (p & f & again & B1 & B2 & B3 & B4 & B5 & B6 & B7 & B8 & _).
  exists p, (fst x), f. split; [exact B1|]. split; [exact B2|]. split; [exact B4|]. split; [exact B5|]. split; [exact B8|].
  destruct (first_message bn o (t_heap t) (t_C t) xs o1 i j c d x W Go Go1 Lv Rd Ec Ed Ex Nij ws ND Hw p (fst x) f B1 B2 B4) as [M1 M2].
  pose proof (initial_as_send o1 (t_heap t) (t_C t) i j c d p (fst x) Ec Ed Nij B1 B2 B3 B6) as K. split.
  - intros Cov. destruct (M1 Cov) as (h' & m & fm & S1 & S2 & S3 & S4 & S5 & S6 & S7). rewrite S1 in K. destruct K as (m' & Em & K).
    assert (m' = m) by (apply (f_equal (fun l => nth_error l j)) in Em; rewrite !nth_error_upd_same in Em by (exact (upd_lt _ _ _ Ed)); unfold add_msg in Em; injection Em as Em; apply app_inj_tail in Em; symmetry; tauto).
    subst m'. destruct (nth_error (h_obj h') p) as [ob|] eqn:Eo; [|unfold fload, cell in S7; rewrite Eo in S7; discriminate].
    specialize (K ob eq_refl).
    assert (Ld : forall a g, fload h' a = Ok g -> fload (mkH (h_obj h' ++ [ob]) (h_scope h') (h_card h') (h_stride h')) a = Ok g).
    { intros a g E. unfold fload, cell in *. cbn [h_obj h_scope h_card h_stride]. destruct (nth_error (h_obj h') a) eqn:Ea; [|discriminate]. rewrite nth_error_app1 by (apply nth_error_Some; congruence). now rewrite Ea. }
    assert (Lt : forall a g, fload h' a = Ok g -> a < length (h_obj h')) by (intros a g E; unfold fload, cell in E; destruct (nth_error (h_obj h') a) eqn:Ea; [apply nth_error_Some; congruence|discriminate]).
    eexists. exists m, (length (h_obj h')), fm. split; [exact K|]. split; [exact S2|]. split; [now apply Ld|]. split; [exact S4|]. split; [exact S5|].
    split; [pose proof (Lt _ _ S6); lia|]. split; [pose proof (Lt _ _ S7); lia|].
    exists (relabel f fm). split; [|split; [now apply Ld|]; split; [now apply Ld|]; split; [reflexivity|exact S5]].
    unfold fload, cell in S7 |- *. cbn [h_obj h_scope h_card h_stride]. rewrite Eo in S7. rewrite nth_error_app2, Nat.sub_diag by lia. exact S7.
  - intros Nc. rewrite (M2 Nc) in K. exact K.
Qed.
Print Assumptions C148_initial_message.
(** ** a clique can send once *)
Lemma fcopy_any h s f : fload h s = Ok f -> exists h', fcopy h s = Ok (h', length (h_obj h)) /\ fload h' (length (h_obj h)) = Ok f.
Proof.
  intros E. unfold fload, fcopy, cell in *. destruct (nth_error (h_obj h) s) as [ob|] eqn:Eo; [|discriminate]. cbn [bind] in *. eexists. split; [reflexivity|]. cbn [h_obj h_scope h_card h_stride].
  rewrite nth_error_app2, Nat.sub_diag by lia. exact E.
Qed.
Lemma fsumout_first o h s vs g : fload h s = Ok g -> vs <> [] -> (forall v, In v vs -> ~ In v (dkeys (f_card g))) -> fsumout_all o h s vs = Raise KeyError.
Proof. intros E N H. destruct vs as [|v r]; [congruence|]. cbn [fsumout_all]. unfold fsumout. rewrite E. cbn [bind]. rewrite sumout_keyerror by (apply H; now left). reflexivity. Qed.
Lemma gone_ne o s1 s2 : good o -> (exists w, In w s1 /\ ~ In w s2) -> ask o (set_diff s1 (set_inter s1 s2)) <> [] /\ forall v, In v (ask o (set_diff s1 (set_inter s1 s2))) -> In v s1 /\ ~ In v s2.
Proof.
  intros Go (w & W1 & W2). assert (P : Permutation (ask o (set_diff s1 (set_inter s1 s2))) (set_diff s1 (set_inter s1 s2))) by now apply good_ask. split.
  - intros E. rewrite E in P. apply Permutation_nil in P. assert (I : In w (set_diff s1 (set_inter s1 s2))) by (apply In_set_diff; split; [exact W1|]; intros C; apply In_set_inter in C; tauto). rewrite P in I. destruct I.
  - intros v Hv. apply (Permutation_in _ P) in Hv. apply In_set_diff in Hv as [A B]. split; [exact A|]. intros C. apply B. now apply In_set_inter.
Qed.
Lemma send_again o h cs i j c d a g : good o -> nth_error cs i = Some c -> nth_error cs j = Some d -> (exists w, In w (c_scope c) /\ ~ In w (c_scope d)) ->
  fload h a = Ok g -> (forall v, In v (c_scope c) -> ~ In v (c_scope d) -> ~ In v (dkeys (f_card g))) ->
  (c_msgs c = [] -> c_belief c = Some a -> send_message o h cs i j = Raise KeyError) /\ (c_psi c = Some a -> send_initial_message o h cs i j = Raise KeyError).
Proof.
  intros Go Ec Ed Ne Eg Hg. destruct (fcopy_any h a g Eg) as (h1 & E1 & F1).
  destruct (gone_ne (sub o 2) (c_scope c) (c_scope d) (good_sub _ 2 Go) Ne) as [N1 N2]. split.
  - intros Em Eb. unfold send_message. rewrite (cell_Some _ _ _ Ec). cbn [bind]. unfold ensure_belief. rewrite Eb. cbn [bind fst snd]. rewrite Em. cbn [fmul_all bind]. rewrite E1. cbn [bind fst snd].
    rewrite (cell_Some _ _ _ Ed). cbn [bind]. rewrite (fsumout_first _ _ _ _ g F1 N1); [reflexivity|]. intros v Hv. apply N2 in Hv as [A B]. now apply Hg.
  - intros Ep. unfold send_initial_message. rewrite (cell_Some _ _ _ Ec). cbn [bind]. rewrite Ep, E1. cbn [bind fst snd].
    rewrite (cell_Some _ _ _ Ed). cbn [bind]. rewrite (fsumout_first _ _ _ _ g F1 N1); [reflexivity|]. intros v Hv. apply N2 in Hv as [A B]. now apply Hg.
Qed.
(** after either kind of message from clique i to clique j, whose scope lacks a variable of i's, any further message of
    either kind from i to j raises KeyError: the potential and the belief no longer have the variable to sum out *)
Theorem C148_once : forall nx mc o bn t o1 i j c d h cs, wfnet bn -> good o -> good o1 -> clique_tree nx mc o bn = Ok t ->
  nth_error (t_C t) i = Some c -> nth_error (t_C t) j = Some d -> (exists w, In w (c_scope c) /\ ~ In w (c_scope d)) ->
  send_message o1 (t_heap t) (t_C t) i j = Ok (h, cs) \/ send_initial_message o1 (t_heap t) (t_C t) i j = Ok (h, cs) ->
  forall o2, good o2 -> send_message o2 h cs i j = Raise KeyError /\ send_initial_message o2 h cs i j = Raise KeyError.
Proof.
  intros nx mc o bn t o1 i j c d h cs W Go Go1 H Ec Ed Ne Hs o2 Go2.
  assert (Nij : i <> j) by (intros ->; destruct Ne as (w & W1 & W2); replace d with c in W2 by congruence; contradiction).
  set (ws := set_diff (c_scope c) (c_scope d)).
  assert (Hw : forall v, In v ws <-> In v (c_scope c) /\ ~ In v (c_scope d)) by (intros v; apply In_set_diff).
  assert (ND : NoDup ws) by apply NoDup_set_diff.
  destruct (built_facts nx mc o bn t W Go H) as (es & xs & _ & _ & _ & Lv & Rd & _).
  destruct (Forall2_nth _ _ _ Rd i c Ec) as (x & Ex & Rx). destruct (ready_obj _ _ _ _ Rx) as (p & f & again & B1 & B2 & B3 & B4 & B5 & B6 & B7 & B8 & _).
  assert (Cov : forall w, In w ws -> In w (f_scope f)).
  { intros w Hin. destruct (in_dec name_eq_dec w (f_scope f)) as [Y|N]; [exact Y|exfalso].
    destruct (first_message bn o (t_heap t) (t_C t) xs o1 i j c d x W Go Go1 Lv Rd Ec Ed Ex Nij ws ND Hw p (fst x) f B1 B2 B4) as [_ M2].
    pose proof (initial_as_send o1 (t_heap t) (t_C t) i j c d p (fst x) Ec Ed Nij B1 B2 B3 B6) as K. rewrite M2 in K by (exists w; auto). destruct Hs as [Hs|Hs]; [rewrite M2 in Hs by (exists w; auto)|rewrite K in Hs]; discriminate. }
  assert (Dead : forall fm h' m a o3 cs3 c3 d3, repr (ncard bn) fm (sum_over (ncard bn) ws (val f)) -> (forall v, In v (f_scope fm) <-> In v (f_scope f) /\ ~ In v ws) -> m = relabel f fm -> fload h' a = Ok m ->
    good o3 -> nth_error cs3 i = Some c3 -> nth_error cs3 j = Some d3 -> c_scope c3 = c_scope c -> c_scope d3 = c_scope d ->
    (c_msgs c3 = [] -> c_belief c3 = Some a -> send_message o3 h' cs3 i j = Raise KeyError) /\ (c_psi c3 = Some a -> send_initial_message o3 h' cs3 i j = Raise KeyError)).
  { intros fm h' m a o3 cs3 c3 d3 Rm Sm -> Ea Go3 E3 Ed3 Sc Sd. apply (send_again o3 h' cs3 i j c3 d3 a (relabel f fm) Go3 E3 Ed3); [now rewrite Sc, Sd|exact Ea|].
    rewrite Sc, Sd. intros v V1 V2 C. cbn [relabel f_card] in C. apply (Permutation_in _ (wf_ckeys _ _ (proj1 Rm))) in C. apply Sm in C as [_ C]. apply C, Hw. auto. }
  destruct (first_message bn o (t_heap t) (t_C t) xs o1 i j c d x W Go Go1 Lv Rd Ec Ed Ex Nij ws ND Hw p (fst x) f B1 B2 B4) as [M1 _].
  destruct (M1 Cov) as (h' & m & fm & S1 & S2 & S3 & S4 & S5 & S6 & S7).
  pose proof (initial_as_send o1 (t_heap t) (t_C t) i j c d p (fst x) Ec Ed Nij B1 B2 B3 B6) as K. rewrite S1 in K. destruct K as (m' & Em & K).
  assert (m' = m) by (apply (f_equal (fun l => nth_error l j)) in Em; rewrite !nth_error_upd_same in Em by (exact (upd_lt _ _ _ Ed)); unfold add_msg in Em; injection Em as Em; apply app_inj_tail in Em; symmetry; tauto).
  subst m'. assert (Ej : nth_error (upd_nth j (add_msg d m) (t_C t)) j = Some (add_msg d m)) by (apply nth_error_upd_same; exact (upd_lt _ _ _ Ed)).
  assert (Ei : nth_error (upd_nth j (add_msg d m) (t_C t)) i = Some c) by (rewrite nth_error_upd_other by congruence; exact Ec).
  destruct Hs as [Hs|Hs].
  - rewrite S1 in Hs. injection Hs as <- <-. split.
    + apply (Dead fm h' _ (fst x) o2 _ c (add_msg d m) S4 S5 eq_refl S6 Go2 Ei Ej eq_refl eq_refl); [exact B3|exact B2].
    + apply (Dead fm h' _ p o2 _ c (add_msg d m) S4 S5 eq_refl S7 Go2 Ei Ej eq_refl eq_refl). exact B1.
  - destruct (nth_error (h_obj h') p) as [ob|] eqn:Eo; [|unfold fload, cell in S7; rewrite Eo in S7; discriminate].
    rewrite (K ob eq_refl) in Hs. injection Hs as <- <-.
    set (h2 := mkH (h_obj h' ++ [ob]) (h_scope h') (h_card h') (h_stride h')).
    assert (Ej2 : nth_error (upd_nth i (with_belief c (length (h_obj h'))) (upd_nth j (add_msg d m) (t_C t))) j = Some (add_msg d m)) by (rewrite nth_error_upd_other by congruence; exact Ej).
    assert (Ei2 : nth_error (upd_nth i (with_belief c (length (h_obj h'))) (upd_nth j (add_msg d m) (t_C t))) i = Some (with_belief c (length (h_obj h')))) by (apply nth_error_upd_same; exact (upd_lt _ _ _ Ei)).
    split.
    + apply (Dead fm h2 _ (length (h_obj h')) o2 _ (with_belief c (length (h_obj h'))) (add_msg d m) S4 S5 eq_refl); [|exact Go2|exact Ei2|exact Ej2|reflexivity|reflexivity|exact B3|reflexivity].
      unfold fload, cell in S7 |- *. cbn [h2 h_obj h_scope h_card h_stride]. rewrite Eo in S7. rewrite nth_error_app2, Nat.sub_diag by lia. exact S7.
    + apply (Dead fm h2 _ p o2 _ (with_belief c (length (h_obj h'))) (add_msg d m) S4 S5 eq_refl); [|exact Go2|exact Ei2|exact Ej2|reflexivity|reflexivity|exact B1].
      unfold fload, cell in S7 |- *. cbn [h2 h_obj h_scope h_card h_stride]. rewrite nth_error_app1 by (apply nth_error_Some; congruence). exact S7.
Qed.
Print Assumptions C148_once.

(** a clique that has neither potential nor belief, as the constructor leaves it *)
Theorem C148_not_initialised : forall o h cs i j c target, nth_error cs i = Some c -> c_psi c = None -> c_belief c = None ->
  send_initial_message o h cs i j = Raise AttributeError /\ marginalize_over h c target = Raise AttributeError /\
  (c_msgs c = [] -> collect_beliefs o h c = Ok (h, c)) /\ (c_msgs c <> [] -> collect_beliefs o h c = Raise TypeError).
Proof.
  intros o h cs i j c target Ec Ep Eb. split; [unfold send_initial_message; rewrite (cell_Some _ _ _ Ec); cbn [bind]; now rewrite Ep|].
  split; [unfold marginalize_over; now rewrite Eb|]. unfold collect_beliefs. rewrite Eb, Ep. split; [intros ->; reflexivity|]. destruct (c_msgs c); [congruence|reflexivity].
Qed.
Print Assumptions C148_not_initialised.

(** the chain: the clique {A, B} sends its first message to {B, C}, then none *)
Example C148_nonvacuous : exists c d h cs, nth_error (t_C (the_tree exChain)) 1 = Some c /\ nth_error (t_C (the_tree exChain)) 0 = Some d /\
  (exists w, In w (c_scope c) /\ ~ In w (c_scope d)) /\ send_initial_message id_oracle (t_heap (the_tree exChain)) (t_C (the_tree exChain)) 1 0 = Ok (h, cs) /\
  map (fun x => length (c_msgs x)) cs = [1; 0] /\ map c_belief cs <> map c_belief (t_C (the_tree exChain)) /\
  send_message id_oracle h cs 1 0 = Raise KeyError.
Proof.
  do 4 eexists. split; [vm_compute; reflexivity|]. split; [vm_compute; reflexivity|]. split; [exists exA; split; [vm_compute; tauto|vm_compute; intros [E|[E|[]]]; discriminate]|].
  split; [vm_compute; reflexivity|]. split; [vm_compute; reflexivity|]. split; [vm_compute; discriminate|vm_compute; reflexivity].
Qed.
