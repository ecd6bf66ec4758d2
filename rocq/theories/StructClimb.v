(** StructClimb.v -- the score of the whole graph goes up with every addition and deletion of a greedy search. *)
From Verif Require Import Py Num BayesNet SpecFactor Graph SpecGraph GraphTheory GraphNet Chordal ParamFacts Data SpecLearn ParamLearn SpecScore StructScore StructFacts StructTabu SpecClimb.
Open Scope nat_scope.

(** ** a step *)
Definition num_of (mi : score) (cols : list name) : Qc := match mi cols with Ok (Some x) => x | _ => 0%Qc end.
Lemma num_of_Ok mi cols x : mi cols = Ok (Some x) -> num_of mi cols = x.
Proof. unfold num_of. now intros ->. Qed.
Lemma qsum_change {A} (f f' : A -> Qc) v l : NoDup l -> In v l -> (forall x, In x l -> x <> v -> f x = f' x) ->
  qsum (map f' l) = (qsum (map f l) - f v + f' v)%Qc.
Proof.
  induction l as [|x l IH]; intros N I H; [destruct I|]. cbn [map]. unfold qsum. cbn [fold_right]. fold (qsum (map f l)). fold (qsum (map f' l)).
  inversion N; subst. destruct I as [-> |I].
  - rewrite (qsum_map_ext f' f); [ring|]. intros y Hy. symmetry. apply H; [now right|]. intros ->. auto.
  - rewrite IH; [|assumption|assumption|intros y Hy; apply H; now right].
    rewrite (H x); [ring|now left|]. intros ->. auto.
Qed.
Lemma without_remove1 u l : NoDup l -> without u l = remove1 u l.
Proof.
  unfold without. induction l as [|x l IH]; intros N; [reflexivity|]. inversion N; subst. cbn [filter remove1].
  destruct (name_eqb x u) eqn:E; cbn [negb].
  - apply name_eqb_eq in E. subst. rewrite name_eqb_refl. apply filter_all. intros y Hy. apply negb_true_iff, name_eqb_neq. intros ->. auto.
  - assert (E' : name_eqb u x = false) by (apply name_eqb_neq in E; apply name_eqb_neq; congruence). rewrite E'. f_equal. now apply IH.
Qed.
Section Step.
  Context (mi : score) (nrow : nat) (r : option (list (name * name))) (nodes : list name).
  Context (m0 : list name -> Qc) (Hm : forall cols x, mi cols = Ok (Some x) -> m0 cols = x).
  Notation total := (graph_score m0 nrow nodes).
  Lemma total_change g g' v pv pv' : NoDup nodes -> In v nodes -> dget (g_p g) v = Some pv -> g_p g' = dset (g_p g) v pv' ->
    total g' = (total g + nQc nrow * (m0 (v :: pv) - m0 (v :: pv')))%Qc.
  Proof.
    intros N I D E. unfold graph_score.
    rewrite (qsum_change (family_score m0 (g_p g)) (family_score m0 (g_p g')) v nodes N I).
    - unfold family_score at 2 3. rewrite D, E, dget_dset, name_eqb_refl. ring.
    - intros x _ Nx. unfold family_score. rewrite E, dget_dset. apply name_eqb_neq in Nx. now rewrite Nx.
  Qed.
  Lemma step_total debug g m d g' : search_graph nodes g -> legal nodes r (edge (g_c g)) m -> gains mi nrow (g_p g) m d -> fst m <> Reversal ->
    apply_move debug g m = Ok g' -> total g' = (total g + d)%Qc.
  Proof.
    intros SG L Gn NR E. destruct m as [k [u v]]. destruct L as (Hu & Hv & L). destruct (key_c _ _ SG u Hu) as (c & Dc & Nc & Ic & Mc).
    destruct (key_p _ _ SG v Hv) as (p & Dp & Np & Ip & Mp). cbn [fst] in NR. unfold apply_move in E. destruct k; [| |now destruct NR].
    - unfold g_add in E. rewrite (dappend_ok _ _ _ v Dc), (dappend_ok _ _ _ u Dp) in E. cbn [bind] in E. inversion E; subst g'. clear E.
      inversion Gn; subst. replace pv with p in * by congruence.
      rewrite (total_change g _ v p (p ++ [u])); [|apply SG|exact Hv|exact Dp|reflexivity].
      change (v :: p ++ [u]) with ((v :: p) ++ [u]).
      match goal with H1 : mi (v :: p) = Ok (Some x), H2 : mi ((v :: p) ++ [u]) = Ok (Some y) |- _ => now rewrite (Hm _ _ H1), (Hm _ _ H2) end.
    - assert (Iv : In v c) by (apply mem_In; now apply Mc). assert (Iu : In u p) by (apply mem_In; now apply Mp).
      unfold g_del in E. rewrite (dremove_ok _ _ _ v Dc Iv), (dremove_ok _ _ _ u Dp Iu) in E. cbn [bind] in E. inversion E; subst g'. clear E.
      assert (Nuv : v <> u). { intros ->. apply (sg_acyclic _ _ SG u). now apply t_step. }
      inversion Gn; subst. replace pv with p in * by congruence.
      rewrite (total_change g _ v p (remove1 u p)); [|apply SG|exact Hv|exact Dp|reflexivity].
      assert (W : filter (fun i => negb (name_eqb i u)) (v :: p) = v :: remove1 u p).
      { cbn [filter]. apply name_eqb_neq in Nuv. rewrite Nuv. cbn [negb]. f_equal. now apply without_remove1. }
      rewrite W in *.
      match goal with H1 : mi (v :: p) = Ok (Some x), H2 : mi (v :: remove1 u p) = Ok (Some y) |- _ => now rewrite (Hm _ _ H1), (Hm _ _ H2) end.
  Qed.

  (** ** runs *)
  Inductive run (debug : bool) : gstate -> list (gstate * move) -> gstate -> Prop :=
  | run_nil g : run debug g [] g
  | run_cons g m d g1 log g2 : search_graph nodes g -> legal nodes r (edge (g_c g)) m -> gains mi nrow (g_p g) m d -> (0 < d)%Qc ->
      apply_move debug g m = Ok g1 -> run debug g1 log g2 -> run debug g ((g, m) :: log) g2.
  Lemma hc_loop_run debug : forall passes g log g', search_graph nodes g -> hc_loop passes mi nrow debug r nodes g = Ok (log, g') -> run debug g log g'.
  Proof.
    induction passes as [|k IH]; intros g log g' SG; cbn [hc_loop]; [intros E; inversion E; constructor|].
    pose proof (scan_ok mi nrow (fun _ => true) r nodes g SG) as S.
    destruct (scan mi nrow (fun _ => true) r nodes g) as [b|e]; cbn [bind]; [|discriminate]. apply good_best_true in S.
    destruct b as [[d m]|]; [|intros E; inversion E; constructor]. destruct S as (L & V & P & _).
    destruct (apply_move_ok nodes r debug g m SG L) as (g1 & E1 & _ & SG1). rewrite E1. cbn [bind].
    destruct (hc_loop k mi nrow debug r nodes g1) as [[lg gg]|e] eqn:El; cbn [bind fst snd]; [|discriminate].
    intros E. inversion E; subst. now apply run_cons with d g1; try apply IH.
  Qed.
  Lemma tabu_loop_run debug : forall passes i g tl log g', search_graph nodes g -> tabu_loop passes i mi nrow debug r nodes g tl = Ok (log, g') -> run debug g log g'.
  Proof.
    induction passes as [|k IH]; intros i g tl log g' SG; cbn [tabu_loop]; [intros E; inversion E; constructor|].
    pose proof (scan_ok mi nrow (tabu_ok tl) r nodes g SG) as S.
    destruct (scan mi nrow (tabu_ok tl) r nodes g) as [b|e]; cbn [bind]; [|discriminate].
    destruct b as [[d m]|]; [|intros E; inversion E; constructor]. destruct S as ([L _] & V & P & _).
    destruct (apply_move_ok nodes r debug g m SG L) as (g1 & E1 & _ & SG1).
    destruct (tabu_apply debug g tl i m) as [[g1' tl']|e] eqn:Et; cbn [bind fst snd]; [|discriminate].
    assert (g1' = g1) as ->.
    { unfold tabu_apply in Et. rewrite E1 in Et. cbn [bind] in Et. destruct m as [[] a]; [| |destruct debug].
      3: { destruct (tabu_set tl i _); cbn [bind] in Et; [now inversion Et|discriminate]. }
      3: now inversion Et.
      all: destruct (tabu_set tl i _); cbn [bind] in Et; [now inversion Et|discriminate]. }
    destruct (tabu_loop k (S i) mi nrow debug r nodes g1 tl') as [[lg gg]|e] eqn:El; cbn [bind fst snd]; [|discriminate].
    intros E. inversion E; subst. apply run_cons with d g1; try assumption. now apply IH with (S i) tl'.
  Qed.
  (** position [i] of the path *)
  Lemma path_cons g m log g' : path ((g, m) :: log) g' = g :: path log g'.
  Proof. reflexivity. Qed.
  Lemma run_first debug g log g' : run debug g log g' -> nth_error (path log g') 0 = Some g.
  Proof. intros H. destruct H; reflexivity. Qed.
  Lemma run_step debug g log g' : run debug g log g' -> forall i gi m, nth_error log i = Some (gi, m) ->
    exists gj d, nth_error (path log g') i = Some gi /\ nth_error (path log g') (S i) = Some gj /\ search_graph nodes gi /\ legal nodes r (edge (g_c gi)) m /\
      gains mi nrow (g_p gi) m d /\ (0 < d)%Qc /\ apply_move debug gi m = Ok gj.
  Proof.
    intros H. induction H; intros i gi mm Hi; [destruct i; discriminate|]. rewrite path_cons. destruct i as [|i]; cbn [nth_error] in *.
    - inversion Hi; subst. exists g1, d. split; [reflexivity|]. split; [now apply run_first in H4|]. auto.
    - now apply IHrun.
  Qed.
  (** the score goes up *)
  Lemma run_climbs debug g log g' : run debug g log g' -> no_reversal log ->
    forall i j gi gj, i < j -> nth_error (path log g') i = Some gi -> nth_error (path log g') j = Some gj -> (total gi < total gj)%Qc.
  Proof.
    intros H NR i j gi gj Lt. revert gj. induction Lt as [|j Lt IH]; intros gj Hi Hj.
    - assert (Li : i < length log). { assert (S i < length (path log g')) by (apply nth_error_Some; congruence). unfold path in H0. rewrite app_length, map_length in H0. cbn in H0. lia. }
      destruct (nth_error log i) as [[gi' m]|] eqn:El; [|apply nth_error_None in El; lia].
      destruct (run_step _ _ _ _ H i gi' m El) as (gj' & d & Pi & Pj & SG & L & V & P & A).
      assert (gi' = gi) by congruence. assert (gj' = gj) by congruence. subst. rewrite (step_total debug gi m d gj SG L V); [qclra| |exact A].
      apply (NR gi). now apply nth_error_In in El.
    - assert (Lj : j < length log). { assert (S j < length (path log g')) by (apply nth_error_Some; congruence). unfold path in H0. rewrite app_length, map_length in H0. cbn in H0. lia. }
      destruct (nth_error log j) as [[gj0 m]|] eqn:El; [|apply nth_error_None in El; lia].
      destruct (run_step _ _ _ _ H j gj0 m El) as (gj' & d & Pi & Pj & SG & L & V & P & A).
      assert (gj' = gj) by congruence. subst. apply Qclt_trans with (total gj0); [now apply IH|]. rewrite (step_total debug gj0 m d gj SG L V); [qclra| |exact A].
      apply (NR gj0). now apply nth_error_In in El.
  Qed.
  Lemma total_same g g' : same_parents g g' -> total g = total g'.
  Proof. intros H. unfold graph_score. do 3 f_equal. apply map_ext. intros v. unfold family_score. now rewrite H. Qed.
End Step.

(** ** how many graphs there are *)
Fixpoint lists_upto (A : list name) (k : nat) : list (list name) :=
  match k with 0 => [[]] | S k => [] :: flat_map (fun a => map (cons a) (lists_upto A k)) A end.
Lemma In_lists_upto A : forall k l, length l <= k -> incl l A -> In l (lists_upto A k).
Proof.
  induction k as [|k IH]; intros [|a l] L I; cbn [lists_upto length] in *; try lia; try (now left).
  right. apply in_flat_map. exists a. split; [apply I; now left|]. apply in_map. apply IH; [lia|]. intros x Hx. apply I. now right.
Qed.
Lemma flat_map_len {A B} (f : A -> list B) n l : (forall a, length (f a) = n) -> length (flat_map f l) = length l * n.
Proof. intros H. induction l as [|a l IH]; [reflexivity|]. cbn [flat_map length]. rewrite app_length, H, IH. reflexivity. Qed.
Lemma lists_upto_len A : forall k, length (lists_upto A k) <= (S (length A)) ^ k.
Proof.
  induction k as [|k IH]; cbn [lists_upto length Nat.pow]; [lia|]. rewrite (flat_map_len _ (length (lists_upto A k))) by (intros; apply map_length).
  assert (1 <= S (length A) ^ k) by (apply Nat.neq_0_lt_0, Nat.pow_nonzero; lia). nia.
Qed.
Fixpoint words {B} (L : list B) (k : nat) : list (list B) :=
  match k with 0 => [[]] | S k => flat_map (fun a => map (cons a) (words L k)) L end.
Lemma In_words {B} (L : list B) : forall k w, length w = k -> incl w L -> In w (words L k).
Proof.
  induction k as [|k IH]; intros [|a w] Hl I; cbn [words length] in *; try discriminate; [now left|].
  apply in_flat_map. exists a. split; [apply I; now left|]. apply in_map. apply IH; [lia|]. intros x Hx. apply I. now right.
Qed.
Lemma words_len {B} (L : list B) : forall k, length (words L k) = length L ^ k.
Proof. induction k as [|k IH]; cbn [words Nat.pow]; [reflexivity|]. rewrite (flat_map_len _ (length (words L k))) by (intros; apply map_length). now rewrite IH. Qed.
(** the parent lists of all nodes *)
Definition code (nodes : list name) (g : gstate) : list (list name) := map (fun v => match dget (g_p g) v with Some pv => pv | None => [] end) nodes.
Definition graph_bound (n : nat) : nat := (n + 1) ^ (n * n).
Lemma code_in nodes g : search_graph nodes g -> In (code nodes g) (words (lists_upto nodes (length nodes)) (length nodes)).
Proof.
  intros SG. apply In_words; [apply map_length|]. intros l Hl. apply in_map_iff in Hl as (v & <- & Hv).
  destruct (key_p _ _ SG v Hv) as (p & D & N & I & _). rewrite D. apply In_lists_upto; [|exact I]. now apply NoDup_incl_length.
Qed.
Lemma code_inj nodes g g' : search_graph nodes g -> search_graph nodes g' -> code nodes g = code nodes g' -> same_parents g g'.
Proof.
  intros SG SG' E v. destruct (in_dec name_eq_dec v nodes) as [I|N].
  - destruct (key_p _ _ SG v I) as (p & D & _). destruct (key_p _ _ SG' v I) as (p' & D' & _). rewrite D, D'. f_equal.
    unfold code in E. assert (F : forall l, In v l -> map (fun v => match dget (g_p g) v with Some pv => pv | None => [] end) l = map (fun v => match dget (g_p g') v with Some pv => pv | None => [] end) l -> p = p').
    { induction l as [|x l IH]; intros Hx Q; [destruct Hx|]. cbn [map] in Q. inversion Q. destruct Hx as [-> |Hx]; [now rewrite D, D' in *|now apply IH]. }
    now apply (F nodes).
  - assert (Z : forall h, search_graph nodes h -> dget (g_p h) v = None).
    { intros h SH. destruct (dget (g_p h) v) eqn:D; [|reflexivity]. exfalso. apply N. rewrite <- (sg_p _ _ SH). apply dget_In. congruence. }
    now rewrite (Z g SG), (Z g' SG').
Qed.
Lemma bound_pow nodes : length (words (lists_upto nodes (length nodes)) (length nodes)) <= graph_bound (length nodes).
Proof.
  rewrite words_len. unfold graph_bound. rewrite Nat.pow_mul_r, Nat.add_1_r. apply Nat.pow_le_mono_l. apply lists_upto_len.
Qed.
(** a search without reversals visits at most [graph_bound n] graphs *)
Lemma run_bound mi nrow r nodes debug g log g' : run mi nrow r nodes debug g log g' -> search_graph nodes g' -> no_reversal log -> length log < graph_bound (length nodes).
Proof.
  intros H SG NR. assert (SGp : forall x, In x (path log g') -> search_graph nodes x).
  { intros x Hx. unfold path in Hx. apply in_app_iff in Hx as [Hx|[<-|[]]]; [|exact SG]. apply in_map_iff in Hx as ([gx m] & <- & Hx). cbn [fst].
    apply In_nth_error in Hx as (i & Hi). destruct (run_step _ _ _ _ _ _ _ _ H i gx m Hi) as (gj & d & _ & _ & S & _). exact S. }
  assert (N : NoDup (map (code nodes) (path log g'))).
  { apply NoDup_nth_error. intros i j Hi E. rewrite map_length in Hi. destruct (Nat.eq_dec i j) as [|Nij]; [assumption|exfalso].
    destruct (nth_error (path log g') i) as [gi|] eqn:Ei; [|apply nth_error_None in Ei; lia].
    rewrite (map_nth_error _ _ _ Ei) in E. symmetry in E. destruct (nth_error (path log g') j) as [gj|] eqn:Ej.
    2:{ assert (nth_error (map (code nodes) (path log g')) j = None) by (apply nth_error_None; rewrite map_length; now apply nth_error_None in Ej). congruence. }
    rewrite (map_nth_error _ _ _ Ej) in E. inversion E as [Q]. apply code_inj in Q; [|apply SGp; now apply nth_error_In in Ej|apply SGp; now apply nth_error_In in Ei].
    apply (total_same nrow nodes (num_of mi)) in Q.
    assert (C : i < j \/ j < i) by lia. destruct C as [C|C].
    - pose proof (run_climbs mi nrow r nodes (num_of mi) (num_of_Ok mi) debug g log g' H NR i j gi gj C Ei Ej) as T. rewrite Q in T. revert T; apply Qcle_not_lt, Qcle_refl.
    - pose proof (run_climbs mi nrow r nodes (num_of mi) (num_of_Ok mi) debug g log g' H NR j i gj gi C Ej Ei) as T. rewrite Q in T. revert T; apply Qcle_not_lt, Qcle_refl. }
  apply NoDup_incl_length with (l' := words (lists_upto nodes (length nodes)) (length nodes)) in N.
  - rewrite map_length in N. pose proof (bound_pow nodes). unfold path in N. rewrite app_length, map_length in N. cbn [length] in N. lia.
  - intros x Hx. apply in_map_iff in Hx as (y & <- & Hy). apply code_in. now apply SGp.
Qed.

(** ** more passes *)
Lemma hc_more mi nrow debug r nodes : forall p g log g', hc_loop p mi nrow debug r nodes g = Ok (log, g') ->
  length log < p \/ (debug = false /\ ~ no_reversal log) -> forall p', p <= p' -> exists log', hc_loop p' mi nrow debug r nodes g = Ok (log', g').
Proof.
  induction p as [|k IH]; intros g log g' E H p' L.
  - cbn [hc_loop] in E. inversion E; subst. destruct H as [H|[_ H]]; [cbn in H; lia|]. destruct H. intros x y [].
  - destruct p' as [|k']; [lia|]. cbn [hc_loop] in E |- *. destruct (scan _ _ _ _ _ _) as [[[d m]|]|e] eqn:Es; cbn [bind] in *; [|eauto|discriminate].
    destruct (apply_move debug g m) as [g1|e] eqn:E1; cbn [bind] in *; [|discriminate].
    destruct (hc_loop k mi nrow debug r nodes g1) as [[lg gg]|e] eqn:El; cbn [bind fst snd] in *; [|discriminate]. inversion E; subst. clear E.
    assert (C : (debug = false /\ fst m = Reversal) \/ (length lg < k \/ (debug = false /\ ~ no_reversal lg))).
    { cbn [length] in H. destruct H as [H|[Db H]]; [right; left; lia|]. destruct (fst m) eqn:Fm; [| |now left]; right; right; (split; [exact Db|]);
      intros N; apply H; intros x y [Q|Q]; try (inversion Q; subst; congruence); now apply (N x). }
    destruct C as [[Db Fm]|C].
    + subst debug. destruct m as [km a]. cbn [fst] in Fm. subst km. destruct a as [u v]. cbn [apply_move] in E1. inversion E1; subst g1.
      assert (St : forall q, hc_loop q mi nrow false r nodes g = Ok (repeat (g, (Reversal, (u, v))) q, g)).
      { induction q as [|q IHq]; cbn [hc_loop]; [reflexivity|]. rewrite Es. cbn [bind apply_move]. rewrite IHq. reflexivity. }
      rewrite St in El. inversion El; subst. rewrite St. cbn [bind fst snd]. eauto.
    + destruct (IH g1 lg g' El C k' ltac:(lia)) as (log' & E'). rewrite E'. cbn [bind fst snd]. eauto.
Qed.
Lemma hc_more_raise mi nrow debug r nodes e : forall p g, hc_loop p mi nrow debug r nodes g = Raise e -> forall p', p <= p' -> hc_loop p' mi nrow debug r nodes g = Raise e.
Proof.
  induction p as [|k IH]; intros g E p' L; [discriminate|]. destruct p' as [|k']; [lia|]. cbn [hc_loop] in E |- *.
  destruct (scan _ _ _ _ _ _) as [[[d m]|]|e'] eqn:Es; cbn [bind] in *; [|discriminate|exact E].
  destruct (apply_move debug g m) as [g1|e'] eqn:E1; cbn [bind] in *; [|exact E].
  destruct (hc_loop k mi nrow debug r nodes g1) as [[lg gg]|e'] eqn:El; cbn [bind fst snd] in *; [discriminate|]. inversion E; subst.
  rewrite (IH g1 El k' ltac:(lia)). reflexivity.
Qed.
Lemma tabu_stuck_false mi nrow r nodes g tl d a : scan mi nrow (tabu_ok tl) r nodes g = Ok (Some (d, (Reversal, a))) ->
  forall passes i, tabu_loop passes i mi nrow false r nodes g tl = Ok (repeat (g, (Reversal, a)) passes, g).
Proof. intros E. now apply tabu_stuck with d. Qed.
Lemma tabu_more mi nrow debug r nodes : forall p i g tl log g', tabu_loop p i mi nrow debug r nodes g tl = Ok (log, g') ->
  length log < p \/ (debug = false /\ ~ no_reversal log) -> forall p', p <= p' -> exists log', tabu_loop p' i mi nrow debug r nodes g tl = Ok (log', g').
Proof.
  induction p as [|k IH]; intros i g tl log g' E H p' L.
  - cbn [tabu_loop] in E. inversion E; subst. destruct H as [H|[_ H]]; [cbn in H; lia|]. destruct H. intros x y [].
  - destruct p' as [|k']; [lia|]. cbn [tabu_loop] in E |- *. destruct (scan _ _ _ _ _ _) as [[[d m]|]|e] eqn:Es; cbn [bind] in *; [|eauto|discriminate].
    destruct (tabu_apply debug g tl i m) as [[g1 tl1]|e] eqn:E1; cbn [bind fst snd] in *; [|discriminate].
    destruct (tabu_loop k (S i) mi nrow debug r nodes g1 tl1) as [[lg gg]|e] eqn:El; cbn [bind fst snd] in *; [|discriminate]. inversion E; subst. clear E.
    assert (C : (debug = false /\ fst m = Reversal) \/ (length lg < k \/ (debug = false /\ ~ no_reversal lg))).
    { cbn [length] in H. destruct H as [H|[Db H]]; [right; left; lia|]. destruct (fst m) eqn:Fm; [| |now left]; right; right; (split; [exact Db|]);
      intros N; apply H; intros x y [Q|Q]; try (inversion Q; subst; congruence); now apply (N x). }
    destruct C as [[Db Fm]|C].
    + subst debug. destruct m as [km a]. cbn [fst] in Fm. subst km. destruct a as [u v]. unfold tabu_apply in E1. cbn [apply_move bind] in E1. inversion E1; subst g1 tl1.
      rewrite (tabu_stuck_false _ _ _ _ _ _ _ _ Es) in El. inversion El; subst. rewrite (tabu_stuck_false _ _ _ _ _ _ _ _ Es). cbn [bind fst snd]. eauto.
    + destruct (IH (S i) g1 tl1 lg g' El C k' ltac:(lia)) as (log' & E'). rewrite E'. cbn [bind fst snd]. eauto.
Qed.
Lemma tabu_more_raise mi nrow debug r nodes e : forall p i g tl, tabu_loop p i mi nrow debug r nodes g tl = Raise e ->
  forall p', p <= p' -> tabu_loop p' i mi nrow debug r nodes g tl = Raise e.
Proof.
  induction p as [|k IH]; intros i g tl E p' L; [discriminate|]. destruct p' as [|k']; [lia|]. cbn [tabu_loop] in E |- *.
  destruct (scan _ _ _ _ _ _) as [[[d m]|]|e'] eqn:Es; cbn [bind] in *; [|discriminate|exact E].
  destruct (tabu_apply debug g tl i m) as [[g1 tl1]|e'] eqn:E1; cbn [bind fst snd] in *; [|exact E].
  destruct (tabu_loop k (S i) mi nrow debug r nodes g1 tl1) as [[lg gg]|e'] eqn:El; cbn [bind fst snd] in *; [discriminate|]. inversion E; subst.
  rewrite (IH _ g1 tl1 El k' ltac:(lia)). reflexivity.
Qed.
Lemma no_reversal_dec log : {no_reversal log} + {~ no_reversal log}.
Proof.
  induction log as [|[g m] log IH]; [left; intros x y []|]. destruct m as [[] a].
  - destruct IH as [H|H]; [left|right].
    + intros x y [Q|Q]; [inversion Q; discriminate|now apply (H x)].
    + intros N. apply H. intros x y Q. apply (N x). now right.
  - destruct IH as [H|H]; [left|right].
    + intros x y [Q|Q]; [inversion Q; discriminate|now apply (H x)].
    + intros N. apply H. intros x y Q. apply (N x). now right.
  - right. intros N. apply (N g (Reversal, a)); [now left|reflexivity].
Qed.
(** ** with debug off the score never goes down *)
Lemma run_mono mi nrow r nodes m0 : (forall cols x, mi cols = Ok (Some x) -> m0 cols = x) ->
  forall g log g', run mi nrow r nodes false g log g' -> (graph_score m0 nrow nodes g <= graph_score m0 nrow nodes g')%Qc.
Proof.
  intros Hm g log g' H. induction H as [g|g m d g1 log g2 SG L V P A _ IH]; [apply Qcle_refl|].
  apply Qcle_trans with (graph_score m0 nrow nodes g1); [|exact IH]. destruct (fst m) eqn:Fm.
  - rewrite (step_total mi nrow r nodes m0 Hm false g m d g1 SG L V); [qclra|congruence|exact A].
  - rewrite (step_total mi nrow r nodes m0 Hm false g m d g1 SG L V); [qclra|congruence|exact A].
  - destruct m as [k [u v]]. cbn [fst] in Fm. subst k. cbn [apply_move] in A. inversion A; subst. apply Qcle_refl.
Qed.
(** ** the first edge *)
Lemma first_legal t r u v : In u (col_nodes t) -> In v (col_nodes t) -> u <> v -> allowed r u v -> legal (col_nodes t) r (edge (g_c (start t))) (Addition, (u, v)).
Proof.
  intros Hu Hv N A. split; [exact Hu|]. split; [exact Hv|]. split; [exact N|]. split; [apply edgeless_edge|]. split; [exact A|].
  intros w P. assert (F : forall x y, clos_trans name (after (edge (g_c (start t))) (Addition, (u, v))) x y -> x = u /\ y = v).
  { intros x y Q. induction Q as [x y Q|x y z Q1 [-> ->] Q2 [E ->]]; [|now split]. destruct Q as [Q|Q]; [now apply edgeless_edge in Q|exact Q]. }
  destruct (F w w P). congruence.
Qed.
Lemma start_parents t v : In v (col_nodes t) -> dget (g_p (start t)) v = Some [].
Proof.
  intros H. unfold col_nodes in H. rewrite <- edgeless_keys in H. destruct (In_dget _ _ H) as (l & D). cbn [start g_p]. rewrite D. f_equal. now apply edgeless_get in D.
Qed.
Lemma no_edge_start t g : search_graph (col_nodes t) g -> (forall u v, ~ edge (g_c g) u v) -> same_parents (start t) g.
Proof.
  intros SG N v. destruct (in_dec name_eq_dec v (col_nodes t)) as [I|O].
  - rewrite (start_parents t v I). destruct (key_p _ _ SG v I) as (p & D & _ & _ & M). rewrite D. destruct p as [|u p]; [reflexivity|].
    exfalso. apply (N u v). apply M. apply mem_In. now left.
  - assert (Z : forall h, search_graph (col_nodes t) h -> dget (g_p h) v = None).
    { intros h SH. destruct (dget (g_p h) v) eqn:D; [|reflexivity]. exfalso. apply O. rewrite <- (sg_p _ _ SH). apply dget_In. congruence. }
    now rewrite (Z _ (search_start t)), (Z g SG).
Qed.
Lemma hc_loop_nonempty mi nrow r t k log g u v x y : In u (col_nodes t) -> In v (col_nodes t) -> u <> v -> allowed r u v -> 0 < nrow ->
  mi [v] = Ok (Some x) -> mi [v; u] = Ok (Some y) -> (y < x)%Qc ->
  hc_loop (S k) mi nrow false r (col_nodes t) (start t) = Ok (log, g) -> exists a b, edge (g_c g) a b.
Proof.
  intros Hu Hv N Al NR Ex Ey L E. pose proof (search_start t) as SG.
  assert (Run : run mi nrow r (col_nodes t) false (start t) log g) by (apply hc_loop_run in E; assumption).
  assert (SGg : search_graph (col_nodes t) g).
  { pose proof (hc_loop_ok mi nrow false r (col_nodes t) (S k) (start t) SG) as H. rewrite E in H. apply H. }
  assert (Dec : (exists a b, edge (g_c g) a b) \/ (forall a b, ~ edge (g_c g) a b)).
  { assert (Q : forall l, (exists a b, In a l /\ edge (g_c g) a b) \/ (forall a b, In a l -> ~ edge (g_c g) a b)).
    { induction l as [|a l [(a' & b & I & H)|IH]]; [right; intros a b []|left; exists a', b; split; [now right|exact H]|].
      destruct (dget (g_c g) a) as [[|b c]|] eqn:D.
      - right. intros a' b [<-|I]; [|now apply IH]. intros (c & D' & H). rewrite D in D'. inversion D'; subst. destruct H.
      - left. exists a, b. split; [now left|]. exists (b :: c). split; [exact D|now left].
      - right. intros a' b [<-|I]; [|now apply IH]. intros (c & D' & H). congruence. }
    destruct (Q (col_nodes t)) as [(a & b & _ & H)|H]; [left; eauto|]. right. intros a b Hab. apply (H a b); [|exact Hab].
    destruct Hab as (c & D & _). rewrite <- (sg_c _ _ SGg). apply dget_In. congruence. }
  destruct Dec as [D|D]; [exact D|exfalso]. pose proof (no_edge_start t g SGg D) as SP. apply (total_same nrow (col_nodes t) (num_of mi)) in SP.
  cbn [hc_loop] in E. pose proof (scan_ok mi nrow (fun _ => true) r (col_nodes t) (start t) SG) as Sc.
  destruct (scan mi nrow (fun _ => true) r (col_nodes t) (start t)) as [b|e]; cbn [bind] in E; [|discriminate]. apply good_best_true in Sc.
  pose proof (first_legal t r u v Hu Hv N Al) as Lg.
  assert (Gn : gains mi nrow (g_p (start t)) (Addition, (u, v)) (nQc nrow * (x - y))%Qc) by (apply gains_add with []; [now apply start_parents|exact Ex|exact Ey]).
  assert (Pos : (0 < nQc nrow * (x - y))%Qc) by (apply nQc_pos in NR; qcnra).
  destruct b as [[d m]|].
  - destruct Sc as (Lm & Vm & Pm & _). assert (Fm : fst m = Addition).
    { destruct m as [[] [a b]]; [reflexivity| |]; destruct Lm as (_ & _ & Lm); [apply edgeless_edge in Lm; destruct Lm|destruct Lm as [Lm _]; apply edgeless_edge in Lm; destruct Lm]. }
    destruct (apply_move false (start t) m) as [g1|e] eqn:E1; cbn [bind] in E; [|discriminate].
    destruct (apply_move_ok (col_nodes t) r false (start t) m SG Lm) as (g1' & E1' & _ & SG1). assert (g1' = g1) by congruence. subst g1'.
    destruct (hc_loop k mi nrow false r (col_nodes t) g1) as [[lg gg]|e] eqn:El; cbn [bind fst snd] in E; [|discriminate]. inversion E; subst.
    apply hc_loop_run in El; [|exact SG1]. apply (run_mono mi nrow r (col_nodes t) (num_of mi) (num_of_Ok mi)) in El.
    rewrite (step_total mi nrow r (col_nodes t) (num_of mi) (num_of_Ok mi) false (start t) m d g1 SG Lm Vm ltac:(congruence) E1) in El. rewrite SP in El.
    revert El. generalize (graph_score (num_of mi) nrow (col_nodes t) g). intros q El. qclra.
  - apply (Qclt_not_le _ _ Pos). now apply (Sc (Addition, (u, v))).
Qed.
(** ** scores that do not raise *)
Definition safe (nodes : list name) (mi : score) : Prop := forall cols, cols <> [] -> incl cols nodes -> exists x, mi cols = Ok x.
Definition guard (nodes : list name) (mi : score) : score := fun cols =>
  match cols with [] => Ok None | _ => if forallb (fun c => mem c nodes) cols then mi cols else Ok None end.
Lemma guard_ok nodes mi cols : cols <> [] -> incl cols nodes -> guard nodes mi cols = mi cols.
Proof.
  intros N I. unfold guard. destruct cols as [|c cols]; [now destruct N|].
  assert (E : forallb (fun c => mem c nodes) (c :: cols) = true) by (apply forallb_forall; intros x Hx; apply mem_In; now apply I). now rewrite E.
Qed.
Lemma guard_safe nodes mi : safe nodes mi -> forall cols e, guard nodes mi cols <> Raise e.
Proof.
  intros H [|c cols] e; [discriminate|]. unfold guard. destruct (forallb (fun c => mem c nodes) (c :: cols)) eqn:E; [|discriminate].
  destruct (H (c :: cols)) as (x & ->); [discriminate| |discriminate]. intros y Hy. rewrite forallb_forall in E. apply mem_In. now apply E.
Qed.
Lemma gain_guard mi nrow nodes g m : search_graph nodes g -> In (fst (snd m)) nodes -> In (snd (snd m)) nodes -> edge (g_c g) (fst (snd m)) (snd (snd m)) \/ fst m = Addition ->
  gain (guard nodes mi) nrow (g_p g) m = gain mi nrow (g_p g) m.
Proof.
  destruct m as [k [u v]]. cbn [fst snd]. intros SG Hu Hv Ke. unfold gain. destruct (key_p _ _ SG v Hv) as (p & D & _ & Ip & _). unfold getitem. rewrite D. cbn [bind].
  assert (W : forall x, In x nodes -> incl (x :: p) nodes) by (intros x Hx y [<-|Hy]; auto).
  assert (W2 : forall x y, In x nodes -> In y nodes -> incl ((x :: p) ++ [y]) nodes) by (intros x y Hx Hy z Hz; apply in_app_iff in Hz as [Hz|[<-|[]]]; [now apply (W x)|exact Hy]).
  assert (Nv : k <> Addition -> v <> u). { intros K ->. destruct Ke as [Ke|Ke]; [|congruence]. apply (sg_acyclic _ _ SG u). now apply t_step. }
  assert (W3 : incl (without u (v :: p)) nodes) by (intros x Hx; apply filter_In in Hx as [Hx _]; now apply (W v)).
  assert (N3 : k <> Addition -> without u (v :: p) <> []). { intros K. unfold without. cbn [filter]. apply Nv in K. apply name_eqb_neq in K. rewrite K. discriminate. }
  unfold delta. destruct k.
  - rewrite !guard_ok; auto; discriminate.
  - rewrite !guard_ok; auto; try discriminate. apply N3. discriminate.
  - assert (N4 : map (fun _ => u) (without u (v :: p)) <> []). { intros Q. apply map_eq_nil in Q. apply N3 in Q; [exact Q|discriminate]. }
    assert (W4 : incl (map (fun _ : name => u) (without u (v :: p))) nodes) by (intros x Hx; apply in_map_iff in Hx as (y & <- & _); exact Hu).
    rewrite !guard_ok; auto; discriminate.
Qed.
Lemma foldM_same {A B} (f f' : B -> A -> res B) l : (forall a b, In a l -> f b a = f' b a) -> forall b, foldM f l b = foldM f' l b.
Proof.
  induction l as [|a l IH]; intros H b; cbn [foldM]; [reflexivity|]. rewrite (H a b) by (now left). destruct (f' b a); cbn [bind]; [|reflexivity].
  apply IH. intros; apply H; now right.
Qed.
Lemma scan_guard mi nrow ok r nodes g : search_graph nodes g -> scan (guard nodes mi) nrow ok r nodes g = scan mi nrow ok r nodes g.
Proof.
  intros SG. unfold scan. assert (HP : forall uv, In uv (pairs_of nodes) -> In (fst uv) nodes /\ In (snd uv) nodes) by (intros [u v]; now rewrite In_pairs_of).
  assert (HC : forall u c, dget (g_c g) u = Some c -> forall v, mem v c = true -> edge (g_c g) u v) by (intros u c D v M; exists c; split; [exact D|now apply mem_In]).
  rewrite (foldM_same (try_add (guard nodes mi) nrow ok r g) (try_add mi nrow ok r g)).
  2:{ intros [u v] b I. destruct (HP _ I) as [Hu Hv]. unfold try_add. rewrite gain_guard; auto. }
  destruct (foldM (try_add mi nrow ok r g) _ _) as [b1|e]; cbn [bind]; [|reflexivity].
  rewrite (foldM_same (try_del (guard nodes mi) nrow ok g) (try_del mi nrow ok g)).
  2:{ intros [u v] b I. destruct (HP _ I) as [Hu Hv]. unfold try_del, getitem. destruct (negb (ok _)); [reflexivity|]. destruct (dget (g_c g) u) as [c|] eqn:D; cbn [bind]; [|reflexivity].
      destruct (mem v c) eqn:M; cbn [negb]; [|reflexivity]. rewrite gain_guard; auto. left. cbn [fst snd]. now apply (HC u c). }
  destruct (foldM (try_del mi nrow ok g) _ _) as [b2|e]; cbn [bind]; [|reflexivity].
  apply foldM_same. intros [u v] b I. destruct (HP _ I) as [Hu Hv]. unfold try_rev, getitem. destruct (negb (ok _)); [reflexivity|]. destruct (dget (g_c g) u) as [c|] eqn:D; cbn [bind]; [|reflexivity].
  destruct (mem v c) eqn:M; cbn [negb]; [|reflexivity]. rewrite gain_guard; auto. left. cbn [fst snd]. now apply (HC u c).
Qed.
Lemma scan_safe mi nrow ok r nodes g : search_graph nodes g -> safe nodes mi -> exists b, scan mi nrow ok r nodes g = Ok b.
Proof.
  intros SG S. rewrite <- (scan_guard mi nrow ok r nodes g SG). pose proof (scan_ok (guard nodes mi) nrow ok r nodes g SG) as H.
  destruct (scan (guard nodes mi) nrow ok r nodes g) as [b|e]; [eauto|]. destruct H as (cols & H). now apply guard_safe in H.
Qed.
Lemma hc_loop_safe mi nrow debug r nodes : safe nodes mi -> forall p g, search_graph nodes g -> exists lg, hc_loop p mi nrow debug r nodes g = Ok lg.
Proof.
  intros S. induction p as [|k IH]; intros g SG; cbn [hc_loop]; [eauto|]. destruct (scan_safe mi nrow (fun _ => true) r nodes g SG S) as (b & Eb).
  pose proof (scan_ok mi nrow (fun _ => true) r nodes g SG) as H. rewrite Eb in *. cbn [bind]. apply good_best_true in H. destruct b as [[d m]|]; [|eauto].
  destruct (apply_move_ok nodes r debug g m SG (proj1 H)) as (g1 & E1 & _ & SG1). rewrite E1. cbn [bind]. destruct (IH g1 SG1) as (lg & ->). cbn [bind]. eauto.
Qed.
