(** SampleMain.v -- the four samplers, as functions of the draws. *)
From Verif Require Import Py Num BayesNet Factor SpecFactor Radix FactorOut FactorMore SpecInference VE VETotal GraphNet Rounding ParamLearn ParamFacts ParamMain NaiveFacts SpecSample Sampling SampleFacts GraphCheck.
Open Scope nat_scope.

Lemma draw_ok bn o v get a u : samplable bn -> In v (bn_V bn) -> holds bn get a (nparents bn v) -> (0 <= u /\ u < 1)%Qc ->
  reduced_cpt o bn v get = Ok (dist bn v a) /\
  exists k, np_choice u (nvalues bn v) (dist bn v a) = Ok (nth k (nvalues bn v) (NInt 0)) /\ drawn_by bn v (upd a v k) u /\ k < ncard bn v.
Proof.
  intros Sm Hv H U. pose proof Sm as (W & _). split; [now apply reduced_cpt_ok|].
  assert (V : valid (ncard bn) (nparents bn v) a) by (intros p Hp; now apply H).
  destruct (np_choice_ok bn v a u Sm Hv V U) as (k & E & D). exists k. split; [exact E|]. split; [exact D|]. destruct D as [L _]. now rewrite upd_same in L.
Qed.

(** the dictionary of the values numbered by [a] *)
Definition state_of (bn : bayesnet) (a : asg) (vs : list name) : dict name := map (fun v => (v, nth (a v) (nvalues bn v) (NInt 0))) vs.
Lemma state_of_get bn a vs p : In p vs -> dget (state_of bn a vs) p = Some (nth (a p) (nvalues bn p) (NInt 0)).
Proof. intros H. unfold state_of. apply (dget_map_key (fun v => v) (fun v => nth (a v) (nvalues bn v) (NInt 0))); [assumption|auto]. Qed.
Lemma state_of_keys bn a vs : dkeys (state_of bn a vs) = vs.
Proof. unfold state_of, dkeys. rewrite map_map. apply map_id. Qed.
Lemma state_of_ext bn a b vs : (forall v, In v vs -> a v = b v) -> state_of bn a vs = state_of bn b vs.
Proof. intros H. apply map_ext_in. intros v Hv. now rewrite H. Qed.
Lemma state_of_push bn a vs v k : ~ In v vs -> dset (state_of bn a vs) v (nth k (nvalues bn v) (NInt 0)) = state_of bn (upd a v k) (vs ++ [v]).
Proof.
  intros N. rewrite dset_fresh by now rewrite state_of_keys. unfold state_of. rewrite map_app. simpl. rewrite upd_same. f_equal.
  apply map_ext_in. intros w Hw. rewrite upd_other; [reflexivity|]. intros ->. contradiction.
Qed.
Lemma state_of_set bn a vs v k : NoDup vs -> In v vs -> dset (state_of bn a vs) v (nth k (nvalues bn v) (NInt 0)) = state_of bn (upd a v k) vs.
Proof.
  intros ND H. unfold state_of. rewrite (dset_map_key name_eqb name_eqb_spec (fun v => v)); [|assumption|assumption|auto].
  apply map_ext. intros w. unfold upd. destruct (name_eqb_spec w v) as [-> |]; reflexivity.
Qed.
Lemma state_holds bn a vs ps : valid (ncard bn) vs a -> incl ps vs -> holds bn (getitem (state_of bn a vs)) a ps.
Proof. intros V I p Hp. split; [now apply V, I|]. apply getitem_Some. now apply state_of_get, I. Qed.

(** value numbers already fixed are kept; the j-th node is drawn with [u j] *)
Definition drawn (bn : bayesnet) (u : nat -> Qc) (d todo : list name) (a a' : asg) : Prop :=
  (forall p, In p d -> a' p = a p) /\
  forall k v, nth_error todo k = Some v -> drawn_by bn v a' (u (length d + k)).
Lemma drawn_step bn u d v r a a' k : nodes_topological bn -> bn_V bn = d ++ v :: r -> NoDup (bn_V bn) ->
  drawn_by bn v (upd a v k) (u (length d)) -> drawn bn u (d ++ [v]) r (upd a v k) a' -> drawn bn u d (v :: r) a a'.
Proof.
  intros Top E ND D [H1 H2]. assert (Nv : ~ In v d) by (rewrite E in ND; apply NoDup_remove_2 in ND; intros I; apply ND, in_or_app; now left).
  split.
  - intros p Hp. rewrite H1 by (apply in_or_app; now left). apply upd_other. intros ->. contradiction.
  - intros [|j] w Hw; simpl in Hw.
    + inversion Hw; subst w. rewrite Nat.add_0_r. apply (drawn_by_ext _ _ (upd a v k)); [|exact D].
      intros x [<-|Hx]; symmetry; apply H1, in_or_app; [right; now left|left]. now apply (Top d v r E).
    + specialize (H2 j w Hw). rewrite app_length in H2. simpl in H2. replace (length d + S j) with (length d + 1 + j) by lia. exact H2.
Qed.
Lemma drawn_valid bn u d todo a a' : drawn bn u d todo a a' -> valid (ncard bn) d a -> valid (ncard bn) (d ++ todo) a'.
Proof.
  intros [H1 H2] V w Hw. apply in_app_or in Hw as [Hw|Hw]; [rewrite H1 by assumption; now apply V|].
  apply In_nth_error in Hw as [k Hk]. now apply (H2 k w Hk).
Qed.
Lemma split_NoDup {A} (d r : list A) v l : l = d ++ v :: r -> NoDup l -> ~ In v d /\ In v l.
Proof.
  intros -> ND. split; [|apply in_or_app; right; now left]. apply NoDup_remove_2 in ND. intros I. apply ND, in_or_app. now left.
Qed.
Lemma snoc_split {A} (d r : list A) v : d ++ v :: r = (d ++ [v]) ++ r.
Proof. now rewrite <- app_assoc. Qed.
Lemma valid_push cd d v k a : ~ In v d -> valid cd d a -> k < cd v -> valid cd (d ++ [v]) (upd a v k).
Proof.
  intros N V L w Hw. apply in_app_or in Hw as [Hw|[<-|[]]]; [rewrite upd_other; [now apply V|]; intros ->; contradiction|now rewrite upd_same].
Qed.

(** ** forward_sample: one sample *)
Definition plus_hits (c : name -> nat -> Qc) (todo : list name) (a : asg) (w : Qc) : name -> nat -> Qc :=
  fun v x => (c v x + if mem v todo && (a v =? x) then w else 0)%Qc.
Lemma fs_fold bn o u : samplable bn -> nodes_topological bn -> (forall j, 0 <= u j /\ u j < 1)%Qc ->
  forall todo d a c, bn_V bn = d ++ todo -> valid (ncard bn) d a ->
  exists a', foldM (fs_node o bn u) (combine (seq (length d) (length todo)) todo) (answer bn c, state_of bn a d) =
     Ok (answer bn (plus_hits c todo a' 1), state_of bn a' (bn_V bn)) /\ drawn bn u d todo a a'.
Proof.
  intros Sm Top U. pose proof Sm as (W & _). assert (ND := wn_V _ W).
  induction todo as [|v r IH]; intros d a c E V.
  - exists a. simpl. rewrite app_nil_r in E. rewrite E. split; [|split; [auto|intros [|k] v Hk; discriminate]].
    f_equal. f_equal. apply answer_ext. intros v x _ _. unfold plus_hits. simpl. ring.
  - destruct (split_NoDup _ _ _ _ E ND) as [Nv Hv]. cbn [length seq combine foldM]. unfold fs_node at 1.
    destruct (draw_ok bn (sub o (length d)) v (getitem (state_of bn a d)) a (u (length d)) Sm Hv) as (E1 & k & E2 & D & L).
    { apply state_holds; [assumption|]. now apply (Top d v r). } { apply U. }
    rewrite E1. cbn [bind]. rewrite bn_values_ok by assumption. cbn [bind]. rewrite E2. cbn [bind].
    rewrite tally_ok by assumption. cbn [bind]. rewrite state_of_push by assumption.
    destruct (IH (d ++ [v]) (upd a v k) (addc c v k 1%Qc)) as (a' & F & Dr).
    { now rewrite <- snoc_split. } { now apply valid_push. }
    rewrite app_length, Nat.add_1_r in F. rewrite F. exists a'. split; [|now apply (drawn_step bn u d v r a a' k)].
    f_equal. f_equal. apply answer_ext. intros w x Hw Hx. unfold plus_hits, addc. cbn [mem existsb]. fold (mem w r).
    assert (Av : a' v = k) by (destruct Dr as [H1 _]; rewrite H1 by (apply in_or_app; right; now left); apply upd_same).
    destruct (name_eqb_spec w v) as [-> |N]; cbn [orb andb]; [|reflexivity]. rewrite Av.
    assert (Nr : mem v r = false).
    { apply Bool.not_true_is_false. rewrite mem_In. intros I. rewrite E in ND. apply NoDup_remove_2 in ND. apply ND, in_or_app. now right. }
    rewrite Nr. cbn [andb]. rewrite (Nat.eqb_sym k x). destruct (x =? k); ring.
Qed.
Lemma hits_cons s i is v x : hits s (i :: is) v x = (if s i v =? x then 1 else 0) + hits s is v x.
Proof. unfold hits. simpl. destruct (s i v =? x); reflexivity. Qed.
Lemma hits_ext s s' is v x : (forall i, In i is -> s i v = s' i v) -> hits s is v x = hits s' is v x.
Proof. intros H. unfold hits. f_equal. apply filter_ext_in. intros i Hi. now rewrite H. Qed.
Lemma ancestral_of bn u a a' : drawn bn u [] (bn_V bn) a a' -> ancestral bn u a'.
Proof. intros [_ H] j v Hj. exact (H j v Hj). Qed.
Lemma ancestral_valid bn u a : ancestral bn u a -> valid (ncard bn) (bn_V bn) a.
Proof. intros H v Hv. apply In_nth_error in Hv as [j Hj]. now apply (H j v Hj). Qed.

Lemma splice (s : nat -> asg) i (a : asg) : exists s', s' i = a /\ forall j, j <> i -> s' j = s j.
Proof.
  exists (fun j => if j =? i then a else s j). split; [now rewrite Nat.eqb_refl|]. intros j N. destruct (Nat.eqb_spec j i); [contradiction|reflexivity].
Qed.
Lemma fs_outer bn o u : samplable bn -> nodes_topological bn -> unit_draws u ->
  forall is c, NoDup is -> exists s, (forall i, In i is -> ancestral bn (u i) (s i)) /\
    foldM (fun D i => do st <- foldM (fs_node (sub o i) bn (u i)) (enum (bn_nodes bn)) (D, []) ;; Ok (fst st)) is (answer bn c) =
    Ok (answer bn (fun v x => (c v x + nQc (hits s is v x))%Qc)).
Proof.
  intros Sm Top U. pose proof Sm as (W & _). induction is as [|i is IH]; intros c ND.
  - exists (fun _ _ => 0). split; [intros i []|]. simpl. f_equal. apply answer_ext. intros v x _ _. unfold hits. simpl. rewrite nQc_0. ring.
  - apply NoDup_cons_iff in ND as [Ni NDr]. cbn [foldM].
    destruct (fs_fold bn (sub o i) (u i) Sm Top (U i) (bn_V bn) [] (fun _ => 0) c eq_refl) as (a & E & Dr). { intros v []. }
    assert (E' : foldM (fs_node (sub o i) bn (u i)) (enum (bn_nodes bn)) (answer bn c, []) =
      Ok (answer bn (plus_hits c (bn_V bn) a 1), state_of bn a (bn_V bn))) by exact E. rewrite E'. cbn [bind fst].
    destruct (IH (plus_hits c (bn_V bn) a 1) NDr) as (s & Hs & Es). rewrite Es.
    destruct (splice s i a) as (s' & Si & So). exists s'. split.
    + intros j Hj. destruct (Nat.eq_dec j i) as [-> |N]; [rewrite Si; now apply (ancestral_of _ _ (fun _ => 0))|].
      rewrite So by assumption. apply Hs. destruct Hj as [->|Hj]; [congruence|assumption].
    + f_equal. apply answer_ext. intros v x Hv Hx. rewrite hits_cons, Si.
      rewrite (hits_ext s' s) by (intros j Hj; rewrite So; [reflexivity|intros ->; contradiction]).
      unfold plus_hits. apply mem_In in Hv. rewrite Hv. cbn [andb]. rewrite nQc_plus. destruct (a v =? x); rewrite ?nQc_1, ?nQc_0; ring.
Qed.
Lemma forward_ok bn o u n : samplable bn -> nodes_topological bn -> unit_draws u -> 0 < n ->
  exists s, (forall i, i < n -> ancestral bn (u i) (s i)) /\
    forward_sample o bn u n = Ok (answer bn (fun v x => (nQc (hits s (seq 0 n) v x) / nQc n)%Qc)).
Proof.
  intros Sm Top U Hn. pose proof Sm as (W & _). destruct (fs_outer bn o u Sm Top U (seq 0 n) (fun _ _ => 0%Qc) (seq_NoDup _ _)) as (s & Hs & E).
  exists s. split; [intros i Hi; apply Hs, in_seq; lia|]. unfold forward_sample. rewrite empty_tally_ok by assumption. cbn [bind].
  rewrite E. cbn [bind]. rewrite (map_tally_ok bn _ (fun x => (x / nQc n)%Qc)).
  - f_equal. apply answer_ext. intros v x _ _. f_equal. ring.
  - intros v x _ _. unfold float_div. destruct (Qc_eq_dec (nQc n) 0) as [Z|]; [|reflexivity].
    exfalso. apply nQc_pos in Hn. rewrite Z in Hn. discriminate.
Qed.

(** ** nodes() not in topological order: KeyError *)
Definition misordered (bn : bayesnet) : Prop := exists p v q, bn_V bn = p ++ v :: q /\ ~ incl (nparents bn v) p.
Lemma incl_dec_name (l m : list name) : {incl l m} + {exists x, In x l /\ ~ In x m}.
Proof.
  induction l as [|x r [IH|IH]].
  - left. intros x [].
  - destruct (in_dec name_eq_dec x m) as [H|H]; [left; intros y [<-|Hy]; auto|right; exists x; split; [now left|assumption]].
  - right. destruct IH as (y & Hy & N). exists y. split; [now right|assumption].
Qed.
Lemma missing_parent bn o a d v : wfnet bn -> In v (bn_V bn) -> valid (ncard bn) d a -> (exists x, In x (nparents bn v) /\ ~ In x d) ->
  reduced_cpt o bn v (getitem (state_of bn a d)) = Raise KeyError.
Proof.
  intros W Hv V (x & Hx & N). apply (reduced_cpt_key bn _ a); try assumption.
  - intros p _. destruct (in_dec name_eq_dec p d) as [I|I].
    + right. split; [now apply V|]. now apply state_of_get.
    + left. apply dget_None. now rewrite state_of_keys.
  - exists x. split; [assumption|]. apply dget_None. now rewrite state_of_keys.
Qed.
Lemma fs_key bn o u : samplable bn -> (forall j, 0 <= u j /\ u j < 1)%Qc ->
  forall todo d a c, bn_V bn = d ++ todo -> valid (ncard bn) d a ->
  (exists p v q, todo = p ++ v :: q /\ ~ incl (nparents bn v) (d ++ p)) ->
  foldM (fs_node o bn u) (combine (seq (length d) (length todo)) todo) (answer bn c, state_of bn a d) = Raise KeyError.
Proof.
  intros Sm U. pose proof Sm as (W & _). assert (ND := wn_V _ W).
  induction todo as [|w r IH]; intros d a c E V (p & v & q & Q & N).
  - destruct p; discriminate.
  - destruct (split_NoDup _ _ _ _ E ND) as [Nw Hw]. cbn [length seq combine foldM]. unfold fs_node at 1.
    destruct (incl_dec_name (nparents bn w) d) as [I|Ex].
    2:{ rewrite missing_parent by assumption. reflexivity. }
    destruct (draw_ok bn (sub o (length d)) w (getitem (state_of bn a d)) a (u (length d)) Sm Hw) as (E1 & k & E2 & D & L).
    { now apply state_holds. } { apply U. }
    rewrite E1. cbn [bind]. rewrite bn_values_ok by assumption. cbn [bind]. rewrite E2. cbn [bind].
    rewrite tally_ok by assumption. cbn [bind]. rewrite state_of_push by assumption.
    replace (S (length d)) with (length (d ++ [w])) by (rewrite app_length; simpl; lia). apply IH.
    + now rewrite <- snoc_split.
    + now apply valid_push.
    + destruct p as [|w' p']; simpl in Q; inversion Q; subst.
      * exfalso. apply N. now rewrite app_nil_r.
      * exists p', v, q. split; [reflexivity|]. now rewrite <- app_assoc.
Qed.
Lemma forward_key bn o u n : samplable bn -> misordered bn -> unit_draws u -> 0 < n -> forward_sample o bn u n = Raise KeyError.
Proof.
  intros Sm M U Hn. pose proof Sm as (W & _). unfold forward_sample. rewrite empty_tally_ok by assumption. cbn [bind].
  destruct n as [|n]; [lia|]. cbn [seq foldM].
  assert (E : foldM (fs_node (sub o 0) bn (u 0)) (enum (bn_nodes bn)) (answer bn (fun _ _ => 0%Qc), []) = Raise KeyError).
  { apply (fs_key bn (sub o 0) (u 0) Sm (U 0) (bn_V bn) [] (fun _ => 0)); [reflexivity|intros v []|exact M]. }
  rewrite E. reflexivity.
Qed.

(** ** gibbs_sample *)
Lemma gs_fold bn o u : samplable bn -> (forall j, 0 <= u j /\ u j < 1)%Qc ->
  forall todo d a, bn_V bn = d ++ todo -> valid (ncard bn) (bn_V bn) a ->
  exists a', foldM (gs_node o bn u) (combine (seq (length d) (length todo)) todo) (state_of bn a (bn_V bn)) = Ok (state_of bn a' (bn_V bn)) /\
    valid (ncard bn) (bn_V bn) a' /\ (nodes_topological bn -> drawn bn u d todo a a').
Proof.
  intros Sm U. pose proof Sm as (W & _). assert (ND := wn_V _ W).
  induction todo as [|v r IH]; intros d a E V.
  - exists a. simpl. split; [reflexivity|]. split; [exact V|]. intros _. split; [auto|intros [|k] v Hk; discriminate].
  - destruct (split_NoDup _ _ _ _ E ND) as [Nv Hv]. cbn [length seq combine foldM]. unfold gs_node at 1.
    rewrite bn_parents_ok by assumption. cbn [bind].
    destruct (draw_ok bn (sub o (length d)) v (getitem (state_of bn a (bn_V bn))) a (u (length d)) Sm Hv) as (E1 & k & E2 & D & L).
    { apply state_holds; [assumption|now apply (wn_par _ W)]. } { apply U. }
    assert (Ep : (if length (nparents bn v) =? 0 then bn_cpt bn v else reduced_cpt (sub o (length d)) bn v (getitem (state_of bn a (bn_V bn)))) = Ok (dist bn v a)).
    { destruct (Nat.eqb_spec (length (nparents bn v)) 0) as [Z|_]; [|exact E1]. rewrite bn_cpt_ok by assumption. f_equal.
      apply length_zero_iff_nil in Z. pose proof (wn_cpt _ W v Hv) as Lc. rewrite Z in Lc. simpl in Lc. rewrite Nat.mul_1_r in Lc.
      rewrite (map_nth_seq (ncpt bn v) 0%Qc), Lc. unfold dist. apply map_ext_in. intros x Hx. apply in_seq in Hx.
      unfold cond_prob. rewrite Z. simpl. rewrite upd_same, Nat.mul_0_r, Nat.add_0_r.
      rewrite (nth_error_nth' _ 0%Qc) by lia. reflexivity. }
    rewrite Ep. cbn [bind]. rewrite bn_values_ok by assumption. cbn [bind]. rewrite E2. cbn [bind]. rewrite state_of_set by assumption.
    destruct (IH (d ++ [v]) (upd a v k)) as (a' & F & V' & Dr).
    { now rewrite <- snoc_split. } { intros w Hw. destruct (name_eqb_spec w v) as [-> |N]; [now rewrite upd_same|]. rewrite upd_other by assumption. now apply V. }
    rewrite app_length, Nat.add_1_r in F. rewrite F. exists a'. split; [reflexivity|]. split; [exact V'|].
    intros Top. apply (drawn_step bn u d v r a a' k); auto.
Qed.
Lemma gs_init_ok bn dd : wfnet bn -> exists a, gs_init bn dd = Ok (state_of bn a (bn_V bn)) /\ valid (ncard bn) (bn_V bn) a.
Proof.
  intros W. unfold gs_init, enum, bn_nodes. assert (ND := wn_V _ W).
  assert (G : forall todo d a, bn_V bn = d ++ todo -> valid (ncard bn) d a ->
    exists a', foldM (fun s jr => do vs <- bn_values bn (snd jr) ;; do x <- np_choice_uniform (dd (fst jr)) vs ;; Ok (dset s (snd jr) x))
       (combine (seq (length d) (length todo)) todo) (state_of bn a d) = Ok (state_of bn a' (bn_V bn)) /\ valid (ncard bn) (bn_V bn) a').
  { induction todo as [|v r IH]; intros d a E V.
    - exists a. simpl. rewrite app_nil_r in E. rewrite E. now split.
    - destruct (split_NoDup _ _ _ _ E ND) as [Nv Hv]. cbn [length seq combine foldM fst snd]. rewrite bn_values_ok by assumption. cbn [bind].
      assert (C := card_pos bn v W Hv). unfold np_choice_uniform. rewrite <- nvalues_card. destruct (Nat.eqb_spec (ncard bn v) 0); [lia|].
      assert (L : dd (length d) mod ncard bn v < ncard bn v) by (apply Nat.mod_upper_bound; lia).
      unfold nget. rewrite (nth_error_nth' _ (NInt 0)) by (now rewrite <- nvalues_card). cbn [bind]. rewrite state_of_push by assumption.
      replace (S (length d)) with (length (d ++ [v])) by (rewrite app_length; simpl; lia). apply IH; [now rewrite <- snoc_split|now apply valid_push]. }
  apply (G (bn_V bn) [] (fun _ => 0)); [reflexivity|intros v []].
Qed.
Lemma tally_state bn c a w : wfnet bn -> valid (ncard bn) (bn_V bn) a ->
  foldM (fun D rx => tally D (fst rx) (snd rx) w) (state_of bn a (bn_V bn)) (answer bn c) = Ok (answer bn (plus_hits c (bn_V bn) a w)).
Proof.
  intros W V. assert (ND := wn_V _ W).
  assert (G : forall vs c, incl vs (bn_V bn) -> NoDup vs ->
    foldM (fun D rx => tally D (fst rx) (snd rx) w) (state_of bn a vs) (answer bn c) = Ok (answer bn (plus_hits c vs a w))).
  { induction vs as [|v r IH]; intros c0 I NDv.
    - simpl. f_equal. apply answer_ext. intros v x _ _. unfold plus_hits. simpl. ring.
    - apply NoDup_cons_iff in NDv as [Nv NDr]. cbn [state_of map foldM fst snd]. assert (Hv : In v (bn_V bn)) by (apply I; now left).
      rewrite tally_ok by (auto; now apply V). cbn [bind]. fold (state_of bn a r). rewrite IH; [|intros z Hz; apply I; now right|assumption].
      f_equal. apply answer_ext. intros z x _ _. unfold plus_hits, addc. cbn [mem existsb]. fold (mem z r).
      destruct (name_eqb_spec z v) as [-> |N]; cbn [orb andb]; [|reflexivity].
      assert (mem v r = false) as -> by (apply Bool.not_true_is_false; now rewrite mem_In). cbn [andb].
      rewrite (Nat.eqb_sym (a v) x). destruct (x =? a v); ring. }
  apply G; [apply incl_refl|assumption].
Qed.
Lemma gs_outer bn o u burn : samplable bn -> unit_draws u ->
  forall is a c, NoDup is -> valid (ncard bn) (bn_V bn) a ->
  exists s a', (forall i, In i is -> valid (ncard bn) (bn_V bn) (s i) /\ (nodes_topological bn -> ancestral bn (u i) (s i))) /\
    foldM (fun st i =>
             do s' <- foldM (gs_node (sub o i) bn (u i)) (enum (bn_nodes bn)) (snd st) ;;
             do D' <- (if burn <? i then gs_tally (fst st) s' else Ok (fst st)) ;;
             Ok (D', s')) is (answer bn c, state_of bn a (bn_V bn)) =
    Ok (answer bn (fun v x => (c v x + nQc (hits s (filter (fun i => (burn <? i)%nat) is) v x))%Qc), state_of bn a' (bn_V bn)).
Proof.
  intros Sm U. pose proof Sm as (W & _). induction is as [|i is IH]; intros a c ND V.
  - exists (fun _ _ => 0), a. split; [intros i []|]. simpl. f_equal. f_equal. apply answer_ext. intros v x _ _. unfold hits. simpl. rewrite nQc_0. ring.
  - apply NoDup_cons_iff in ND as [Ni NDr]. cbn [foldM fst snd].
    destruct (gs_fold bn (sub o i) (u i) Sm (U i) (bn_V bn) [] a eq_refl V) as (a1 & E & V1 & Dr).
    assert (E' : foldM (gs_node (sub o i) bn (u i)) (enum (bn_nodes bn)) (state_of bn a (bn_V bn)) = Ok (state_of bn a1 (bn_V bn))) by exact E.
    rewrite E'. cbn [bind]. clear E E'.
    set (c1 := if burn <? i then plus_hits c (bn_V bn) a1 1 else c).
    assert (ED : (if burn <? i then gs_tally (answer bn c) (state_of bn a1 (bn_V bn)) else Ok (answer bn c)) = Ok (answer bn c1)).
    { unfold c1. destruct (burn <? i); [|reflexivity]. unfold gs_tally. now apply tally_state. }
    rewrite ED. cbn [bind]. destruct (IH a1 c1 NDr V1) as (s & a' & Hs & Es). rewrite Es.
    destruct (splice s i a1) as (s' & Si & So). exists s', a'. split.
    + intros j Hj. destruct (Nat.eq_dec j i) as [-> |N]; [rewrite Si; split; [assumption|]; intros Top; now apply (ancestral_of _ _ a), Dr|].
      rewrite So by assumption. apply Hs. destruct Hj as [->|Hj]; [congruence|assumption].
    + f_equal. f_equal. apply answer_ext. intros v x Hv Hx. cbn [filter].
      assert (HE : hits s' (filter (fun i => burn <? i) is) v x = hits s (filter (fun i => burn <? i) is) v x).
      { apply hits_ext. intros j Hj. apply filter_In in Hj as [Hj _]. rewrite So; [reflexivity|intros ->; contradiction]. }
      unfold c1. destruct (burn <? i); [|now rewrite HE].
      rewrite hits_cons, Si, HE.
      unfold plus_hits. apply mem_In in Hv. rewrite Hv. cbn [andb]. rewrite nQc_plus. destruct (a1 v =? x); rewrite ?nQc_1, ?nQc_0; ring.
Qed.
Lemma filter_burn burn : forall n, filter (fun i => burn <? i) (seq 0 n) = seq (S burn) (n - S burn).
Proof.
  induction n as [|n IH]; [reflexivity|]. rewrite seq_S, filter_app, IH. simpl filter. destruct (Nat.ltb_spec burn n) as [L|L].
  - replace (S n - S burn) with (S (n - S burn)) by lia. rewrite seq_S. f_equal. f_equal. lia.
  - rewrite app_nil_r. replace (S n - S burn) with 0 by lia. replace (n - S burn) with 0 by lia. reflexivity.
Qed.
Lemma nQc_inj_sub n burn : burn < n -> (nQc n - nQc burn)%Qc = nQc (n - burn).
Proof. intros L. replace n with ((n - burn) + burn) at 1 by lia. rewrite nQc_plus. ring. Qed.
Lemma gibbs_ok bn o d u n burn : samplable bn -> unit_draws u -> burn < n ->
  exists s, (forall i, i < n -> valid (ncard bn) (bn_V bn) (s i) /\ (nodes_topological bn -> ancestral bn (u i) (s i))) /\
    gibbs_sample o bn d u n burn =
    Ok (answer bn (fun v x => py_round 4 (nQc (hits s (seq (S burn) (n - S burn)) v x) / nQc (n - burn))%Qc)).
Proof.
  intros Sm U Hn. pose proof Sm as (W & _). unfold gibbs_sample. rewrite empty_tally_ok by assumption. cbn [bind].
  destruct (gs_init_ok bn d W) as (a0 & E0 & V0). rewrite E0. cbn [bind].
  destruct (gs_outer bn o u burn Sm U (seq 0 n) a0 (fun _ _ => 0%Qc) (seq_NoDup _ _) V0) as (s & a' & Hs & E). rewrite E. cbn [bind fst].
  exists s. split; [intros i Hi; apply Hs, in_seq; lia|]. rewrite nQc_inj_sub by assumption.
  rewrite (map_tally_ok bn _ (fun x => py_round 4 (x / nQc (n - burn))%Qc)).
  - f_equal. apply answer_ext. intros v x _ _. f_equal. f_equal. rewrite filter_burn. ring.
  - intros v x _ _. unfold float_div. destruct (Qc_eq_dec (nQc (n - burn)) 0) as [Z|]; [|reflexivity].
    exfalso. assert (P : 0 < n - burn) by lia. apply nQc_pos in P. rewrite Z in P. discriminate.
Qed.

(** ** lw_sample *)
Definition wdrawn (bn : bayesnet) (ev : dict name) (u : nat -> Qc) (d todo : list name) (a a' : asg) : Prop :=
  (forall p, In p d -> a' p = a p) /\
  forall k v, nth_error todo k = Some v ->
    match dget ev v with Some x => val_index bn v x = Some (a' v) | None => drawn_by bn v a' (u (length d + k)) end.
Definition obs_prob (bn : bayesnet) (ev : dict name) (vs : list name) (a : asg) : Qc :=
  qprod (map (fun v => getq (cond_prob bn v a)) (filter (fun v => mem v (map fst ev)) vs)).
Lemma mem_keys {A} (d : dict A) v : mem v (map fst d) = match dget d v with Some _ => true | None => false end.
Proof.
  destruct (dget d v) as [x|] eqn:E.
  - apply mem_In. destruct (in_dec name_eq_dec v (dkeys d)) as [I|I]; [exact I|]. apply dget_None in I. congruence.
  - apply Bool.not_true_is_false. rewrite mem_In. intros I. apply dget_None in E. now apply E.
Qed.
Lemma good_evidence_get bn ev v x : wfnet bn -> good_evidence bn ev -> dget ev v = Some x ->
  exists k, val_index bn v x = Some k /\ k < ncard bn v /\ x = nth k (nvalues bn v) (NInt 0).
Proof.
  intros W [ND G] D. apply dget_in_list in D. destruct (G v x D) as [Hv Hx].
  unfold val_index. destruct (index_of x (nvalues bn v)) as [k|] eqn:E.
  - exists k. split; [reflexivity|]. assert (L := index_of_lt _ _ _ E). rewrite <- nvalues_card in L. split; [exact L|].
    apply index_of_Some in E. symmetry. now apply nth_error_nth.
  - exfalso. apply index_of_None in E. contradiction.
Qed.
Lemma lw_fold bn ev o u : samplable bn -> nodes_topological bn -> good_evidence bn ev -> (forall j, 0 <= u j /\ u j < 1)%Qc ->
  forall todo d a w, bn_V bn = d ++ todo -> valid (ncard bn) d a ->
  exists a', foldM (lw_node o bn ev u) (combine (seq (length d) (length todo)) todo) (state_of bn a d, w) =
     Ok (state_of bn a' (bn_V bn), (w * obs_prob bn ev todo a')%Qc) /\ wdrawn bn ev u d todo a a' /\ valid (ncard bn) (bn_V bn) a'.
Proof.
  intros Sm Top GE U. pose proof Sm as (W & _). assert (ND := wn_V _ W).
  induction todo as [|v r IH]; intros d a w E V.
  - exists a. simpl. rewrite app_nil_r in E. rewrite E. split; [|split; [split; [auto|intros [|k] v Hk; discriminate]|assumption]].
    f_equal. f_equal. unfold obs_prob. simpl. ring.
  - destruct (split_NoDup _ _ _ _ E ND) as [Nv Hv]. cbn [length seq combine foldM]. unfold lw_node at 1.
    destruct (draw_ok bn (sub o (length d)) v (getitem (state_of bn a d)) a (u (length d)) Sm Hv) as (E1 & k & E2 & D & L).
    { apply state_holds; [assumption|]. now apply (Top d v r). } { apply U. }
    rewrite E1. cbn [bind]. rewrite bn_values_ok by assumption. cbn [bind].
    assert (Step : forall k w1, k < ncard bn v -> 
       (forall a', a' v = k -> (forall p, In p d -> a' p = a p) -> w1 = (w * if mem v (map fst ev) then getq (cond_prob bn v a') else 1)%Qc) ->
       (match dget ev v with Some x => val_index bn v x = Some k | None => drawn_by bn v (upd a v k) (u (length d)) end) ->
       exists a', foldM (lw_node o bn ev u) (combine (seq (S (length d)) (length r)) r) (dset (state_of bn a d) v (nth k (nvalues bn v) (NInt 0)), w1) =
         Ok (state_of bn a' (bn_V bn), (w * obs_prob bn ev (v :: r) a')%Qc) /\ wdrawn bn ev u d (v :: r) a a' /\ valid (ncard bn) (bn_V bn) a').
    { clear k E2 D L. intros k w1 L Hw D. rewrite state_of_push by assumption.
      destruct (IH (d ++ [v]) (upd a v k) w1) as (a' & F & [H1 H2] & V').
      { now rewrite <- snoc_split. } { now apply valid_push. }
      rewrite app_length, Nat.add_1_r in F. rewrite F. exists a'.
      assert (Av : a' v = k) by (rewrite H1 by (apply in_or_app; right; now left); apply upd_same).
      assert (Ad : forall p, In p d -> a' p = a p).
      { intros p Hp. rewrite H1 by (apply in_or_app; now left). apply upd_other. intros ->. contradiction. }
      split; [|split; [|exact V']].
      - f_equal. f_equal. rewrite (Hw a' Av Ad). unfold obs_prob. cbn [filter]. destruct (mem v (map fst ev)); cbn [map qprod fold_right]; fold (qprod (map (fun v => getq (cond_prob bn v a')) (filter (fun v => mem v (map fst ev)) r))); ring.
      - split; [exact Ad|]. intros [|j] z Hz; simpl in Hz.
        + inversion Hz; subst z. rewrite Nat.add_0_r, Av. destruct (dget ev v) as [x|]; [exact D|]. apply (drawn_by_ext _ _ (upd a v k)); [|exact D].
          intros x [<-|Hx]; symmetry; apply H1, in_or_app; [right; now left|left]. now apply (Top d v r E).
        + specialize (H2 j z Hz). rewrite app_length in H2. simpl in H2. replace (length d + S j) with (length d + 1 + j) by lia. exact H2. }
    pose proof (mem_keys ev v) as Mk. destruct (dget ev v) as [x|] eqn:Dx.
    + destruct (good_evidence_get bn ev v x W GE Dx) as (kx & Vi & Lk & Nx). unfold list_index. unfold val_index in Vi. rewrite Vi. cbn [bind].
      assert (Q : nget (dist bn v a) kx = Ok (getq (cond_prob bn v (upd a v kx)))).
      { unfold nget, dist. rewrite nth_error_map, (nth_error_nth' _ 0) by (rewrite seq_length; lia). rewrite seq_nth by lia. reflexivity. }
      rewrite Q. cbn [bind]. rewrite Nx. apply Step.
      * exact Lk.
      * intros a' Av Ad. rewrite Mk. f_equal. f_equal. apply cond_prob_ext. intros z [<-|Hz]; [now rewrite upd_same|].
        rewrite upd_other; [symmetry; apply Ad; now apply (Top d v r E)|]. intros ->. assert (X := wn_scope _ W v Hv). now apply NoDup_cons_iff in X.
      * exact Vi.
    + rewrite E2. cbn [bind]. apply Step; [exact L| |exact D]. intros a' _ _. rewrite Mk. ring.
Qed.
Definition whits (s : nat -> asg) (w : nat -> Qc) (is : list nat) (v : name) (x : nat) : Qc :=
  qsum (map (fun i => if s i v =? x then w i else 0%Qc) is).
Lemma lw_outer bn ev o u : samplable bn -> nodes_topological bn -> good_evidence bn ev -> unit_draws u ->
  forall is c ws, NoDup is -> exists s, (forall i, In i is -> weighted_sample bn ev (u i) (s i) /\ valid (ncard bn) (bn_V bn) (s i)) /\
    foldM (fun st i =>
             do sw <- foldM (lw_node (sub o i) bn ev (u i)) (enum (bn_nodes bn)) ([], 1%Qc) ;;
             do D' <- lw_tally (fst st) sw ;;
             Ok (D', snd st ++ [snd sw])) is (answer bn c, ws) =
    Ok (answer bn (fun v x => (c v x + whits s (fun i => likelihood bn ev (s i)) is v x)%Qc), ws ++ map (fun i => likelihood bn ev (s i)) is).
Proof.
  intros Sm Top GE U. pose proof Sm as (W & _). induction is as [|i is IH]; intros c ws ND.
  - exists (fun _ _ => 0). split; [intros i []|]. simpl. rewrite app_nil_r. f_equal. f_equal. apply answer_ext. intros v x _ _. unfold whits. simpl. ring.
  - apply NoDup_cons_iff in ND as [Ni NDr]. cbn [foldM fst snd].
    destruct (lw_fold bn ev (sub o i) (u i) Sm Top GE (U i) (bn_V bn) [] (fun _ => 0) 1%Qc eq_refl) as (a & E & Dr & Va). { intros v []. }
    assert (E' : foldM (lw_node (sub o i) bn ev (u i)) (enum (bn_nodes bn)) ([], 1%Qc) =
      Ok (state_of bn a (bn_V bn), (1 * obs_prob bn ev (bn_V bn) a)%Qc)) by exact E. rewrite E'. clear E E'. cbn [bind fst snd].
    unfold lw_tally at 1. cbn [fst snd].
    replace (1 * (1 * obs_prob bn ev (bn_V bn) a))%Qc with (likelihood bn ev a) by (unfold likelihood, obs_prob; ring).
    replace (1 * obs_prob bn ev (bn_V bn) a)%Qc with (likelihood bn ev a) by (unfold likelihood, obs_prob; ring).
    rewrite tally_state by assumption. cbn [bind].
    destruct (IH (plus_hits c (bn_V bn) a (likelihood bn ev a)) (ws ++ [likelihood bn ev a]) NDr) as (s & Hs & Es). rewrite Es.
    destruct (splice s i a) as (s' & Si & So). exists s'. split.
    + intros j Hj. destruct (Nat.eq_dec j i) as [-> |N]; [rewrite Si; split; [|assumption]; destruct Dr as [_ H]; intros k v Hk; exact (H k v Hk)|].
      rewrite So by assumption. apply Hs. destruct Hj as [->|Hj]; [congruence|assumption].
    + assert (So' : forall j, In j is -> s' j = s j) by (intros j Hj; apply So; intros ->; contradiction).
      f_equal. f_equal.
      * apply answer_ext. intros v x Hv Hx. unfold whits. cbn [map qsum fold_right]. rewrite Si.
        fold (qsum (map (fun i => if s' i v =? x then likelihood bn ev (s' i) else 0%Qc) is)).
        rewrite (qsum_map_ext (fun i => if s' i v =? x then likelihood bn ev (s' i) else 0%Qc) (fun i => if s i v =? x then likelihood bn ev (s i) else 0%Qc)).
        2:{ intros j Hj. now rewrite So' by assumption. }
        unfold plus_hits. apply mem_In in Hv. rewrite Hv. cbn [andb]. ring.
      * cbn [map]. rewrite Si, <- app_assoc. cbn [app]. f_equal. f_equal. apply map_ext_in. intros j Hj. now rewrite So' by assumption.
Qed.
Lemma lw_ok bn ev o u n : samplable bn -> nodes_topological bn -> good_evidence bn ev -> unit_draws u -> 0 < n ->
  exists s, (forall i, i < n -> weighted_sample bn ev (u i) (s i) /\ valid (ncard bn) (bn_V bn) (s i)) /\
    let total := qsum (map (fun i => likelihood bn ev (s i)) (seq 0 n)) in
    lw_sample o bn ev u n = Ok (answer bn (fun v x =>
      if Qc_eq_dec total 0 then None
      else Some (py_round 4 (whits s (fun i => likelihood bn ev (s i)) (seq 0 n) v x / total)%Qc))).
Proof.
  intros Sm Top GE U Hn. pose proof Sm as (W & _). unfold lw_sample. rewrite empty_tally_ok by assumption. cbn [bind].
  destruct (lw_outer bn ev o u Sm Top GE U (seq 0 n) (fun _ _ => 0%Qc) [] (seq_NoDup _ _)) as (s & Hs & E). rewrite E. cbn [bind fst snd app].
  exists s. split; [intros i Hi; apply Hs, in_seq; lia|]. cbn zeta. set (total := qsum _).
  rewrite (map_tally_ok bn _ (fun x => if Qc_eq_dec total 0 then None else Some (py_round 4 (x / total)%Qc))).
  - f_equal. apply answer_ext. intros v x _ _. destruct (Qc_eq_dec total 0); [reflexivity|]. f_equal. f_equal. f_equal. ring.
  - intros v x _ _. unfold lw_entry. destruct (Qc_eq_dec total 0); [|reflexivity]. destruct (Nat.eqb_spec n 0); [lia|reflexivity].
Qed.

(** ** random_sample *)
Lemma rs_holds bn a d rest row : wfnet bn -> bn_V bn = d ++ rest -> valid (ncard bn) d a ->
  (exists t, row = map (fun v => Z.of_nat (a v)) d ++ t) -> holds bn (rs_get bn row) a d.
Proof.
  intros W E V (t & ->) p Hp. split; [now apply V|]. unfold rs_get.
  assert (Hp' : In p (bn_V bn)) by (rewrite E; apply in_or_app; now left). rewrite bn_values_ok by assumption. cbn [bind]. unfold bn_nodes.
  destruct (In_nth_error _ _ Hp) as [k Hk].
  assert (Hk' : nth_error (bn_V bn) k = Some p) by (rewrite E; rewrite nth_error_app1; [assumption|apply nth_error_Some; congruence]).
  rewrite (index_of_nth _ _ _ (wn_V _ W) Hk'). cbn [bind]. unfold nget.
  rewrite nth_error_app1 by (rewrite map_length; apply nth_error_Some; congruence). rewrite nth_error_map, Hk. simpl.
  assert (L := V p Hp). rewrite nvalues_card in L. rewrite pyget_nat. unfold nget. now rewrite (nth_error_nth' _ (NInt 0)) by exact L.
Qed.
Lemma upd_nth_mid {A} (l : list A) x y r : upd_nth (length l) y (l ++ x :: r) = l ++ y :: r.
Proof. induction l as [|z l IH]; simpl; [reflexivity|]. now rewrite IH. Qed.
Lemma rs_fold bn o u : samplable bn -> nodes_topological bn -> (forall j, 0 <= u j /\ u j < 1)%Qc ->
  forall todo d a t, bn_V bn = d ++ todo -> valid (ncard bn) d a -> length t = length todo ->
  exists a', foldM (rs_node o bn u) (combine (seq (length d) (length todo)) todo) (map (fun v => Z.of_nat (a v)) d ++ t) =
     Ok (map (fun v => Z.of_nat (a' v)) (bn_V bn)) /\ drawn bn u d todo a a'.
Proof.
  intros Sm Top U. pose proof Sm as (W & _). assert (ND := wn_V _ W).
  induction todo as [|v r IH]; intros d a t E V Lt.
  - exists a. destruct t; [|discriminate]. simpl. rewrite app_nil_r in *. rewrite E. split; [reflexivity|]. split; [auto|intros [|k] v Hk; discriminate].
  - destruct t as [|z t]; [discriminate|]. destruct (split_NoDup _ _ _ _ E ND) as [Nv Hv]. cbn [length seq combine foldM]. unfold rs_node at 1.
    destruct (draw_ok bn (sub o (length d)) v (rs_get bn (map (fun v => Z.of_nat (a v)) d ++ z :: t)) a (u (length d)) Sm Hv) as (E1 & k & E2 & D & L).
    { intros p Hp. apply (rs_holds bn a d (v :: r)); [assumption|assumption|assumption|eauto|now apply (Top d v r)]. } { apply U. }
    rewrite E1. cbn [bind]. rewrite bn_values_ok by assumption. cbn [bind]. rewrite E2. cbn [bind].
    assert (X : list_index (nvalues bn v) (nth k (nvalues bn v) (NInt 0)) = Ok k).
    { unfold list_index. rewrite (index_of_nth _ k); [reflexivity|now apply (wn_vals _ W)|]. apply nth_error_nth'. now rewrite <- nvalues_card. }
    rewrite X. cbn [bind].
    assert (X2 : upd_nth (length d) (Z.of_nat k) (map (fun v => Z.of_nat (a v)) d ++ z :: t) = map (fun v => Z.of_nat (a v)) d ++ Z.of_nat k :: t)
      by (rewrite <- (map_length (fun v => Z.of_nat (a v)) d) at 1; apply upd_nth_mid).
    rewrite X2.
    destruct (IH (d ++ [v]) (upd a v k) t) as (a' & F & Dr).
    { now rewrite <- snoc_split. } { now apply valid_push. } { simpl in Lt. lia. }
    rewrite app_length, Nat.add_1_r in F. exists a'. split; [|now apply (drawn_step bn u d v r a a' k)].
    rewrite <- F. f_equal. rewrite map_app, <- app_assoc. simpl. rewrite upd_same. f_equal.
    apply map_ext_in. intros w Hw. rewrite upd_other; [reflexivity|]. intros ->. contradiction.
Qed.
Lemma random_ok bn o junk u n : samplable bn -> nodes_topological bn -> unit_draws u ->
  exists s, (forall i, i < n -> ancestral bn (u i) (s i)) /\
    random_sample o bn junk u n = Ok (map (fun i => map (fun v => Z.of_nat (s i v)) (bn_V bn)) (seq 0 n)).
Proof.
  intros Sm Top U. unfold random_sample. assert (G : forall is, NoDup is -> exists s, (forall i, In i is -> ancestral bn (u i) (s i)) /\
    mapM (fun i => foldM (rs_node (sub o i) bn (u i)) (enum (bn_nodes bn)) (map (junk i) (seq 0 (length (bn_nodes bn))))) is =
    Ok (map (fun i => map (fun v => Z.of_nat (s i v)) (bn_V bn)) is)).
  { induction is as [|i is IH]; intros ND.
    - exists (fun _ _ => 0). split; [intros i []|reflexivity].
    - apply NoDup_cons_iff in ND as [Ni NDr]. destruct (IH NDr) as (s & Hs & Es). cbn [mapM].
      destruct (rs_fold bn (sub o i) (u i) Sm Top (U i) (bn_V bn) [] (fun _ => 0) (map (junk i) (seq 0 (length (bn_nodes bn)))) eq_refl) as (a & E & Dr).
      { intros v []. } { now rewrite map_length, seq_length. }
      assert (E' : foldM (rs_node (sub o i) bn (u i)) (enum (bn_nodes bn)) (map (junk i) (seq 0 (length (bn_nodes bn)))) = Ok (map (fun v => Z.of_nat (a v)) (bn_V bn))) by exact E.
      rewrite E'. cbn [bind]. rewrite Es. cbn [bind]. destruct (splice s i a) as (s' & Si & So). exists s'. split.
      + intros j Hj. destruct (Nat.eq_dec j i) as [-> |N]; [rewrite Si; now apply (ancestral_of _ _ (fun _ => 0))|].
        rewrite So by assumption. apply Hs. destruct Hj as [->|Hj]; [congruence|assumption].
      + f_equal. cbn [map]. rewrite Si. f_equal. apply map_ext_in. intros j Hj. rewrite So; [reflexivity|intros ->; contradiction]. }
  destruct (G (seq 0 n) (seq_NoDup _ _)) as (s & Hs & E). exists s. split; [intros i Hi; apply Hs, in_seq; lia|exact E].
Qed.
