(** Properties_Empty.v -- C147: a network with a node that has no values (what add_node(rv), or add_edge to an
    unknown node, leaves behind) answers no query about other nodes and gives no sample. *)
From Verif Require Import Py Num BayesNet Factor Rounding Factorization ParamLearn Sampling SpecFactor Graph Examples.
Open Scope nat_scope.

(** a node whose list of values is empty *)
Definition valueless (bn : bayesnet) (v : name) : Prop :=
  In v (bn_V bn) /\ exists d, dget (bn_F bn) v = Some d /\ f_values d = [].
(** the call does not return: it raises (or does not terminate) *)
Definition no_answer {A} (m : res A) : Prop := forall x, m <> Ok x.

Lemma na_bind {A B} (m : res A) (k : A -> res B) : no_answer m -> no_answer (bind m k).
Proof. intros H x E. apply bind_Ok in E as (a & Ea & _). exact (H a Ea). Qed.
Lemma na_bind_r {A B} (m : res A) (k : A -> res B) : (forall a, m = Ok a -> no_answer (k a)) -> no_answer (bind m k).
Proof. intros H x E. apply bind_Ok in E as (a & Ea & E'). exact (H a Ea x E'). Qed.
Lemma na_foldM {A S} (f : S -> A -> res S) l : forall s, (exists a, In a l /\ forall s', no_answer (f s' a)) -> no_answer (foldM f l s).
Proof.
  induction l as [|b l IH]; intros s (a & Ha & H); [destruct Ha|]. cbn [foldM]. destruct Ha as [-> |Ha]; [apply na_bind, H|].
  apply na_bind_r. intros s' _. apply IH. eauto.
Qed.
Lemma na_mapM {A B} (f : A -> res B) l : (exists a, In a l /\ no_answer (f a)) -> no_answer (mapM f l).
Proof.
  induction l as [|b l IH]; intros (a & Ha & H); [destruct Ha|]. cbn [mapM]. destruct Ha as [-> |Ha]; [now apply na_bind|].
  apply na_bind_r. intros s' _. apply na_bind, IH. eauto.
Qed.

Section V.
Variable v : name.
Definition zero (f : factor) : Prop := forall c, In (v, c) (f_card f) -> c = 0.
Lemma In_dset {A} (d : dict A) k x p : In p (dset d k x) -> In p d \/ p = (k, x).
Proof. induction d as [|[q w] r IH]; simpl; [intros [<-|[]]; auto|]. destruct (name_eqb_spec k q) as [E|N]; simpl; [intros [<-|H]; [subst; auto|auto]|]. intros [H|H]; [auto|]. apply IH in H as [H|H]; auto. Qed.
Lemma In_ddel {A} (d : dict A) k p : In p (ddel d k) -> In p d.
Proof. induction d as [|[q w] r IH]; simpl; [tauto|]. destruct (name_eqb k q); simpl; intuition. Qed.
Lemma In_dupdate {A} (e d : dict A) p : In p (dupdate d e) -> In p d \/ In p e.
Proof.
  unfold dupdate. revert d. induction e as [|[q w] r IH]; intros d H; simpl in *; [auto|].
  apply IH in H as [H|H]; [|auto]. apply In_dset in H as [H| ->]; auto.
Qed.
Lemma dget_In_pair {A} (d : dict A) k x : dget d k = Some x -> In (k, x) d.
Proof. induction d as [|[q w] r IH]; simpl; [discriminate|]. destruct (name_eqb_spec k q) as [-> |N]; [intros E; injection E as ->; now left|auto]. Qed.

Lemma zero_init bn w f : (exists d, dget (bn_F bn) v = Some d /\ f_values d = []) -> factor_init bn w = Ok f -> zero f /\ In w (f_scope f).
Proof.
  intros (d & Hd & Hv) E. unfold factor_init in E.
  apply bind_Ok in E as (cpt & _ & E). apply bind_Ok in E as (scope & Es & E). apply bind_Ok in E as (cards & Ec & E).
  apply bind_Ok in E as (s & _ & E). apply bind_Ok in E as (ps & _ & E). apply bind_Ok in E as (st & _ & E). injection E as <-.
  split.
  - intros c H. cbn [f_card] in H. unfold dict_of in H. apply In_dupdate in H as [[]|H]. apply mapM_inv in Ec.
    clear - H Ec Hd Hv. induction Ec as [|a b l l' R Ec IH]; [destruct H|]. destruct H as [-> |H]; [|auto].
    apply bind_Ok in R as (c' & Rc & R). injection R as -> ->. unfold bn_card, getitem in Rc. rewrite Hd in Rc. cbn [bind] in Rc. injection Rc as <-. now rewrite Hv.
  - cbn [f_scope]. unfold bn_scope in Es. apply bind_Ok in Es as (p & _ & Es). injection Es as <-. now left.
Qed.
Lemma zero_mul o f g h : zero f -> zero g -> factor_mul o f g = Ok h -> zero h.
Proof.
  intros F G E. unfold factor_mul, multiply_factor in E. apply bind_Ok in E as ([a b] & E & E'). cbn [fst] in E'. injection E' as ->.
  apply bind_Ok in E as (psi & _ & E). apply bind_Ok in E as (st & _ & E). injection E as <- _. intros c H. cbn [f_card] in H.
  apply In_dupdate in H. destruct (self_is_phi1 f g); destruct H as [H|H]; auto.
Qed.
Lemma zero_mul_all fs : forall o f h, zero f -> (forall g, In g fs -> zero g) -> mul_all o f fs = Ok h -> zero h.
Proof.
  induction fs as [|g fs IH]; intros o f h F G E; cbn [mul_all] in E; [injection E as <-; exact F|].
  apply bind_Ok in E as (f' & E1 & E). apply (IH _ _ _) in E; [exact E| |intros g' Hg; apply G; now right]. exact (zero_mul _ _ _ _ F (G g (or_introl eq_refl)) E1).
Qed.
Lemma zero_out cell el o f w h : zero f -> out_var cell el o f w = Ok h -> zero h /\ w <> v.
Proof.
  intros F E. unfold out_var in E. apply bind_Ok in E as (c & Ec & E). destruct (Nat.eqb_spec c 0) as [|N]; [discriminate|].
  apply bind_Ok in E as (s & _ & E). apply bind_Ok in E as (p & _ & E). apply bind_Ok in E as (new & _ & E). apply bind_Ok in E as (cd & Ed & E). apply bind_Ok in E as (sc & _ & E).
  injection E as <-. split.
  - intros c' H. cbn [f_card] in H. unfold delitem in Ed. destruct (dget (f_card f) w); [|discriminate]. injection Ed as <-. apply In_ddel in H. now apply F.
  - intros ->. apply N, F. unfold getitem in Ec. destruct (dget (f_card f) v) eqn:Eg; [|discriminate]. injection Ec as ->. now apply dget_In_pair.
Qed.
Lemma In_remove1_ne x y l : In y l -> y <> x -> In y (remove1 x l).
Proof. induction l as [|z l IH]; simpl; [tauto|]. intros H N. destruct (name_eqb_spec x z) as [E|E]; simpl; destruct H as [H|H]; auto. congruence. Qed.
Lemma zero_reduce o f w x h : zero f -> reduce_factor o f w x = Ok h -> zero h /\ w <> v /\ (In v (f_scope f) -> In v (f_scope h)).
Proof.
  intros F E. unfold reduce_factor in E. apply bind_Ok in E as (c & Ec & E). destruct (Nat.eqb_spec c 0) as [|N]; [discriminate|].
  apply bind_Ok in E as (d & _ & E). apply bind_Ok in E as (i & _ & E). apply bind_Ok in E as (s & _ & E). apply bind_Ok in E as (new & _ & E). apply bind_Ok in E as (cd & Ed & E). apply bind_Ok in E as (sc & Es & E).
  assert (W : w <> v).
  { intros ->. apply N, F. unfold getitem in Ec. destruct (dget (f_card f) v) eqn:Eg; [|discriminate]. injection Ec as ->. now apply dget_In_pair. }
  injection E as <-. split; [|split; [exact W|]].
  - intros c' H. cbn [f_card] in H. unfold delitem in Ed. destruct (dget (f_card f) w); [|discriminate]. injection Ed as <-. apply In_ddel in H. now apply F.
  - cbn [f_scope]. intros H. unfold list_remove in Es. destruct (mem w (f_scope f)); [|discriminate]. injection Es as <-. apply In_remove1_ne; [exact H|congruence].
Qed.

Definition zeros (fs : list factor) : Prop := forall f, In f fs -> zero f.
Lemma zeros_elim_sum o z w z' : zeros (fz_phi z) -> fz_sum_elim o z w = Ok z' -> zeros (fz_phi z') /\ w <> v.
Proof.
  intros Z E. unfold fz_sum_elim, product_relevant in E. apply bind_Ok in E as (psi & E1 & E). apply bind_Ok in E as (psi' & E2 & E). injection E as <-. cbn [fz_phi].
  assert (P : zero psi).
  { assert (G : forall g, In g (relevant_factors w (fz_phi z)) -> zero g) by (intros g Hg; apply Z; unfold relevant_factors in Hg; apply filter_In in Hg; tauto).
    destruct (relevant_factors w (fz_phi z)) as [|f r]; [discriminate|]. exact (zero_mul_all _ _ _ _ (G f (or_introl eq_refl)) (fun g H => G g (or_intror H)) E1). }
  unfold sumout_var, maxout_var in E2. destruct (zero_out _ _ _ _ _ _ P E2) as [P' W]. split; [|exact W]. intros f Hf. apply in_app_or in Hf as [Hf|[<-|[]]]; [|exact P'].
  apply Z. unfold irrelevant_factors in Hf. apply filter_In in Hf. tauto.
Qed.
Lemma zeros_elim_max o z w z' : zeros (fz_phi z) -> fz_max_elim o z w = Ok z' -> zeros (fz_phi z') /\ w <> v.
Proof.
  intros Z E. unfold fz_max_elim, product_relevant in E. apply bind_Ok in E as (psi & E1 & E). apply bind_Ok in E as (psi' & E2 & E). injection E as <-. cbn [fz_phi].
  assert (P : zero psi).
  { assert (G : forall g, In g (relevant_factors w (fz_phi z)) -> zero g) by (intros g Hg; apply Z; unfold relevant_factors in Hg; apply filter_In in Hg; tauto).
    destruct (relevant_factors w (fz_phi z)) as [|f r]; [discriminate|]. exact (zero_mul_all _ _ _ _ (G f (or_introl eq_refl)) (fun g H => G g (or_intror H)) E1). }
  unfold sumout_var, maxout_var in E2. destruct (zero_out _ _ _ _ _ _ P E2) as [P' W]. split; [|exact W]. intros f Hf. apply in_app_or in Hf as [Hf|[<-|[]]]; [|exact P'].
  apply Z. unfold irrelevant_factors in Hf. apply filter_In in Hf. tauto.
Qed.
Lemma na_elim elim order : (forall o z w z', zeros (fz_phi z) -> elim o z w = Ok z' -> zeros (fz_phi z') /\ w <> v) ->
  forall o z, zeros (fz_phi z) -> In v order -> no_answer (elim_all elim o z order).
Proof.
  intros HE. induction order as [|w r IH]; intros o z Z I; [destruct I|]. cbn [elim_all]. apply na_bind_r. intros z' E.
  destruct (HE _ _ _ _ Z E) as [Z' W]. apply IH; [exact Z'|]. destruct I as [-> |I]; [now destruct W|exact I].
Qed.
Lemma zeros_reduce_all w x fs : forall o fs', zeros fs -> reduce_all o w x fs = Ok fs' -> zeros fs' /\
  ((exists f, In f fs /\ In v (f_scope f)) -> w <> v /\ exists f, In f fs' /\ In v (f_scope f)).
Proof.
  induction fs as [|f r IH]; intros o fs' Z E; cbn [reduce_all] in E; [injection E as <-; split; [intros g []|intros (g & [] & _)]|].
  apply bind_Ok in E as (f' & E1 & E). apply bind_Ok in E as (r' & E2 & E). injection E as <-.
  destruct (IH _ _ (fun g H => Z g (or_intror H)) E2) as [Zr Hr].
  assert (Ff : zero f' /\ (In v (f_scope f) -> w <> v /\ In v (f_scope f'))).
  { destruct (mem_spec w (f_scope f)) as [M|M].
    - destruct (zero_reduce _ _ _ _ _ (Z f (or_introl eq_refl)) E1) as (A & B & C). auto.
    - injection E1 as <-. split; [apply Z; now left|]. intros H. split; [intros ->; contradiction|exact H]. }
  split; [intros g [<-|Hg]; [apply Ff|now apply Zr]|]. intros (g & [<-|Hg] & Hv).
  - destruct (proj2 Ff Hv) as [A B]. split; [exact A|]. exists f'. split; [now left|exact B].
  - destruct Hr as (A & g' & B & C); [eauto|]. split; [exact A|]. exists g'. split; [now right|exact C].
Qed.
Lemma zeros_evidence ev : forall o z order z' order', zeros (fz_phi z) -> (exists f, In f (fz_phi z) /\ In v (f_scope f)) -> In v order ->
  apply_evidence o z order ev = Ok (z', order') -> zeros (fz_phi z') /\ In v order'.
Proof.
  induction ev as [|[w x] ev IH]; intros o z order z' order' Z X I E; cbn [apply_evidence] in E; [injection E as <- <-; auto|].
  apply bind_Ok in E as (z1 & E1 & E). apply bind_Ok in E as (o1 & E2 & E). unfold fz_sub in E1. apply bind_Ok in E1 as (fs & Ef & E1). injection E1 as <-.
  destruct (zeros_reduce_all _ _ _ _ _ Z Ef) as [Z1 H1]. destruct (H1 X) as [W X1].
  apply (IH _ _ _ _ _) in E; [exact E|exact Z1|exact X1|]. unfold list_remove in E2. destruct (mem w order); [|discriminate]. injection E2 as <-. apply In_remove1_ne; [exact I|congruence].
Qed.
Lemma zeros_fz_init bn z : valueless bn v -> fz_init bn = Ok z -> zeros (fz_phi z) /\ exists f, In f (fz_phi z) /\ In v (f_scope f).
Proof.
  intros [Hv D] E. unfold fz_init in E. apply bind_Ok in E as (fs & E & E'). injection E' as <-. cbn [fz_phi]. apply mapM_inv in E. unfold bn_nodes in E. split.
  - intros f Hf. clear Hv. induction E as [|w g l l' R E IH]; [destruct Hf|]. destruct Hf as [<-|Hf]; [|auto]. exact (proj1 (zero_init bn w g D R)).
  - clear - Hv D E. induction E as [|w g l l' R E IH]; [destruct Hv|]. destruct Hv as [-> |Hv].
    + exists g. split; [now left|]. exact (proj2 (zero_init bn v g D R)).
    + destruct (IH Hv) as (f & A & B). exists f. split; [now right|exact B].
Qed.
End V.

(** ** C147 *)
(** the factor operations on a variable without values *)
Theorem C147_operations : forall bn v o x, (exists d, dget (bn_F bn) v = Some d /\ f_values d = []) -> forall w f, factor_init bn w = Ok f -> In v (f_scope f) ->
  sumout_var o f v = Raise ZeroDivisionError /\ maxout_var f v = Raise ZeroDivisionError /\ reduce_factor o f v x = Raise ZeroDivisionError.
Proof.
  intros bn v o x D w f E Hv. destruct (zero_init v bn w f D E) as [Z _].
  assert (G : dget (f_card f) v = Some 0).
  { destruct (dget (f_card f) v) as [c|] eqn:G; [f_equal; apply Z; now apply dget_In_pair|]. exfalso. unfold factor_init in E.
    apply bind_Ok in E as (cpt & _ & E). apply bind_Ok in E as (scope & Es & E). apply bind_Ok in E as (cards & Ec & E).
    apply bind_Ok in E as (s & _ & E). apply bind_Ok in E as (ps & _ & E). apply bind_Ok in E as (st & _ & E). injection E as <-. cbn [f_card f_scope] in *.
    apply dget_None in G. apply G. unfold dict_of. apply In_dkeys_dupdate. right. apply mapM_inv in Ec. clear - Ec Hv.
    induction Ec as [|a b l l' R Ec IH]; [destruct Hv|]. apply bind_Ok in R as (c & _ & R). injection R as <-. destruct Hv as [-> |Hv]; [now left|right; auto]. }
  unfold sumout_var, maxout_var, out_var, reduce_factor, getitem. rewrite G. cbn [bind Nat.eqb]. auto.
Qed.
Print Assumptions C147_operations.
(** no marginal of another node, whatever the evidence and the set orders; no explanation at all *)
Theorem C147_marginal : forall bn v target ev o, valueless bn v -> target <> v -> no_answer (marginal_ve_e o bn target ev).
Proof.
  intros bn v target ev o H N. unfold marginal_ve_e, marginal_factor. apply na_bind. apply na_bind_r. intros z Ez. destruct (zeros_fz_init v bn z H Ez) as [Z X].
  apply na_bind_r. intros order Eo. assert (I : In v order).
  { unfold list_remove in Eo. destruct (mem target (bn_nodes bn)); [|discriminate]. injection Eo as <-. apply In_remove1_ne; [apply H|congruence]. }
  apply na_bind_r. intros [z1 order1] E1. destruct (zeros_evidence v ev _ _ _ _ _ Z X I E1) as [Z1 I1]. cbn [fst snd].
  apply na_bind. exact (na_elim v fz_sum_elim order1 (zeros_elim_sum v) _ z1 Z1 I1).
Qed.
Print Assumptions C147_marginal.
Theorem C147_map : forall bn v ev o target prob, valueless bn v -> no_answer (ve_map o bn ev) /\ no_answer (ve_map_call o bn ev target prob).
Proof.
  intros bn v ev o target prob H. assert (R : no_answer (map_run o bn ev)); [|split; apply na_bind, R].
  unfold map_run. apply na_bind_r. intros z Ez. destruct (zeros_fz_init v bn z H Ez) as [Z X].
  apply na_bind_r. intros [z1 order1] E1. destruct (zeros_evidence v ev _ _ _ _ _ Z X (proj1 H) E1) as [Z1 I1]. cbn [fst snd].
  apply na_bind. exact (na_elim v fz_max_elim order1 (zeros_elim_max v) _ z1 Z1 I1).
Qed.
Print Assumptions C147_map.
(** no sample, from any state of the generator *)
Lemma In_enum {A} (l : list A) x : In x l -> exists j, In (j, x) (enum l).
Proof.
  unfold enum. generalize 0. induction l as [|y l IH]; intros k H; [destruct H|]. destruct H as [-> |H]; cbn [length seq combine]; [exists k; now left|].
  destruct (IH (S k) H) as [j Hj]. exists j. now right.
Qed.
Theorem C147_samples : forall bn v o u n, valueless bn v -> 0 < n ->
  no_answer (forward_sample o bn u n) /\ (forall junk, no_answer (random_sample o bn junk u n)) /\
  (forall d burn, no_answer (gibbs_sample o bn d u n burn)) /\ (forall ev, no_answer (lw_sample o bn ev u n)).
Proof.
  intros bn v o u n [Hv (d & Hd & Hn)] Pn.
  assert (BV : bn_values bn v = Ok []) by (unfold bn_values, getitem; rewrite Hd; cbn [bind]; now rewrite Hn).
  destruct (In_enum (bn_nodes bn) v Hv) as [j Hj]. assert (S0 : In 0 (seq 0 n)) by (apply in_seq; lia).
  split; [|split; [|split]].
  - unfold forward_sample. apply na_bind_r. intros D0 _. apply na_bind. apply na_foldM. exists 0. split; [exact S0|]. intros D. apply na_bind.
    apply na_foldM. exists (j, v). split; [exact Hj|]. intros [D' s]. unfold fs_node. apply na_bind_r. intros p _. rewrite BV. cbn [bind]. intros x E. discriminate.
  - intros junk. unfold random_sample. apply na_mapM. exists 0. split; [exact S0|]. apply na_foldM. exists (j, v). split; [exact Hj|]. intros row. unfold rs_node. apply na_bind_r. intros p _. rewrite BV. cbn [bind]. intros x E. discriminate.
  - intros dr burn. unfold gibbs_sample. apply na_bind_r. intros D0 _. apply na_bind. unfold gs_init. apply na_foldM. exists (j, v). split; [exact Hj|]. intros s. cbn [snd fst]. rewrite BV. cbn [bind]. intros x E. discriminate.
  - intros ev. unfold lw_sample. apply na_bind_r. intros D0 _. apply na_bind. apply na_foldM. exists 0. split; [exact S0|]. intros D. apply na_bind.
    apply na_foldM. exists (j, v). split; [exact Hj|]. intros [s w]. unfold lw_node. apply na_bind_r. intros p _. rewrite BV. destruct (dget ev v); cbn [bind]; intros x E; discriminate.
Qed.
Print Assumptions C147_samples.

(** gibbs_sample draws the initial state before anything else, even for n = 0: ValueError, if every node has an entry *)
Lemma fold_choices_value_error bn (d : nat -> nat) : forall l s, (forall jr, In jr l -> exists vs, bn_values bn (snd jr) = Ok vs) -> (exists jr, In jr l /\ bn_values bn (snd jr) = Ok []) ->
  foldM (fun s jr => do vs <- bn_values bn (snd jr) ;; do x <- np_choice_uniform (d (fst jr)) vs ;; Ok (dset s (snd jr) x)) l s = Raise ValueError.
Proof.
  induction l as [|jr l IH]; intros s H (x & Hx & Ex); [destruct Hx|]. cbn [foldM]. destruct (H jr (or_introl eq_refl)) as [vs Ev]. rewrite Ev. cbn [bind].
  unfold np_choice_uniform at 1. destruct (Nat.eqb_spec (length vs) 0) as [E|E]; [reflexivity|].
  assert (L : d (fst jr) mod length vs < length vs) by (apply Nat.mod_upper_bound; exact E). unfold nget at 1. destruct (nth_error vs _) as [y|] eqn:Ey; [|apply nth_error_None in Ey; lia]. cbn [bind].
  apply IH; [intros z Hz; apply H; now right|]. exists x. destruct Hx as [-> |Hx]; [rewrite Ex in Ev; injection Ev as <-; now destruct E|auto].
Qed.
Theorem C147_gibbs : forall bn v o d u n burn, valueless bn v -> (forall x, In x (bn_nodes bn) -> In x (dkeys (bn_F bn))) ->
  gibbs_sample o bn d u n burn = Raise ValueError.
Proof.
  intros bn v o d u n burn [Hv (nd & Hd & Hn)] Hk.
  assert (BV : bn_values bn v = Ok []) by (unfold bn_values, getitem; rewrite Hd; cbn [bind]; now rewrite Hn).
  assert (All : forall x, In x (bn_nodes bn) -> exists vs, bn_values bn x = Ok vs).
  { intros x Hx. unfold bn_values, getitem. destruct (dget (bn_F bn) x) as [f|] eqn:E; [eexists; reflexivity|]. apply dget_None in E. exfalso. apply E. now apply Hk. }
  unfold gibbs_sample. destruct (empty_tally bn) as [D0|e] eqn:E0.
  - cbn [bind]. unfold gs_init. rewrite fold_choices_value_error; [reflexivity| |].
    + intros jr Hj. apply All. unfold enum in Hj. destruct jr as [j x]. apply in_combine_r in Hj. exact Hj.
    + destruct (In_enum (bn_nodes bn) v Hv) as [j Hj]. exists (j, v). auto.
  - exfalso. assert (T : exists ys, empty_tally bn = Ok ys); [|destruct T; congruence]. clear E0. unfold empty_tally. revert All. generalize (bn_nodes bn). induction l as [|x l IH]; intros All; [eexists; reflexivity|].
    destruct (All x (or_introl eq_refl)) as [vs Ev]. cbn [mapM]. rewrite Ev. cbn [bind]. destruct IH as [ys Ey]; [intros; apply All; now right|]. rewrite Ey. eexists. reflexivity.
Qed.
Print Assumptions C147_gibbs.

(** flat_cpt(by_parents=True) divides by the number of values, whatever the other tables are; flat_cpt itself does not mind *)
Theorem C147_flat : forall bn v, valueless bn v -> (forall x, In x (bn_nodes bn) -> In x (dkeys (bn_F bn))) ->
  flat_cpt_by_parents bn = Raise ZeroDivisionError /\ exists l, flat_cpt bn = Ok l.
Proof.
  intros bn v [Hv (nd & Hd & Hn)] Hk.
  assert (All : forall x, In x (bn_nodes bn) -> exists f, dget (bn_F bn) x = Some f).
  { intros x Hx. destruct (dget (bn_F bn) x) as [f|] eqn:E; [now exists f|]. apply dget_None in E. exfalso. apply E. now apply Hk. }
  unfold flat_cpt_by_parents, flat_cpt. unfold bn_nodes in *. split.
  - match goal with |- bind ?m _ = _ => assert (E : m = Raise ZeroDivisionError); [|rewrite E; reflexivity] end.
    revert Hv All. generalize (bn_V bn) as l. induction l as [|x l IH]; intros Hv All; [destruct Hv|]. destruct (All x (or_introl eq_refl)) as [f Ef]. cbn [mapM].
    assert (E1 : bn_cpt bn x = Ok (f_cptl f)) by (unfold bn_cpt, getitem; now rewrite Ef). assert (E2 : bn_card bn x = Ok (length (f_values f))) by (unfold bn_card, getitem; now rewrite Ef).
    rewrite E1, E2. cbn [bind]. destruct (length (f_values f)) as [|k] eqn:Ek; [reflexivity|]. cbn [Nat.eqb bind].
    destruct Hv as [-> |Hv]; [exfalso; rewrite Hd in Ef; injection Ef as <-; rewrite Hn in Ek; discriminate|].
    rewrite IH; [reflexivity|exact Hv|]. intros z Hz. apply All. now right.
  - clear Hv. assert (T : exists ls, mapM (bn_cpt bn) (bn_V bn) = Ok ls); [|destruct T as [ls ->]; eexists; reflexivity]. revert All. generalize (bn_V bn) as l. induction l as [|x l IH]; intros All; [exists []; reflexivity|].
    destruct (All x (or_introl eq_refl)) as [f Ef]. destruct IH as [ls El]; [intros z Hz; apply All; now right|]. cbn [mapM]. assert (E1 : bn_cpt bn x = Ok (f_cptl f)) by (unfold bn_cpt, getitem; now rewrite Ef). rewrite E1. cbn [bind]. rewrite El. eexists. reflexivity.
Qed.
Print Assumptions C147_flat.

(** a coin, and a second node announced with add_edge only *)
Definition exHalf : bayesnet := mkBN [exA; exB] [(exA, [exB]); (exB, [])] [(exA, mkF [] [nm "0"; nm "1"] [qq 2 5; qq 3 5]); (exB, mkF [exA] [] [])].
Example C147_nonvacuous : valueless exHalf exB /\ exA <> exB /\
  marginal_ve_e id_oracle exHalf exA [] = Raise ZeroDivisionError /\ marginal_ve_e id_oracle exHalf exA [(exB, nm "0")] = Raise ZeroDivisionError /\
  ve_map id_oracle exHalf [] = Raise ZeroDivisionError /\ ve_map id_oracle exHalf [(exB, nm "0")] = Raise ZeroDivisionError /\
  marginal_ve_e id_oracle exHalf exB [] = Ok [] /\
  forward_sample id_oracle exHalf (fun _ _ => qq 1 2) 1 = Raise ValueError /\ (forall x, In x (bn_nodes exHalf) -> In x (dkeys (bn_F exHalf))).
Proof.
  split; [split; [simpl; tauto|]; eexists; split; reflexivity|]. split; [discriminate|].
  repeat match goal with |- _ /\ _ => split; [vm_compute; reflexivity|] end. intros x Hx. vm_compute in Hx |- *. exact Hx.
Qed.
