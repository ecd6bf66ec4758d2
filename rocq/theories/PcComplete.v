(** PcComplete.v -- facts used by Properties_Constraint.v: a separable pair is found by pc
    when it is the only separable pair of one of its columns. *)
From Verif Require Import Py Num BayesNet SpecFactor SpecGraph Graph GraphTheory GraphTopsort GraphNet Data ParamLearn
  StructScore StructFacts SpecConstraint Constraint ConstraintFacts.
Open Scope nat_scope.

Lemma foldM_Ok_inv {A S} (I : S -> Prop) (f : S -> A -> res S) : forall l s s', foldM f l s = Ok s' -> I s ->
  (forall s a s', In a l -> f s a = Ok s' -> I s -> I s') -> I s'.
Proof.
  induction l as [|a r IH]; cbn [foldM]; intros s s' E Is H; [now injection E as <-|].
  destruct (f s a) as [s1|] eqn:F; [|discriminate]. cbn [bind] in E. eapply IH; [exact E| |].
  - eapply H; [now left|exact F|exact Is].
  - intros s2 b s3 Hb. apply H. now right.
Qed.
Lemma foldM_Ok_reach {A S} (I K : S -> Prop) (f : S -> A -> res S) a : forall l s s', foldM f l s = Ok s' -> In a l -> I s ->
  (forall s b s', In b l -> f s b = Ok s' -> I s -> I s') ->
  (forall s s', f s a = Ok s' -> I s -> K s') ->
  (forall s b s', In b l -> f s b = Ok s' -> I s -> K s -> K s') -> K s'.
Proof.
  induction l as [|b r IH]; intros s s' E Ha Is HI HK HP; [destruct Ha|]. cbn [foldM] in E.
  destruct (f s b) as [s1|] eqn:F; [|discriminate]. cbn [bind] in E.
  assert (I1 : I s1) by (eapply HI; [now left|exact F|exact Is]).
  destruct Ha as [<- |Ha].
  - assert (K1 : K s1) by (eapply HK; eauto).
    enough (I s' /\ K s') by tauto. eapply (foldM_Ok_inv (fun s => I s /\ K s)); [exact E|auto|].
    intros s2 c s3 Hc Fc [I2 K2]. split; [eapply HI|eapply HP]; try exact Fc; try assumption; now right.
  - eapply (IH s1 s'); [exact E|exact Ha|exact I1| |exact HK|].
    + intros s2 c s3 Hc. apply HI. now right.
    + intros s2 c s3 Hc. apply HP. now right.
Qed.

Section Sep.
Variables (test : ptest) (alpha : Qc) (n : nat) (x y : name) (L : list name).
Hypothesis HL : L = filter (fun v => negb (name_eqb v x)) (columns n).
Hypothesis Hx : In x (columns n).
Hypothesis Hy : In y (columns n).
Hypothesis Nxy : x <> y.
Hypothesis only : forall w z, In w (columns n) -> w <> x -> w <> y -> ~ separates test alpha (columns n) x w z.
Definition gone (st : pc_state) : Prop := ~ edge (fst st) x y.
Definition full (st : pc_state) : Prop := dget (fst st) x = Some L.
Definition J (st : pc_state) : Prop := pc_inv test alpha n st /\ (full st \/ gone st).

Lemma NoDup_L : NoDup L.
Proof. rewrite HL. apply NoDup_filter, NoDup_columns. Qed.
Lemma In_L v : In v L <-> In v (columns n) /\ v <> x.
Proof. rewrite HL, filter_In, negb_true_iff. destruct (name_eqb_spec v x); intuition congruence. Qed.
Lemma length_L : S (length L) = n.
Proof.
  assert (P : Permutation (columns n) (x :: L)).
  { apply NoDup_Permutation; [apply NoDup_columns|constructor; [rewrite In_L; tauto|apply NoDup_L]|].
    intros v. cbn [In]. rewrite In_L. destruct (name_eq_dec v x) as [-> |]; [|intuition congruence]. split; auto. }
  apply Permutation_length in P. rewrite length_columns in P. simpl in P. lia.
Qed.

Lemma pc_try_mono u v st z st' : J st -> In u (columns n) -> In v (columns n) -> u <> v -> cond_ok n u z ->
  pc_try test alpha u v st z = Ok st' -> pc_inv test alpha n st' /\ sub_edges (fst st') (fst st).
Proof.
  intros [I _] Hu Hv Nuv C E. pose proof (pc_try_inv test alpha n u v st z I Hu Hv Nuv C) as S. now rewrite E in S.
Qed.
Lemma pc_try_J u v st z st' : J st -> In u (columns n) -> In v (columns n) -> u <> v -> cond_ok n u z ->
  pc_try test alpha u v st z = Ok st' -> J st'.
Proof.
  intros Js Hu Hv Nuv C E. destruct (pc_try_mono u v st z st' Js Hu Hv Nuv C E) as [I' S']. split; [exact I'|].
  destruct Js as [I [F|G]]; [|right; intros H; now apply G, S'].
  destruct (edge_dec (fst st') x y) as [Ed|Ed]; [left|now right].
  unfold pc_try in E. destruct (mem_spec v z) as [Hz|Hz]; [now injection E as <-|].
  destruct (test (u :: v :: z)) as [p|] eqn:T; [|discriminate]. cbn [bind] in E. destruct (p_gt p alpha) eqn:P; [|now injection E as <-].
  apply (p_gt_indep _ _ _ _ _ _ T) in P. destruct C as (C1 & C2 & C3 & C4).
  destruct I as (A & _ & _). destruct st as [E0 B]. cbn [fst snd] in *. unfold full in *. cbn [fst snd] in *.
  assert (Ku : In u (dkeys E0)) by now rewrite (ad_keys _ _ A). assert (Kv : In v (dkeys E0)) by now rewrite (ad_keys _ _ A).
  destruct (getitem_keys _ _ Ku) as (eu & Gu & Du). rewrite Gu in E. cbn [bind] in E.
  destruct (mem_spec v eu) as [Hin|Hin]; [|injection E as <-; cbn [fst]; exact F].
  destruct (dremove_sp E0 u eu v Du) as (E1 & R1 & K1 & G1 & Ed1); [now apply (ad_lists _ _ A) in Du|assumption|]. rewrite R1 in E. cbn [bind] in E.
  destruct (getitem_keys _ _ Kv) as (ev & Gv & Dv).
  assert (Euv : edge E0 u v) by (eexists; eauto). assert (Evu : edge E0 v u) by now apply (ad_sym _ _ A).
  assert (Hvu : In u ev) by now apply (edge_get E0 v ev u Dv) in Evu.
  assert (D1 : dget E1 v = Some ev). { rewrite G1. destruct (name_eqb_spec v u); [congruence|assumption]. }
  assert (Nv : NoDup ev) by now apply (ad_lists _ _ A) in Dv.
  destruct (dremove_sp E1 v ev u D1 Nv Hvu) as (E2 & R2 & K2 & G2 & Ed2). rewrite R2 in E. cbn [bind] in E. injection E as <-. cbn [fst] in *.
  rewrite G2. destruct (name_eqb_spec x v) as [-> |Nv'].
  { destruct (name_eq_dec u y) as [-> |Ny]; [|exfalso; apply (only u z); auto; unfold separates; auto 10]. apply Ed2 in Ed. tauto. }
  rewrite G1. destruct (name_eqb_spec x u) as [-> |Nu']; [|exact F].
  destruct (name_eq_dec v y) as [-> |Ny]; [|exfalso; apply (only v z); auto; unfold separates; auto 10]. apply Ed2 in Ed as [Ed _]. apply Ed1 in Ed. tauto.
Qed.
Lemma pc_try_gone u v st z st' : J st -> gone st -> In u (columns n) -> In v (columns n) -> u <> v -> cond_ok n u z ->
  pc_try test alpha u v st z = Ok st' -> gone st'.
Proof.
  intros Js G Hu Hv Nuv C E. destruct (pc_try_mono u v st z st' Js Hu Hv Nuv C E) as [_ S']. intros H. now apply G, S'.
Qed.
(** the decisive query *)
Lemma pc_try_hit st z st' : J st -> cond_ok n x z -> ~ In y z -> indep test alpha x y z -> pc_try test alpha x y st z = Ok st' -> gone st'.
Proof.
  intros Js C Nz P E. pose proof Js as [I _]. destruct I as (A & _ & _). unfold pc_try in E. destruct (mem_spec y z) as [Hz|_]; [contradiction|].
  destruct (test (x :: y :: z)) as [p|] eqn:T; [|discriminate]. cbn [bind] in E.
  rewrite (proj2 (p_gt_indep _ _ _ _ _ _ T) P) in E.
  destruct st as [E0 B]. cbn [fst snd] in *. 
  assert (Kx : In x (dkeys E0)) by now rewrite (ad_keys _ _ A). assert (Ky : In y (dkeys E0)) by now rewrite (ad_keys _ _ A).
  destruct (getitem_keys _ _ Kx) as (ex & Gx & Dx). rewrite Gx in E. cbn [bind] in E. unfold gone.
  destruct (mem_spec y ex) as [Hin|Hin].
  - destruct (dremove_sp E0 x ex y Dx) as (E1 & R1 & K1 & G1 & Ed1); [now apply (ad_lists _ _ A) in Dx|assumption|]. rewrite R1 in E. cbn [bind] in E.
    destruct (getitem_keys _ _ Ky) as (ey & Gy & Dy).
    assert (Exy : edge E0 x y) by (eexists; eauto). assert (Eyx : edge E0 y x) by now apply (ad_sym _ _ A).
    assert (Hxy : In x ey) by now apply (edge_get E0 y ey x Dy) in Eyx.
    assert (D1 : dget E1 y = Some ey). { rewrite G1. destruct (name_eqb_spec y x); [congruence|assumption]. }
    assert (Ny : NoDup ey) by now apply (ad_lists _ _ A) in Dy.
    destruct (dremove_sp E1 y ey x D1 Ny Hxy) as (E2 & R2 & K2 & G2 & Ed2). rewrite R2 in E. cbn [bind] in E. injection E as <-. cbn [fst].
    intros H. apply Ed2 in H as [H _]. apply Ed1 in H. tauto.
  - injection E as <-. cbn [fst]. intros H. apply (edge_get E0 x ex y Dx) in H. contradiction.
Qed.

Lemma comb_cond i u st ex z : 0 < i -> J st -> In u (columns n) -> dget (fst st) u = Some ex -> In z (combs ex i) -> cond_ok n u z.
Proof.
  intros Hi [I _] Hu D Hz. destruct I as (A & _ & _). destruct (ad_lists _ _ A _ _ D) as [N Inc]. apply In_combs in Hz as [Hz Lz].
  split; [intros ->; simpl in Lz; lia|]. split; [eapply sublist_NoDup; eauto|]. apply sublist_incl in Hz. split; [intros a Ha; auto|].
  intros H. apply (ad_irrefl _ _ A u). eexists; eauto.
Qed.
Lemma nth_nbr u st ex pos v : J st -> dget (fst st) u = Some ex -> nth_error ex pos = Some v -> In v (columns n) /\ u <> v.
Proof.
  intros [I _] D Nv. destruct I as (A & _ & _). destruct (ad_lists _ _ A _ _ D) as [_ Inc]. apply nth_error_In in Nv. split; [auto|].
  intros <-. apply (ad_irrefl _ _ A u). eexists; eauto.
Qed.
Lemma pc_neighbours_J i u : 0 < i -> In u (columns n) -> forall fuel pos st st', J st -> pc_neighbours fuel test alpha i u pos st = Ok st' ->
  J st' /\ (gone st -> gone st').
Proof.
  intros Hi Hu. induction fuel as [|f IH]; intros pos st st' Js E; [discriminate|]. cbn [pc_neighbours] in E.
  pose proof Js as [(A & _ & _) _].
  destruct (getitem_keys (fst st) u) as (ex & Gx & Dx); [now rewrite (ad_keys _ _ A)|]. rewrite Gx in E. cbn [bind] in E.
  destruct (nth_error ex pos) as [v|] eqn:Nv; [|injection E as <-; auto].
  destruct (nth_nbr u st ex pos v Js Dx Nv) as [Hv Nuv].
  destruct (foldM (pc_try test alpha u v) (combs ex i) st) as [st1|] eqn:F; [|discriminate]. cbn [bind] in E.
  assert (J1 : J st1 /\ (gone st -> gone st1)).
  { apply (foldM_Ok_inv (fun s => J s /\ (gone st -> gone s)) _ _ _ _ F); [auto|].
    intros s z s' Hz Ez [Jz Gz]. pose proof (comb_cond i u st ex z Hi Js Hu Dx Hz) as C. split; [exact (pc_try_J u v s z s' Jz Hu Hv Nuv C Ez)|].
    intros G. exact (pc_try_gone u v s z s' Jz (Gz G) Hu Hv Nuv C Ez). }
  destruct (IH _ _ _ (proj1 J1) E) as [J2 G2]. split; [exact J2|]. intros G. apply G2, J1, G.
Qed.
(** passing through the neighbours of x: y is not overtaken *)
Lemma pc_neighbours_hit i z : 0 < i -> length z = i -> sublist z L -> ~ In y z -> indep test alpha x y z ->
  forall k, nth_error L k = Some y -> forall fuel pos st st', pos <= k -> J st -> pc_neighbours fuel test alpha i x pos st = Ok st' -> gone st'.
Proof.
  intros Hi Lz Sz Nz P k Hk. induction fuel as [|f IH]; intros pos st st' Hp Js E; [discriminate|]. 
  destruct (edge_dec (fst st) x y) as [Ed|Ed]; [|apply (pc_neighbours_J i x Hi Hx _ _ _ _ Js E); exact Ed].
  cbn [pc_neighbours] in E. pose proof Js as [_ [F|G]]; [|contradiction]. unfold full in F. unfold getitem in E. rewrite F in E. cbn [bind] in E.
  destruct (nth_error L pos) as [v|] eqn:Nv.
  2:{ apply nth_error_None in Nv. assert (k < length L) by (apply nth_error_Some; congruence). lia. }
  destruct (nth_nbr x st L pos v Js F Nv) as [Hv Nuv].
  destruct (foldM (pc_try test alpha x v) (combs L i) st) as [st1|] eqn:Fo; [|discriminate]. cbn [bind] in E.
  assert (J1 : J st1).
  { apply (foldM_Ok_inv J _ _ _ _ Fo); [exact Js|]. intros s c s' Hc Ec Jc. exact (pc_try_J x v s c s' Jc Hx Hv Nuv (comb_cond i x st L c Hi Js Hx F Hc) Ec). }
  destruct (Nat.eq_dec pos k) as [-> |Np]; [|apply (IH (S pos) st1 st'); [lia|exact J1|exact E]].
  assert (v = y) by congruence. subst v.
  assert (G1 : gone st1).
  { apply (foldM_Ok_reach J gone (pc_try test alpha x y) z _ _ _ Fo); [apply In_combs; auto|exact Js| | |].
    - intros s c s' Hc Ec Jc. exact (pc_try_J x y s c s' Jc Hx Hy Nxy (comb_cond i x st L c Hi Js Hx F Hc) Ec).
    - intros s s' Es Jz. apply (pc_try_hit s z s' Jz); [apply (comb_cond i x st L z Hi Js Hx F); apply In_combs; auto|exact Nz|exact P|exact Es].
    - intros s c s' Hc Ec Jc Gc. apply (pc_try_gone x y s c s' Jc Gc Hx Hy Nxy); [|exact Ec]. exact (comb_cond i x st L c Hi Js Hx F Hc). }
  now apply (pc_neighbours_J i x Hi Hx _ _ _ _ J1 E).
Qed.
Lemma pc_level_J i st st' : 0 < i -> J st -> pc_level test alpha n i st = Ok st' -> J st' /\ (gone st -> gone st').
Proof.
  intros Hi Js E. unfold pc_level in E. apply (foldM_Ok_inv (fun s => J s /\ (gone st -> gone s)) _ _ _ _ E); [auto|].
  intros s u s' Hu Eu [J1 G1]. destruct (pc_neighbours_J i u Hi Hu _ _ _ _ J1 Eu) as [J2 G2]. auto.
Qed.
Lemma pc_level_hit i z st st' : 0 < i -> length z = i -> sublist z L -> ~ In y z -> indep test alpha x y z -> J st -> pc_level test alpha n i st = Ok st' -> gone st'.
Proof.
  intros Hi Lz Sz Nz P Js E. assert (Hk : exists k, nth_error L k = Some y) by (apply In_nth_error, In_L; auto). destruct Hk as (k & Hk).
  unfold pc_level in E. apply (foldM_Ok_reach J gone (fun st x => pc_neighbours (S n) test alpha i x 0 st) x _ _ _ E); [exact Hx|exact Js| | |].
  - intros s u s' Hu Eu J1. now apply (pc_neighbours_J i u Hi Hu _ _ _ _ J1 Eu).
  - intros s s' Es J1. apply (pc_neighbours_hit i z Hi Lz Sz Nz P k Hk (S n) 0 s s'); [lia|exact J1|exact Es].
  - intros s u s' Hu Eu J1 G1. now apply (pc_neighbours_J i u Hi Hu _ _ _ _ J1 Eu).
Qed.
Lemma pc_levels_J : forall fuel i st st', 0 < i -> J st -> pc_levels fuel test alpha n i st = Ok st' -> gone st -> gone st'.
Proof.
  induction fuel as [|f IH]; intros i st st' Hi Js E G; [discriminate|]. cbn [pc_levels] in E.
  destruct (pc_level test alpha n i st) as [s1|] eqn:E1; [|discriminate]. cbn [bind] in E.
  destruct (pc_level_J i st s1 Hi Js E1) as [J1 G1]. rewrite (adjacency_lens n (fst s1)) in E by apply J1. cbn [bind] in E.
  destruct (existsb _ _); [|injection E as <-; auto]. apply (IH (S i) s1 st'); [lia|exact J1|exact E|auto].
Qed.
Lemma pc_levels_hit z : z <> [] -> sublist z L -> ~ In y z -> indep test alpha x y z ->
  forall fuel i st st', 0 < i -> i <= length z -> J st -> pc_levels fuel test alpha n i st = Ok st' -> gone st'.
Proof.
  intros Nz Sz Ny P. assert (Lz : length z < length L).
  { pose proof (sublist_NoDup _ _ Sz NoDup_L) as N.
    assert (H : length (y :: z) <= length L).
    { apply NoDup_incl_length; [now constructor|]. intros a [<- |Ha]; [apply In_L; auto|now apply (sublist_incl _ _ Sz)]. }
    simpl in H. lia. }
  induction fuel as [|f IH]; intros i st st' Hi Li Js E; [discriminate|]. pose proof E as E'. cbn [pc_levels] in E.
  destruct (pc_level test alpha n i st) as [s1|] eqn:E1; [|discriminate]. cbn [bind] in E.
  destruct (pc_level_J i st s1 Hi Js E1) as [J1 G1]. rewrite (adjacency_lens n (fst s1)) in E by apply J1. cbn [bind] in E.
  destruct (Nat.eq_dec i (length z)) as [-> |Ni].
  { assert (G : gone s1) by exact (pc_level_hit (length z) z st s1 Hi eq_refl Sz Ny P Js E1).
    destruct (existsb _ _); [|injection E as <-; exact G]. apply (pc_levels_J f (S (length z)) s1 st'); [lia|exact J1|exact E|exact G]. }
  destruct (edge_dec (fst s1) x y) as [Ed|Ed].
  - destruct J1 as [I1 [F|G]]; [|contradiction].
    rewrite (proj2 (existsb_exists (fun k => i <? k) _)) in E.
    2:{ exists (length (succs (fst s1) x)). split; [exact (in_map (fun x => length (succs (fst s1) x)) _ _ Hx)|]. unfold succs. unfold full in F. rewrite F. apply Nat.ltb_lt. lia. }
    apply (IH (S i) s1 st'); [lia|lia|split; [exact I1|now left]|exact E].
  - destruct (existsb _ _); [|injection E as <-; exact Ed]. apply (pc_levels_J f (S i) s1 st'); [lia|exact J1|exact E|exact Ed].
Qed.
End Sep.

Lemma complete_dget n i : i < n -> dget (complete n) (NInt i) = Some (filter (fun v => negb (name_eqb v (NInt i))) (columns n)).
Proof.
  intros H. unfold complete, columns.
  assert (G : forall l, In i l -> dget (map (fun i => (NInt i, map NInt (filter (fun j => negb (i =? j)) (seq 0 n)))) l) (NInt i) = Some (map NInt (filter (fun j => negb (i =? j)) (seq 0 n)))).
  { induction l as [|k r IH]; intros Hi; [destruct Hi|]. cbn [map dget]. destruct (name_eqb_spec (NInt i) (NInt k)) as [[= ->]|N]; [reflexivity|].
    apply IH. destruct Hi as [-> |Hi]; [congruence|assumption]. }
  rewrite G by (apply in_seq; lia). clear G. f_equal. induction (seq 0 n) as [|k r IH]; [reflexivity|]. cbn [filter map].
  replace (name_eqb (NInt k) (NInt i)) with (i =? k).
  2:{ destruct (Nat.eqb_spec i k), (name_eqb_spec (NInt k) (NInt i)); congruence. }
  destruct (i =? k); cbn [negb map]; [exact IH|now rewrite IH].
Qed.
Lemma pc_finds test alpha n x y z E B :
  In x (columns n) -> In y (columns n) -> x <> y ->
  (forall w s, In w (columns n) -> w <> x -> w <> y -> ~ separates test alpha (columns n) x w s) ->
  z <> [] -> sublist z (columns n) -> ~ In x z -> ~ In y z -> indep test alpha x y z ->
  pc_skeleton test alpha n = Ok (E, B) -> ~ edge E x y.
Proof.
  intros Hx Hy N only Nz Sz Xz Yz P R. set (L := filter (fun v => negb (name_eqb v x)) (columns n)).
  assert (SL : sublist z L).
  { unfold L. revert Xz. clear - Sz. induction Sz as [l|a z l S IH|a z l S IH]; intros Xz; [constructor| |].
    - cbn [filter]. destruct (name_eqb_spec a x) as [-> |Na]; [exfalso; apply Xz; now left|]. cbn [negb]. constructor. apply IH. intros H. apply Xz. now right.
    - cbn [filter]. destruct (negb (name_eqb a x)); [constructor|]; auto. }
  unfold pc_skeleton in R. change (gone x y (E, B)).
  apply (pc_levels_hit test alpha n x y L eq_refl Hx Hy N only z Nz SL Yz P (S n) 1 (complete n, map (fun i => (NInt i, [])) (seq 0 n)) (E, B)); [| | |exact R].
  - lia.
  - destruct z; [congruence|simpl; lia].
  - split; [apply pc_start_inv|]. left. unfold full. cbn [fst]. apply In_columns in Hx as (i & -> & Hi). now apply complete_dget.
Qed.
