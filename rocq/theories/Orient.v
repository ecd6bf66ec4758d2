(** Orient.v -- proofs about orient_edges_gs2 (Constraint.v): the exact set of directions it returns. *)
From Verif Require Import Py Num BayesNet SpecFactor SpecGraph Graph GraphTheory GraphTopsort GraphNet GraphFacts Data ParamLearn ParamFacts NaiveFacts
  StructScore StructFacts SpecConstraint Constraint ConstraintFacts ConstraintMain.
Open Scope nat_scope.

Lemma sublist_filter f l : sublist (filter f l) l.
Proof. induction l as [|x r IH]; simpl; [constructor|]. destruct (f x); now constructor. Qed.
Lemma subset_sublist s l : NoDup s -> incl s l -> NoDup l -> exists s', sublist s' l /\ Permutation s' s.
Proof.
  intros Ns I Nl. exists (filter (fun x => mem x s) l). split; [apply sublist_filter|]. apply NoDup_Permutation; [now apply NoDup_filter|assumption|].
  intros x. rewrite filter_In, mem_In. split; [tauto|]. auto.
Qed.
Lemma set_min_cases a b : (incl b a /\ ~ incl a b /\ set_min a b = b) \/ (~ (incl b a /\ ~ incl a b) /\ set_min a b = a).
Proof.
  unfold set_min. destruct (forallb (fun x => mem x a) b && existsb (fun x => negb (mem x b)) a) eqn:F.
  - left. apply andb_true_iff in F as [F1 F2]. rewrite forallb_forall in F1. apply existsb_exists in F2 as (x & Hx & Nx). split; [intros y Hy; apply mem_In; auto|].
    split; [|reflexivity]. intros I. apply I, mem_In in Hx. rewrite Hx in Nx. discriminate.
  - right. split; [|reflexivity]. intros [I N]. apply andb_false_iff in F as [F|F].
    + assert (forallb (fun x => mem x a) b = true); [|congruence]. apply forallb_forall. intros y Hy. apply mem_In. auto.
    + apply N. intros x Hx. destruct (mem x b) eqn:M; [now apply mem_In|]. assert (existsb (fun x => negb (mem x b)) a = true); [|congruence].
      apply existsb_exists. exists x. now rewrite M.
Qed.
Lemma NoDup_set_diff' a b : NoDup (set_diff a b).
Proof. unfold set_diff. apply NoDup_filter, NoDup_dedup. Qed.

Section GS2.
Variables (test : ptest) (alpha : Qc) (n : nat) (Mb : edict).
Hypothesis Mb_dkeys : dkeys Mb = columns n.

Lemma mb_T_spec X Y Z : In Y (columns n) -> In Z (columns n) -> exists T, mb_T Mb X Y Z = Ok T /\ compared Mb X Y Z T /\ NoDup T.
Proof.
  intros HY HZ. destruct (getitem_keys Mb Y) as (my & Gy & Dy); [now rewrite Mb_dkeys|]. destruct (getitem_keys Mb Z) as (mz & Gz & Dz); [now rewrite Mb_dkeys|].
  unfold mb_T. rewrite Gy, Gz. cbn [bind]. eexists. split; [reflexivity|].
  pose proof (NoDup_set_diff' my [X; Z]) as N1. pose proof (NoDup_set_diff' mz [X; Y]) as N2.
  assert (E1 : forall v, In v (set_diff my [X; Z]) <-> edge Mb Y v /\ v <> X /\ v <> Z).
  { intros v. rewrite In_set_diff, (edge_get _ _ _ _ Dy). simpl. intuition congruence. }
  assert (E2 : forall v, In v (set_diff mz [X; Y]) <-> edge Mb Z v /\ v <> X /\ v <> Y).
  { intros v. rewrite In_set_diff, (edge_get _ _ _ _ Dz). simpl. intuition congruence. }
  split; [|destruct (set_min_cases (set_diff my [X; Z]) (set_diff mz [X; Y])) as [(_ & _ & ->)|(_ & ->)]; assumption].
  exists (set_diff my [X; Z]), (set_diff mz [X; Y]). split; [exact E1|]. split; [exact E2|].
  destruct (set_min_cases (set_diff my [X; Z]) (set_diff mz [X; Y])) as [(I1 & I2 & ->)|(I & ->)]; [left|right]; auto.
Qed.

(** the tests of one meeting: Y leaves X's list only by a dependent proper subset *)
Lemma gs2_tests o X Y Z T d : good o -> X <> Y -> In Y (dkeys d) -> lists_ok d ->
  safe (raised test) (fun d' => dkeys d' = dkeys d /\ lists_ok d' /\
      (forall a b, ~ (a = Y /\ b = X) -> edge d' a b <-> edge d a b) /\
      (edge d' Y X <-> edge d Y X /\ ~ dependent_meeting test alpha X Y Z (fun i => ask (sub o (S i)) T)))
    (foldM (fun d i => foldM (fun d s =>
                 do p <- test (Y :: Z :: X :: s) ;;
                 do dy <- getitem d Y ;;
                 if p_lt p alpha && mem X dy then dremove d Y X else Ok d)
               (combs (ask (sub o (S i)) T) i) d) (seq 0 (length T)) d).
Proof.
  intros Go NXY KY L.
  set (inner := fun d s => do p <- test (Y :: Z :: X :: s) ;; do dy <- getitem d Y ;; if p_lt p alpha && mem X dy then dremove d Y X else Ok d).
  assert (A : forall l d, In Y (dkeys d) -> lists_ok d -> safe (raised test) (fun d' => dkeys d' = dkeys d /\ lists_ok d' /\
      (forall a b, ~ (a = Y /\ b = X) -> edge d' a b <-> edge d a b) /\
      (edge d' Y X <-> edge d Y X /\ forall s, In s l -> ~ dep test alpha Y Z (X :: s))) (foldM inner l d)).
  { clear d KY L. induction l as [|s l IH]; intros d KY L; cbn [foldM].
    - split; [reflexivity|]. split; [assumption|]. split; [reflexivity|]. split; [|tauto]. intros H. split; [assumption|]. intros s [].
    - unfold inner at 1. destruct (test (Y :: Z :: X :: s)) as [p|e] eqn:Et; [|exists (Y :: Z :: X :: s); exact Et]. cbn [bind].
      destruct (getitem_keys d Y KY) as (dy & Gy & Dy). rewrite Gy. cbn [bind].
      pose proof (p_lt_dep test alpha Y Z (X :: s) p Et) as PD.
      assert (B : exists d1, (if p_lt p alpha && mem X dy then dremove d Y X else Ok d) = Ok d1 /\ dkeys d1 = dkeys d /\ lists_ok d1 /\
        (forall a b, ~ (a = Y /\ b = X) -> edge d1 a b <-> edge d a b) /\ (edge d1 Y X <-> edge d Y X /\ ~ dep test alpha Y Z (X :: s))).
      { destruct (p_lt p alpha) eqn:P; cbn [andb].
        - destruct (mem_spec X dy) as [Hm|Hm].
          + destruct (dremove_sp d Y dy X Dy (L _ _ Dy) Hm) as (d4 & -> & K4 & G4 & Ed4). exists d4. split; [reflexivity|]. split; [assumption|].
            split; [eapply dremove_lists; eauto|]. split; [intros a b Nab; rewrite Ed4; tauto|]. rewrite Ed4. tauto.
          + exists d. split; [reflexivity|]. split; [reflexivity|]. split; [assumption|]. split; [reflexivity|]. rewrite (edge_get _ _ _ _ Dy). tauto.
        - exists d. split; [reflexivity|]. split; [reflexivity|]. split; [assumption|]. split; [reflexivity|]. split; [|tauto]. intros H. split; [assumption|]. intros Hd. apply PD in Hd. discriminate. }
      destruct B as (d1 & -> & K1 & L1 & E1 & E2). cbn [bind]. eapply safe_mono; [|apply IH; [congruence|assumption]].
      intros d' (K' & L' & E1' & E2'). split; [congruence|]. split; [assumption|]. split; [intros a b Nab; rewrite E1' by assumption; auto|].
      rewrite E2', E2. split.
      + intros [[H1 H2] H3]. split; [assumption|]. intros s' [<-|Hs]; auto.
      + intros [H1 H2]. split; [split; [assumption|apply H2; now left]|]. intros s' Hs. apply H2. now right. }
  assert (B : forall is d, In Y (dkeys d) -> lists_ok d -> safe (raised test) (fun d' => dkeys d' = dkeys d /\ lists_ok d' /\
      (forall a b, ~ (a = Y /\ b = X) -> edge d' a b <-> edge d a b) /\
      (edge d' Y X <-> edge d Y X /\ forall i s, In i is -> sublist s (ask (sub o (S i)) T) -> length s = i -> ~ dep test alpha Y Z (X :: s)))
      (foldM (fun d i => foldM inner (combs (ask (sub o (S i)) T) i) d) is d)).
  { clear d KY L. induction is as [|i is IH]; intros d KY L; cbn [foldM].
    - split; [reflexivity|]. split; [assumption|]. split; [reflexivity|]. split; [|tauto]. intros H. split; [assumption|]. intros i s [].
    - eapply safe_bind; [apply (A (combs (ask (sub o (S i)) T) i) d KY L)|]. intros d1 (K1 & L1 & E1 & E2).
      eapply safe_mono; [|apply IH; [congruence|assumption]]. intros d' (K' & L' & E1' & E2').
      split; [congruence|]. split; [assumption|]. split; [intros a b Nab; rewrite E1' by assumption; auto|]. rewrite E2', E2. clear E2' E2 E1 E1'.
      split.
      + intros [[H1 H2] H3]. split; [assumption|]. intros j s [<-|Hj] Ss Ls; [|exact (H3 j s Hj Ss Ls)]. apply H2. apply In_combs. auto.
      + intros [H1 H2]. split; [split; [assumption|]|].
        * intros s Hs. apply In_combs in Hs as [Hs Ls]. apply (H2 i s); [now left|assumption|assumption].
        * intros j s Hj. apply H2. now right. }
  eapply safe_mono; [|apply (B (seq 0 (length T)) d KY L)]. intros d' (K' & L' & E1' & E2'). split; [assumption|]. split; [assumption|]. split; [assumption|].
  assert (LT : forall i, length (ask (sub o (S i)) T) = length T) by (intros i; apply Permutation_length, good_ask; now apply good_sub).
  rewrite E2'. split; intros [H1 H2]; (split; [assumption|]).
  - intros (s & Ss & Ls & Hd). rewrite LT in Ls. apply (H2 (length s) s); auto. apply in_seq. lia.
  - intros i s Hi Ss Ls Hd. apply in_seq in Hi. apply H2. exists s. rewrite Ls, LT. split; [assumption|]. split; [lia|assumption].
Qed.

Lemma compared_same X Y Z T T' : compared Mb X Y Z T -> compared Mb X Y Z T' -> forall v, In v T <-> In v T'.
Proof.
  intros (a & b & A & B & C) (a' & b' & A' & B' & C').
  assert (Ea : forall v, In v a <-> In v a') by (intros v; rewrite A, A'; reflexivity). assert (Eb : forall v, In v b <-> In v b') by (intros v; rewrite B, B'; reflexivity).
  assert (I1 : incl b a <-> incl b' a') by (unfold incl; split; intros H v Hv; apply Ea, H, Eb, Hv). assert (I2 : incl a b <-> incl a' b') by (unfold incl; split; intros H v Hv; apply Eb, H, Ea, Hv).
  destruct C as [(C1 & C2 & ->)|(C1 & ->)], C' as [(D1 & D2 & ->)|(D1 & ->)]; try assumption; exfalso; tauto.
Qed.
Lemma compared_length X Y Z T L : NoDup T -> compared Mb X Y Z T -> listings Mb X Y Z L -> forall i, Permutation (L i) T.
Proof.
  intros N C (T' & N' & C' & P) i. rewrite (P i). apply NoDup_Permutation; [assumption|assumption|]. now apply (compared_same X Y Z).
Qed.
(** one pair (X, Y) with the elements zs: only the first of them matters *)
Lemma gs2_meets_exact o X Y zs : good o -> X <> Y -> In X (columns n) -> In Y (columns n) -> (forall z, In z zs -> In z (columns n)) ->
  forall k d, dkeys d = columns n -> lists_ok d ->
  safe (raised test) (fun d' => dkeys d' = columns n /\ lists_ok d' /\
      (forall a b, ~ (a = Y /\ b = X) -> edge d' a b <-> edge d a b \/ (zs <> [] /\ a = X /\ b = Y)) /\
      (zs = [] -> edge d' Y X <-> edge d Y X) /\
      (forall z r, zs = z :: r -> exists L, listings Mb X Y z L /\ (edge d' Y X <-> edge d Y X /\ ~ dependent_meeting test alpha X Y z L)))
    (gs2_meets o test alpha Mb X Y k zs d).
Proof.
  intros Go NXY HX HY. induction zs as [|Z r IH]; intros Hz k d K L; cbn [gs2_meets].
  - split; [assumption|]. split; [assumption|]. split; [intros a b _; tauto|]. split; [reflexivity|]. intros z r Er. discriminate.
  - destruct (put_sp d X Y) as (d1 & P1 & K1 & L1 & Ed1); [now rewrite K|assumption|]. rewrite P1. cbn [bind].
    destruct (mb_T_spec X Y Z HY (Hz Z (or_introl eq_refl))) as (T & -> & CT & NT). cbn [bind].
    eapply safe_bind; [apply (gs2_tests (sub o k) X Y Z T d1); [now apply good_sub|assumption|now rewrite K1, K|assumption]|].
    intros d2 (K2 & L2 & E2 & E2'). set (Li := fun i => ask (sub (sub o k) (S i)) T) in *.
    assert (HLi : listings Mb X Y Z Li) by (exists T; split; [assumption|]; split; [assumption|]; intros i; apply good_ask; now do 2 apply good_sub).
    destruct (getitem_keys d2 Y) as (dy & Gy & Dy); [now rewrite K2, K1, K|]. rewrite Gy. cbn [bind].
    assert (E12 : edge d1 Y X <-> edge d Y X). { rewrite Ed1. split; [intros [H|[H _]]; [assumption|congruence]|tauto]. }
    rewrite E12 in E2'.
    destruct (mem_spec X dy) as [Hm|Hm].
    + assert (H : edge d2 Y X) by (apply (edge_get _ _ _ _ Dy); exact Hm). split; [congruence|]. split; [assumption|]. split; [|split; [discriminate|]].
      * intros a b Nab. rewrite E2 by assumption. rewrite Ed1. split; [intros [|[-> ->]]; [tauto|right; split; [discriminate|tauto]]|tauto].
      * intros z r' [= <- <-]. exists Li. split; assumption.
    + assert (H : ~ edge d2 Y X) by (rewrite (edge_get _ _ _ _ Dy); exact Hm).
      eapply safe_mono; [|apply IH; [intros z Hzr; apply Hz; now right|congruence|assumption]]. intros d' (K' & L' & F1 & F2 & F3).
      assert (H' : ~ edge d' Y X). { destruct r as [|z1 r1]; [rewrite F2 by reflexivity; assumption|]. destruct (F3 z1 r1 eq_refl) as (L1' & _ & F). rewrite F. tauto. }
      split; [assumption|]. split; [assumption|]. split; [|split; [discriminate|]].
      * intros a b Nab. rewrite F1 by assumption. rewrite E2 by assumption. rewrite Ed1. split; [intros [[|[-> ->]]|(_ & -> & ->)]; [tauto| |]; right; (split; [discriminate|tauto])|].
        intros [H0|(_ & -> & ->)]; tauto.
      * intros z r' [= <- <-]. exists Li. split; [assumption|]. rewrite <- E2'. tauto.
Qed.

(** the state of the loops: [P x y] when the pair (x, y) has been processed *)
Definition gs2_state (E : edict) (P : name -> name -> Prop) (d : edict) : Prop :=
  dkeys d = columns n /\ lists_ok d /\
  (forall x y, edge d x y -> uncoupled E x y /\ P x y) /\
  (forall x y, uncoupled E x y -> P x y -> ~ (earlier x y /\ P y x /\ uncoupled E y x) -> edge d x y) /\
  (forall x y, uncoupled E x y -> earlier x y -> P y x -> uncoupled E y x ->
     exists z L, edge E y z /\ z <> x /\ ~ edge E x z /\ listings Mb y x z L /\ (edge d x y <-> ~ dependent_meeting test alpha y x z L)).
Lemma gs2_state_ext E P Q d : (forall x y, edge E x y -> P x y <-> Q x y) -> gs2_state E P d -> gs2_state E Q d.
Proof.
  intros H (K & L & A & B & C). split; [assumption|]. split; [assumption|]. split; [|split].
  - intros x y Hxy. destruct (A x y Hxy) as [U p]. split; [assumption|]. apply (H x y (proj1 U)), p.
  - intros x y U q N. apply B; [assumption|apply (H x y (proj1 U)), q|]. intros (e & p & u). apply N. split; [assumption|]. split; [|assumption]. apply (H y x (proj1 u)), p.
  - intros x y U e q u. apply C; try assumption. apply (H y x (proj1 u)), q.
Qed.
Lemma earlier_asym x y : earlier x y -> ~ earlier y x.
Proof. intros (i & j & -> & -> & L) (a & b & [= <-] & [= <-] & L'). lia. Qed.

Lemma gs2_step o E X Y ex ey (P : name -> name -> Prop) d k : good o -> adjacency (columns n) E -> dget E X = Some ex -> dget E Y = Some ey -> In Y ex ->
  (forall y, edge E X y -> P y X -> earlier y X) -> (earlier Y X -> P Y X) -> ~ P X Y ->
  gs2_state E P d ->
  safe (raised test) (gs2_state E (fun x y => P x y \/ (x = X /\ y = Y))) (gs2_meets o test alpha Mb X Y k (ask (sub o 0) (set_diff ex (Y :: ey))) d).
Proof.
  intros Go [KE LE IE SE] Dx Dy HY Early Before NP (K & L & A & B & C).
  assert (Exy : edge E X Y) by (eexists; eauto). assert (NXY : X <> Y) by (intros ->; exact (IE _ Exy)).
  assert (HX : In X (columns n)) by (rewrite <- KE; now apply dget_Some_In in Dx). assert (HYc : In Y (columns n)) by (rewrite <- KE; now apply dget_Some_In in Dy).
  set (zs := ask (sub o 0) (set_diff ex (Y :: ey))).
  assert (Hzs : forall z, In z zs <-> edge E X z /\ z <> Y /\ ~ edge E Y z).
  { intros z. unfold zs. split.
    - intros Hz. apply (Permutation_in _ (good_ask _ _ (good_sub _ _ Go))) in Hz. apply In_set_diff in Hz as [Hz Nz]. rewrite (edge_get _ _ _ _ Dx), (edge_get _ _ _ _ Dy). split; [assumption|].
      split; [intros ->; apply Nz; now left|intros H; apply Nz; now right].
    - intros (H1 & H2 & H3). apply (Permutation_in _ (Permutation_sym (good_ask _ _ (good_sub _ _ Go)))). apply In_set_diff. rewrite (edge_get _ _ _ _ Dx) in H1. rewrite (edge_get _ _ _ _ Dy) in H3.
      split; [assumption|]. intros [e|H]; [congruence|tauto]. }
  assert (UXY : uncoupled E X Y <-> zs <> []).
  { split.
    - intros [_ (z & Hz)] E0. apply Hzs in Hz. rewrite E0 in Hz. destruct Hz.
    - destruct zs as [|z r]; [tauto|]. intros _. split; [assumption|]. exists z. apply Hzs. now left. }
  eapply safe_mono; [|apply (gs2_meets_exact o X Y zs Go NXY HX HYc); [intros z Hz; apply Hzs in Hz as [Hz _]; destruct Hz as (l & Dl & Hz); assert (l = ex) by congruence; subst; destruct (LE _ _ Dx) as [_ I]; auto|assumption|assumption]].
  intros d' (K' & L' & F1 & F0 & F2). split; [assumption|]. split; [assumption|].
  assert (FZ : edge d' Y X -> edge d Y X). { destruct zs as [|z0 r0]; [now apply F0|]. destruct (F2 z0 r0 eq_refl) as (L0 & _ & F). rewrite F. tauto. }
  assert (FX : edge d' X Y <-> uncoupled E X Y).
  { rewrite F1 by (intros [? ?]; congruence). rewrite UXY. split; [|intros H; right; auto]. intros [H|[H _]]; [|assumption]. destruct (A _ _ H) as [_ p]. contradiction. }
  assert (FO : forall a b, ~ (a = Y /\ b = X) -> ~ (a = X /\ b = Y) -> edge d' a b <-> edge d a b). { intros a b N1 N2. rewrite F1 by assumption. tauto. }
  split; [|split].
  - assert (PD : forall a b c e : name, (a = c /\ b = e) \/ ~ (a = c /\ b = e)) by (intros a b c e; destruct (name_eq_dec a c), (name_eq_dec b e); tauto).
    intros x y Hxy. destruct (PD x y X Y) as [[-> ->]|N1]; [split; [now apply FX|now right]|].
    destruct (PD x y Y X) as [[-> ->]|N2]; [apply FZ in Hxy|apply FO in Hxy; [|assumption|assumption]]; apply A in Hxy as [? ?]; (split; [assumption|now left]).
  - intros x y U [p|[-> ->]] N.
    + destruct (name_eq_dec x Y) as [->|nx]; [destruct (name_eq_dec y X) as [->|ny]|].
      * assert (e : earlier Y X) by (apply Early; assumption). assert (E0 : zs = []).
        { destruct zs as [|z0 r0]; [reflexivity|]. exfalso. apply N. split; [assumption|]. split; [right; tauto|]. apply UXY. discriminate. }
        apply (F0 E0). apply B; [assumption|assumption|]. intros (_ & p' & _). contradiction.
      * apply FO; [tauto|intros [? ?]; congruence|]. apply B; [assumption|assumption|]. intros (e & p' & u). apply N. tauto.
      * apply FO; [tauto|intros [-> ->]; contradiction|]. apply B; [assumption|assumption|]. intros (e & p' & u). apply N. tauto.
    + now apply FX.
  - intros x y U e [p|[-> ->]] u.
    + destruct (C x y U e p u) as (z & L0 & Z1 & Z2 & Z3 & Z5 & Z4). exists z, L0. split; [assumption|]. split; [assumption|]. split; [assumption|]. split; [assumption|].
      rewrite <- Z4. apply FO; [|].
      * intros [-> ->]. contradiction.
      * intros [-> ->]. assert (earlier Y X) by (apply Early; assumption). now apply (earlier_asym X Y).
    + assert (HU : zs <> []) by now apply UXY. destruct zs as [|z r] eqn:Ez; [tauto|]. assert (Hz : In z (z :: r)) by now left. apply Hzs in Hz as (Z1 & Z2 & Z3).
      destruct (F2 z r eq_refl) as (L0 & HL0 & F). exists z, L0. split; [assumption|]. split; [assumption|]. split; [assumption|]. split; [assumption|]. rewrite F.
      assert (Hd : edge d Y X). { apply B; [assumption|now apply Before|]. intros (_ & p & _). contradiction. }
      tauto.
Qed.

Definition before_key (k : nat) (x : name) : Prop := exists i, x = NInt i /\ i < k.
Lemma gs2_inner o E X k ex : good o -> adjacency (columns n) E -> X = NInt k -> dget E X = Some ex ->
  forall l ys d, NoDup (ys ++ map snd l) -> incl (map snd l) ex -> incl ys ex ->
  gs2_state E (fun x y => before_key k x \/ (x = X /\ In y ys)) d ->
  safe (raised test) (gs2_state E (fun x y => before_key k x \/ (x = X /\ In y (ys ++ map snd l))))
    (foldM (fun d iY => do ey <- getitem E (snd iY) ;; let o' := sub o (fst iY) in
      gs2_meets o' test alpha Mb X (snd iY) 1 (ask (sub o' 0) (set_diff ex (snd iY :: ey))) d) l d).
Proof.
  intros Go AE EX Dx. induction l as [|iY l IH]; intros ys d ND Il Iy St; cbn [foldM].
  - cbn [safe]. eapply gs2_state_ext; [|exact St]. intros x y _. rewrite app_nil_r. reflexivity.
  - assert (HY : In (snd iY) ex) by (apply Il; now left). assert (Exy : edge E X (snd iY)) by (eexists; eauto).
    destruct (ad_sym _ _ AE _ _ Exy) as (ey & Dy & _). unfold getitem at 1. rewrite Dy. cbn [bind]. cbv zeta.
    eapply safe_bind; [apply (gs2_step (sub o (fst iY)) E X (snd iY) ex ey (fun x y => before_key k x \/ (x = X /\ In y ys)) d 1); try assumption|].
    + now apply good_sub.
    + intros y Hy [(i & -> & Li)|[-> _]]; [exists i, k; auto|]. exfalso. exact (ad_irrefl _ _ AE _ Hy).
    + intros (i & j & -> & Ej & Lij). left. exists i. split; [reflexivity|]. rewrite EX in Ej. injection Ej as <-. assumption.
    + intros [(i & Ei & Li)|[_ H]]; [rewrite EX in Ei; injection Ei as <-; lia|]. simpl in ND. apply NoDup_remove_2 in ND. apply ND. apply in_app_iff. now left.
    + intros d1 St1. simpl map. specialize (IH (ys ++ [snd iY]) d1). rewrite <- app_assoc in IH. simpl app in IH. apply IH.
      * exact ND.
      * intros z Hz. apply Il. now right.
      * intros z Hz. apply in_app_iff in Hz as [Hz|[<-|[]]]; auto.
      * eapply gs2_state_ext; [|exact St1]. intros x y _. cbv beta. rewrite in_app_iff. simpl. intuition congruence.
Qed.
Lemma snd_enum {A} (l : list A) : map snd (enum l) = l.
Proof. unfold enum. generalize 0. induction l as [|x r IH]; intros m; simpl; [reflexivity|]. now rewrite IH. Qed.
Lemma gs2_outer o E : good o -> adjacency (columns n) E ->
  forall m k l d, map snd l = map NInt (seq k m) -> k + m <= n -> gs2_state E (fun x _ => before_key k x) d ->
  safe (raised test) (gs2_state E (fun x _ => before_key (k + m) x))
   (foldM (fun d iX =>
    do ex <- getitem E (snd iX) ;;
    foldM (fun d iY =>
      do ey <- getitem E (snd iY) ;;
      let o' := sub (sub o (fst iX)) (fst iY) in
      gs2_meets o' test alpha Mb (snd iX) (snd iY) 1 (ask (sub o' 0) (set_diff ex (snd iY :: ey))) d) (enum ex) d) l d).
Proof.
  intros Go AE. induction m as [|m IH]; intros k l d El Lk St.
  - destruct l; [|discriminate]. cbn [foldM safe]. now rewrite Nat.add_0_r.
  - destruct l as [|iX l]; [discriminate|]. simpl in El. injection El as EX El. cbn [foldM].
    assert (HX : In (snd iX) (dkeys E)) by (rewrite (ad_keys _ _ AE), EX; apply In_columns; exists k; split; [reflexivity|lia]).
    destruct (getitem_keys E _ HX) as (ex & Gx & Dx). rewrite Gx. cbn [bind].
    eapply safe_bind; [apply (gs2_inner (sub o (fst iX)) E (snd iX) k ex (good_sub _ _ Go) AE EX Dx (enum ex) [] d)|].
    + rewrite snd_enum. exact (proj1 (ad_lists _ _ AE _ _ Dx)).
    + rewrite snd_enum. apply incl_refl.
    + intros z [].
    + eapply gs2_state_ext; [|exact St]. intros x y _. simpl. tauto.
    + intros d1 St1. rewrite <- Nat.add_succ_comm. apply IH; [assumption|lia|]. eapply gs2_state_ext; [|exact St1]. intros x y Hxy. cbv beta. rewrite snd_enum. simpl app. split.
      * intros [(i & -> & Li)|[-> _]]; [exists i; split; [reflexivity|lia]|]. exists k. split; [assumption|lia].
      * intros (i & -> & Li). destruct (Nat.eq_dec i k) as [->|Ni]; [|left; exists i; split; [reflexivity|lia]]. right. split; [congruence|]. rewrite <- EX in Hxy. now apply (edge_get _ _ _ _ Dx).
Qed.
Lemma gs2_exact o E : good o -> adjacency (columns n) E ->
  safe (raised test) (fun D => dkeys D = columns n /\
    (forall x y, edge D x y -> uncoupled E x y) /\
    (forall x y, uncoupled E x y -> ~ (earlier x y /\ uncoupled E y x) -> edge D x y) /\
    (forall x y, uncoupled E x y -> earlier x y -> uncoupled E y x ->
       exists z L, edge E y z /\ z <> x /\ ~ edge E x z /\ listings Mb y x z L /\ (edge D x y <-> ~ dependent_meeting test alpha y x z L)))
    (orient_edges_gs2 o test alpha Mb E).
Proof.
  intros Go AE. unfold orient_edges_gs2. rewrite (ad_keys _ _ AE).
  assert (HE : forall x y, edge E x y -> before_key n x).
  { intros x y (c & Dc & _). apply dget_Some_In in Dc. rewrite (ad_keys _ _ AE) in Dc. now apply In_columns in Dc. }
  eapply safe_mono; [|apply (gs2_outer o E Go AE n 0 (enum (columns n)))].
  - intros D (K & L & A & B & C). split; [assumption|]. split; [intros x y H; now apply A in H|]. split.
    + intros x y U N. apply B; [assumption|exact (HE _ _ (proj1 U))|]. intros (e & _ & u). tauto.
    + intros x y U e u. apply C; try assumption. exact (HE _ _ (proj1 u)).
  - rewrite snd_enum. reflexivity.
  - lia.
  - split; [apply dkeys_map_pair|]. split; [intros x c H; apply empties_get in H; subst; constructor|].
    split; [|split].
    + intros x y (c & H & Hb). apply empties_get in H. subst. destruct Hb.
    + intros x y _ (i & _ & Li). lia.
    + intros x y _ _ (i & _ & Li). lia.
Qed.
End GS2.
