(** ConstraintMain.v -- proofs about resolve_markov_blanket, gs, iamb and the blanket-based orientation steps. *)
From Verif Require Import Py Num BayesNet SpecFactor SpecGraph Graph GraphTheory GraphTopsort GraphNet GraphFacts Data ParamLearn ParamFacts NaiveFacts
  StructScore StructFacts SpecConstraint Constraint ConstraintFacts.
Open Scope nat_scope.

(** a loop whose every step adds some edges to the dict, or raises *)
Lemma safe_collect {A} R (Inv : edict -> Prop) (step : edict -> A -> res edict) (add : A -> name -> name -> Prop) l :
  (forall t d, In t l -> Inv d -> safe R (fun d' => Inv d' /\ forall a b, edge d' a b <-> edge d a b \/ add t a b) (step d t)) ->
  forall d, Inv d -> safe R (fun d' => Inv d' /\ forall a b, edge d' a b <-> edge d a b \/ exists t, In t l /\ add t a b) (foldM step l d).
Proof.
  induction l as [|t r IH]; intros H d Id; simpl.
  - split; [assumption|]. intros a b. split; [tauto|]. intros [?|(t & [] & _)]; assumption.
  - apply (safe_bind _ _ _ _ _ (H t d (or_introl eq_refl) Id)). intros d1 [I1 E1].
    eapply safe_mono; [|apply (IH (fun t' d' Ht => H t' d' (or_intror Ht)) d1 I1)]. intros d2 [I2 E2]. split; [assumption|].
    intros a b. rewrite E2, E1. split.
    + intros [[?|?]|(t' & ? & ?)]; eauto 6.
    + intros [?|(t' & [-> |?] & ?)]; eauto 6.
Qed.
Lemma remove1_filter y l : NoDup l -> remove1 y l = filter (fun v => negb (name_eqb v y)) l.
Proof.
  induction l as [|x r IH]; intros N; simpl; [reflexivity|]. inversion N; subst. destruct (name_eqb_spec x y) as [-> |E].
  - rewrite name_eqb_refl. simpl. symmetry. apply filter_all. intros z Hz. apply negb_true_iff, name_eqb_neq. intros ->. contradiction.
  - destruct (name_eqb_spec y x); [congruence|]. simpl. now rewrite IH.
Qed.
Lemma remove1_rest l y r : NoDup l -> rest_of l y r -> remove1 y l = r.
Proof.
  intros N (a & b & -> & ->). induction a as [|x a IH]; simpl.
  - now rewrite name_eqb_refl.
  - inversion N; subst. destruct (name_eqb_spec y x) as [-> |E]; [exfalso; apply H1, in_app_iff; right; now left|]. now rewrite IH.
Qed.
Lemma rest_exists l y : In y l -> exists r, rest_of l y r.
Proof. intros H. apply in_split in H as (a & b & ->). exists (a ++ b), a, b. auto. Qed.

(** ** resolve_markov_blanket *)
Section Resolve.
Variables (test : ptest) (alpha : Qc) (n : nat) (Mb : edict).
Hypothesis Mb_dkeys : dkeys Mb = columns n.
Hypothesis Mb_keys : forall x, In x (columns n) -> exists l, dget Mb x = Some l /\ NoDup l /\ incl l (columns n).

Lemma direct_ok X Y T : safe (raised test) (fun b => b = true <-> forall s, sublist s T -> length s < length T -> ~ indep test alpha X Y s) (direct test alpha X Y T).
Proof.
  unfold direct.
  assert (G : forall L b0, safe (raised test) (fun b => b = true <-> b0 = true /\ forall s, In s L -> ~ indep test alpha X Y s)
    (foldM (fun b s => do p <- test (X :: Y :: s) ;; Ok (if p_gt p alpha then false else b)) L b0)).
  { induction L as [|s L IH]; intros b0; simpl; [split; [intros H; split; [assumption|intros s []]|tauto]|].
    destruct (test (X :: Y :: s)) as [p|e] eqn:E; simpl; [|exists (X :: Y :: s); exact E].
    eapply safe_mono; [|apply IH]. intros b Hb. rewrite Hb. pose proof (p_gt_indep _ alpha _ _ _ _ E) as G. destruct (p_gt p alpha).
    - split; [intros [H _]; discriminate|]. intros [_ H]. exfalso. apply (H s); [now left|]. now apply G.
    - split.
      + intros [H K]. split; [assumption|]. intros s' [<-|Hs']; [|now apply K]. intros HI. apply G in HI. discriminate.
      + intros [H K]. split; [assumption|]. intros s' Hs'. apply K. now right. }
  eapply safe_mono; [|apply G]. intros b Hb. rewrite Hb. split.
  - intros [_ H] s Hs L. apply H, in_flat_map. exists (length s). split; [apply in_seq; lia|]. apply In_combs. auto.
  - intros H. split; [reflexivity|]. intros s Hs. apply in_flat_map in Hs as (i & Hi & Hs). apply in_seq in Hi. apply In_combs in Hs as [Hs L]. apply H; [assumption|lia].
Qed.
Definition res_inv (E : edict) : Prop := dkeys E = columns n /\ lists_ok E /\ forall x y, edge E x y -> edge E y x.
Definition pair_of (X Y a b : name) : Prop := (a = X /\ b = Y) \/ (a = Y /\ b = X).
Lemma resolve_pair_ok X Y E : In X (columns n) -> edge Mb X Y -> res_inv E ->
  safe (raised test) (fun E' => res_inv E' /\ forall a b, edge E' a b <-> edge E a b \/ (linked test alpha Mb X Y /\ pair_of X Y a b)) (resolve_pair test alpha Mb X E Y).
Proof.
  intros HX HM (K & L & Sy). destruct (Mb_keys X HX) as (mx & Dx & Nx & Ix).
  assert (HY : In Y (columns n)). { apply (edge_get _ _ _ _ Dx) in HM. auto. }
  destruct (Mb_keys Y HY) as (my & Dy & Ny & Iy). unfold resolve_pair, smaller, getitem at 1 2. rewrite Dx, Dy. cbn [bind].
  set (T := if length mx <? length my then remove1 Y mx else remove1 X my).
  assert (HT : forall T', smaller_blanket Mb X Y T' <-> T' = T).
  { intros T'. unfold smaller_blanket, T. rewrite !remove1_filter by assumption. split.
    - intros (a & b & Da & Db & ->). rewrite Dx in Da. rewrite Dy in Db. injection Da as <-. injection Db as <-. reflexivity.
    - intros ->. exists mx, my. auto. }
  apply (safe_bind _ _ _ _ _ (direct_ok X Y T)). intros b Hb.
  assert (HL : linked test alpha Mb X Y <-> b = true).
  { rewrite Hb. unfold linked. split; [intros [_ H]; apply H; now apply HT|]. intros H. split; [assumption|]. intros T' HT'. apply HT in HT'. now subst. }
  destruct b; cbn [negb].
  2: { split; [split; [assumption|split; assumption]|]. intros a b. split; [tauto|]. intros [H|[H _]]; [assumption|]. apply HL in H. discriminate. }
  destruct (getitem_keys E X) as (ex & Gx & Ex); [now rewrite K|]. rewrite Gx. cbn [bind].
  assert (P1 : exists E1, (if mem Y ex then Ok E else do ey <- getitem E Y ;; if mem X ey then Ok E else dappend E X Y) = Ok E1 /\ dkeys E1 = dkeys E /\ lists_ok E1 /\
     (forall a b, edge E1 a b <-> edge E a b \/ (a = X /\ b = Y))).
  { destruct (put_sp E X Y) as (E1 & P1 & K1 & L1 & Ed1); [now rewrite K|assumption|]. exists E1. split; [|auto]. unfold put in P1. rewrite Gx in P1. cbn [bind] in P1.
    destruct (mem_spec Y ex) as [H|H]; [assumption|]. destruct (getitem_keys E Y) as (ey & Gy & Ey); [now rewrite K|]. rewrite Gy. cbn [bind].
    destruct (mem_spec X ey) as [H'|H']; [|assumption]. exfalso. apply H. apply (edge_get _ _ _ _ Ex). apply Sy. eexists; eauto. }
  destruct P1 as (E1 & -> & K1 & L1 & Ed1). cbn [bind].
  destruct (put_sp E1 Y X) as (E2 & P2 & K2 & L2 & Ed2); [now rewrite K1, K|assumption|]. rewrite P2. cbn [safe].
  assert (Ed : forall a b, edge E2 a b <-> edge E a b \/ pair_of X Y a b). { intros a b. rewrite Ed2, Ed1. unfold pair_of. tauto. }
  split.
  - split; [congruence|]. split; [assumption|]. intros a b H. apply Ed in H. apply Ed. unfold pair_of in *. destruct H as [H|H]; [left; auto|right; tauto].
  - intros a b. rewrite Ed. tauto.
Qed.
Lemma edgeless_lists m : lists_ok (edgeless m).
Proof. intros x l H. apply edgeless_get in H. subst. constructor. Qed.
Lemma resolve_ok : safe (raised test) (fun E => res_inv E /\ forall a b, edge E a b <-> linked test alpha Mb a b \/ linked test alpha Mb b a)
  (resolve_markov_blanket test alpha n Mb).
Proof.
  unfold resolve_markov_blanket.
  eapply safe_mono; [|apply (safe_collect (raised test) res_inv _ (fun X a b => exists Y, linked test alpha Mb X Y /\ pair_of X Y a b) (columns n))].
  - intros E [I Ed]. split; [assumption|]. intros a b. rewrite Ed. split.
    + intros [H|(X & HX & Y & Lk & [[-> ->]|[-> ->]])]; [now apply edgeless_edge in H|now left|now right].
    + intros [Lk|Lk]; right.
      * exists a. split; [|exists b; split; [assumption|now left]]. destruct Lk as [(l & D & H) _].
        apply dget_Some_In in D. now rewrite Mb_dkeys in D.
      * exists b. split; [|exists a; split; [assumption|now right]]. destruct Lk as [(l & D & H) _]. apply dget_Some_In in D. now rewrite Mb_dkeys in D.
  - intros X E HX HE. destruct (Mb_keys X HX) as (mx & Dx & Nx & Ix). unfold getitem at 1. rewrite Dx. cbn [bind].
    eapply safe_mono; [|apply (safe_collect (raised test) res_inv _ (fun Y a b => linked test alpha Mb X Y /\ pair_of X Y a b) mx); [|assumption]].
    + intros E' [I' Ed']. split; [assumption|]. intros a b. rewrite Ed'. split.
      * intros [?|(Y & _ & ?)]; eauto.
      * intros [?|(Y & Lk & Hp)]; [auto|]. right. exists Y. split; [|auto]. destruct Lk as [HM _]. now apply (edge_get _ _ _ _ Dx) in HM.
    + intros Y E0 HY H0. apply resolve_pair_ok; [assumption| |assumption]. eexists; eauto.
  - split; [apply edgeless_keys|]. split; [apply edgeless_lists|]. intros x y H. now apply edgeless_edge in H.
Qed.
End Resolve.

(** ** gs: growing and shrinking *)
Section GS.
Variables (test : ptest) (alpha : Qc) (n : nat) (X : name).
Definition cand_ok (s : list name) : Prop := NoDup s /\ incl s (columns n) /\ ~ In X s.
Lemma cand_snoc s Y : cand_ok s -> In Y (columns n) -> Y <> X -> ~ In Y s -> cand_ok (s ++ [Y]).
Proof.
  intros (N & Inc & Nx) HY NYX NY. split; [|split].
  - apply NoDup_app_intro; [assumption|repeat constructor; intros []|]. intros z Hz [-> |[]]. contradiction.
  - intros z Hz. apply in_app_iff in Hz as [Hz|[<-|[]]]; auto.
  - rewrite in_app_iff. intros [?|[?|[]]]; auto.
Qed.
Lemma grow_pass_ok s : cand_ok s ->
  safe (raised test) (fun st : list name * bool => cand_ok (fst st) /\
     if snd st then length s < length (fst st) else fst st = s /\ forall Y, In Y (columns n) -> Y <> X -> ~ In Y s -> ~ dep test alpha X Y s)
    (grow_pass test alpha n X s).
Proof.
  intros C. unfold grow_pass.
  assert (G : forall l (st : list name * bool), incl l (columns n) -> cand_ok (fst st) -> length s <= length (fst st) -> (snd st = true -> length s < length (fst st)) ->
    (snd st = false -> fst st = s) ->
    safe (raised test) (fun st' : list name * bool => cand_ok (fst st') /\ length s <= length (fst st') /\ (snd st' = true -> length s < length (fst st')) /\
      (snd st' = false -> snd st = false /\ fst st' = s /\ forall Y, In Y l -> Y <> X -> ~ In Y s -> ~ dep test alpha X Y s))
    (foldM (fun (st : list name * bool) Y => if name_eqb X Y || mem Y (fst st) then Ok st else
      do p <- test (X :: Y :: fst st) ;; Ok (if p_lt p alpha then (fst st ++ [Y], true) else st)) l st)).
  { induction l as [|Y l IH]; intros st Inc Cs Le Ht Hf; cbn [foldM].
    - cbn [safe]. split; [assumption|]. split; [assumption|]. split; [assumption|]. intros F. split; [assumption|]. split; [auto|]. intros Y [].
    - assert (Incl : incl l (columns n)) by (intros z Hz; apply Inc; now right).
      destruct (name_eqb_spec X Y) as [EX|NX]; [|destruct (mem_spec Y (fst st)) as [HY|HY]]; cbn [orb].
      + cbn [bind]. eapply safe_mono; [|apply IH; assumption]. intros st' (A1 & A2 & A3 & A4). split; [assumption|]. split; [assumption|]. split; [assumption|].
        intros F. destruct (A4 F) as (B1 & B2 & B3). split; [assumption|]. split; [assumption|]. intros Z [<-|HZ] NZ; [congruence|auto].
      + cbn [bind]. eapply safe_mono; [|apply IH; assumption]. intros st' (A1 & A2 & A3 & A4). split; [assumption|]. split; [assumption|]. split; [assumption|].
        intros F. destruct (A4 F) as (B1 & B2 & B3). split; [assumption|]. split; [assumption|]. intros Z [<-|HZ] NZ; [|auto]. intros N. rewrite (Hf B1) in HY. contradiction.
      + destruct (test (X :: Y :: fst st)) as [p|e] eqn:T; cbn [bind]; [|exists (X :: Y :: fst st); exact T].
        destruct (p_lt p alpha) eqn:P.
        * eapply safe_mono; [|apply (IH (fst st ++ [Y], true)); cbn [fst snd]; [assumption| | | |]].
          { cbn [fst snd]. intros st' (A1 & A2 & A3 & A4). split; [assumption|]. split; [assumption|]. split; [assumption|]. intros F. destruct (A4 F) as (B1 & _). discriminate. }
          { apply cand_snoc; [assumption|apply Inc; now left|congruence|assumption]. }
          { rewrite app_length. lia. }
          { intros _. rewrite app_length. simpl. lia. }
          { discriminate. }
        * eapply safe_mono; [|apply IH; assumption]. intros st' (A1 & A2 & A3 & A4). split; [assumption|]. split; [assumption|]. split; [assumption|].
          intros F. destruct (A4 F) as (B1 & B2 & B3). split; [assumption|]. split; [assumption|]. intros Z [<-|HZ] NZ; [|auto]. intros _ HD.
          rewrite (Hf B1) in T. apply (p_lt_dep _ _ _ _ _ _ T) in HD. congruence. }
  eapply safe_mono; [|apply (G (columns n) (s, false)); cbn [fst snd]; [intros z Hz; exact Hz|assumption|lia|discriminate|reflexivity]].
  intros st (A1 & A2 & A3 & A4). cbn [fst snd] in A4. split; [assumption|]. destruct (snd st); [auto|]. destruct (A4 eq_refl) as (_ & B2 & B3). auto.
Qed.
Definition grown (s : list name) : Prop := cand_ok s /\ forall Y, In Y (columns n) -> Y <> X -> ~ In Y s -> ~ dep test alpha X Y s.
Lemma grow_ok : forall fuel s, cand_ok s -> n < fuel + length s -> safe (raised test) grown (grow fuel test alpha n X s).
Proof.
  induction fuel as [|f IH]; intros s C F.
  - exfalso. destruct C as (N & Inc & _). pose proof (length_le_columns n s N Inc). lia.
  - cbn [grow]. apply (safe_bind _ _ _ _ _ (grow_pass_ok s C)). intros st [C' H]. destruct (snd st).
    + apply IH; [assumption|lia].
    + destruct H as [-> H]. split; assumption.
Qed.
Lemma shrink_pass_ok s : NoDup s ->
  safe (raised test) (fun st : list name * bool => if snd st then exists y r, rest_of s y r /\ ~ dep test alpha X y r
                                else fst st = s /\ forall y r, rest_of s y r -> dep test alpha X y r) (shrink_pass test alpha X s).
Proof.
  intros N. unfold shrink_pass.
  assert (G : forall l (st : list name * bool), incl l s -> safe (raised test) (fun st' : list name * bool =>
     if snd st' then snd st = true \/ exists y r, rest_of s y r /\ ~ dep test alpha X y r
     else snd st = false /\ fst st' = fst st ++ l /\ forall y r, In y l -> rest_of s y r -> dep test alpha X y r)
     (foldM (fun (st : list name * bool) Y => do p <- test (X :: Y :: remove1 Y s) ;;
         Ok (if p_lt p alpha then (fst st ++ [Y], snd st) else (fst st, true))) l st)).
  { induction l as [|Y l IH]; intros st Inc; cbn [foldM].
    - cbn [safe]. destruct (snd st); [now left|]. split; [reflexivity|]. split; [now rewrite app_nil_r|intros y r []].
    - assert (Incl : incl l s) by (intros z Hz; apply Inc; now right).
      destruct (test (X :: Y :: remove1 Y s)) as [p|e] eqn:T; cbn [bind]; [|exists (X :: Y :: remove1 Y s); exact T].
      destruct (rest_exists s Y) as (r & Hr); [apply Inc; now left|]. pose proof (remove1_rest s Y r N Hr) as ER.
      pose proof (p_lt_dep _ alpha _ _ _ _ T) as PD. rewrite ER in PD. destruct (p_lt p alpha).
      + eapply safe_mono; [|apply IH; assumption]. cbn [fst snd]. intros st' H. destruct (snd st'); [assumption|]. destruct H as [H0 [H1 H2]]. split; [assumption|]. split.
        * rewrite H1. now rewrite <- app_assoc.
        * intros y r' [<-|Hy] Hr'; [|eauto]. apply (remove1_rest s Y r' N) in Hr'. rewrite ER in Hr'. subst r'. now apply PD.
      + eapply safe_mono; [|apply IH; assumption]. cbn [fst snd]. intros st' H. destruct (snd st') eqn:E'.
        * destruct H as [_|H]; [|now right]. right. exists Y, r. split; [assumption|]. intros HD. apply PD in HD. discriminate.
        * destruct H as [H _]. discriminate. }
  eapply safe_mono; [|apply (G s ([], false)); intros z Hz; exact Hz]. cbn [fst snd]. intros st H. destruct (snd st).
  - destruct H as [H|H]; [discriminate|assumption].
  - destruct H as (_ & H1 & H2). split; [assumption|]. intros y r Hr. apply H2; [|assumption]. destruct Hr as (a & b & -> & _). apply in_app_iff. right. now left.
Qed.
Lemma shrink_Ok fuel s T : NoDup s -> shrink fuel test alpha X s = Ok T -> T = s /\ forall y r, rest_of s y r -> dep test alpha X y r.
Proof.
  intros N. induction fuel as [|f IH]; cbn [shrink]; [discriminate|]. intros H. apply bind_Ok in H as (st & E & H).
  pose proof (safe_Ok _ _ _ _ (shrink_pass_ok s N) E) as P. cbn beta in P. revert H P. destruct (snd st); [auto|]. intros H P. injection H as <-. assumption.
Qed.
Lemma shrink_stops fuel s : NoDup s -> answers test -> (forall y r, rest_of s y r -> dep test alpha X y r) -> shrink (S fuel) test alpha X s = Ok s.
Proof.
  intros N A H. cbn [shrink]. destruct (safe_raised test _ _ A (shrink_pass_ok s N)) as (st & -> & P). cbn [bind]. destruct (snd st).
  - destruct P as (y & r & Hr & ND). exfalso. eauto.
  - destruct P as [<- _]. reflexivity.
Qed.
Lemma shrink_loops fuel s y r : NoDup s -> answers test -> rest_of s y r -> ~ dep test alpha X y r -> shrink fuel test alpha X s = Raise OutOfFuel.
Proof.
  intros N A Hr ND. induction fuel as [|f IH]; [reflexivity|]. cbn [shrink]. destruct (safe_raised test _ _ A (shrink_pass_ok s N)) as (st & -> & P). cbn [bind].
  destruct (snd st); [assumption|]. destruct P as [_ P]. exfalso. eauto.
Qed.
End GS.

Lemma gs_blankets_ok fuel test alpha n targets Mb : incl targets (columns n) -> gs_blankets fuel test alpha n targets = Ok Mb ->
  dkeys Mb = columns n /\ (forall x l, dget Mb x = Some l -> NoDup l /\ incl l (columns n)) /\
  (forall x, In x targets -> exists s, dget Mb x = Some s /\ blanket test alpha (columns n) x s).
Proof.
  intros Inc. unfold gs_blankets.
  assert (G : forall l M0, incl l (columns n) -> dkeys M0 = columns n -> (forall x l, dget M0 x = Some l -> NoDup l /\ incl l (columns n)) ->
    foldM (fun Mb X => do s <- grow (S n) test alpha n X [] ;; do T <- shrink fuel test alpha X s ;; Ok (dset Mb X T)) l M0 = Ok Mb ->
    dkeys Mb = columns n /\ (forall x l, dget Mb x = Some l -> NoDup l /\ incl l (columns n)) /\
    (forall x, In x l -> exists s, dget Mb x = Some s /\ blanket test alpha (columns n) x s) /\
    (forall x, ~ In x l -> dget Mb x = dget M0 x)).
  { induction l as [|X l IH]; intros M0 Il K0 L0 H; cbn [foldM] in H.
    - injection H as <-. split; [assumption|]. split; [assumption|]. split; [intros x []|reflexivity].
    - apply bind_Ok in H as (M1 & E1 & H). apply bind_Ok in E1 as (s & Gs & E1). apply bind_Ok in E1 as (T & Sh & E1). injection E1 as <-.
      assert (HX : In X (columns n)) by (apply Il; now left).
      assert (Gr : grown test alpha n X s).
      { apply (safe_Ok _ _ _ _ (grow_ok test alpha n X (S n) [] (conj (NoDup_nil _) (conj (fun z (h : In z []) => match h with end) (fun h => h))) ltac:(simpl; lia)) Gs). }
      destruct Gr as ((Ns & Is & Xs) & Gr). destruct (shrink_Ok test alpha X fuel s T Ns Sh) as [-> Hd].
      assert (Bl : blanket test alpha (columns n) X s). { split; [assumption|]. split; [assumption|]. split; [assumption|]. split; [assumption|exact Gr]. }
      destruct (IH (dset M0 X s)) as (A1 & A2 & A3 & A4); [intros z Hz; apply Il; now right|rewrite dkeys_dset_in; [assumption|now rewrite K0]| |assumption|].
      { intros x l'. rewrite dget_dset. destruct (name_eqb x X); [intros [= <-]; auto|apply L0]. }
      split; [assumption|]. split; [assumption|]. split.
      + intros x [<-|Hx]; [|auto]. destruct (in_dec name_eq_dec X l) as [HI|HI]; [auto|]. exists s. rewrite A4 by assumption. rewrite dget_dset, name_eqb_refl. auto.
      + intros x Nx. rewrite A4 by (intros H'; apply Nx; now right). rewrite dget_dset. destruct (name_eqb_spec x X) as [-> |_]; [exfalso; apply Nx; now left|reflexivity]. }
  intros H. destruct (G targets (edgeless n) Inc) as (A1 & A2 & A3 & _); [apply edgeless_keys| |assumption|auto].
  intros x l D. apply edgeless_get in D. subst. split; [constructor|intros z []].
Qed.
(** if the shrink phase of some column leaves out something, gs never returns *)
Lemma gs_blankets_loops fuel test alpha n targets X s y r : answers test -> incl targets (columns n) -> In X targets ->
  grow (S n) test alpha n X [] = Ok s -> rest_of s y r -> ~ dep test alpha X y r -> gs_blankets fuel test alpha n targets = Raise OutOfFuel.
Proof.
  intros A Inc HX Gs Hr ND. unfold gs_blankets. generalize (edgeless n) as M0. induction targets as [|Z l IH]; [destruct HX|]. intros M0. cbn [foldM].
  assert (Gz : exists sz, grow (S n) test alpha n Z [] = Ok sz /\ grown test alpha n Z sz).
  { apply (safe_raised test _ _ A). apply grow_ok; [|simpl; lia]. split; [constructor|]. split; [intros z []|intros []]. }
  destruct Gz as (sz & Gz & (Nz & _) & _). rewrite Gz. cbn [bind].
  destruct HX as [-> |HX].
  - rewrite Gs in Gz. injection Gz as <-. rewrite (shrink_loops test alpha X fuel s y r); auto.
  - destruct (shrink fuel test alpha Z sz) as [T|e] eqn:Sh; cbn [bind].
    + apply IH; [intros z Hz; apply Inc; now right|assumption].
    + f_equal. clear - A Nz Sh. revert Sh. induction fuel as [|f IH]; cbn [shrink]; [congruence|].
      destruct (safe_raised test _ _ A (shrink_pass_ok test alpha Z sz Nz)) as (st & -> & P). cbn [bind]. destruct (snd st); [assumption|discriminate].
Qed.

(** ** orient_edges_MB *)
Lemma dremove_safe E x y : In x (dkeys E) -> lists_ok E ->
  safe (fun e => e = ValueError) (fun E' => dkeys E' = dkeys E /\ lists_ok E' /\ sub_edges E' E) (dremove E x y).
Proof.
  intros K L. destruct (getitem_keys _ _ K) as (l & G & D). destruct (in_dec name_eq_dec y l) as [H|H].
  - destruct (dremove_sp E x l y D (L _ _ D) H) as (E' & -> & K' & G' & Ed). cbn [safe]. split; [assumption|]. split; [eapply dremove_lists; eauto|].
    intros a b Hab. now apply Ed in Hab.
  - unfold dremove. rewrite G. cbn [bind]. unfold list_remove. apply mem_false in H. rewrite H. reflexivity.
Qed.
Lemma safe_exn {A} (R R' : exn -> Prop) (P : A -> Prop) m : (forall e, R e -> R' e) -> safe R P m -> safe R' P m.
Proof. destruct m; simpl; auto. Qed.
Lemma set_min_cases a b : set_min a b = a \/ set_min a b = b.
Proof. unfold set_min. destruct (_ && _); auto. Qed.

Section MB.
Variables (test : ptest) (alpha : Qc) (n : nat) (Mb : edict).
Hypothesis Mb_dkeys : dkeys Mb = columns n.
(** some uncoupled meeting has a non-empty conditioning set *)
Definition wide : Prop := exists X Y Z T, In Y (columns n) /\ In Z (columns n) /\ mb_T Mb X Y Z = Ok T /\ T <> [].
Definition mb_exn (e : exn) : Prop := raised test e \/ (e = ValueError /\ wide).
(** D has lost edges of E *)
Definition lost (E D : edict) : Prop := dkeys D = columns n /\ lists_ok D /\ sub_edges D E.
Lemma mb_T_ok X Y Z : In Y (columns n) -> In Z (columns n) -> exists T, mb_T Mb X Y Z = Ok T.
Proof.
  intros HY HZ. destruct (getitem_keys Mb Y) as (my & Gy & _); [now rewrite Mb_dkeys|]. destruct (getitem_keys Mb Z) as (mz & Gz & _); [now rewrite Mb_dkeys|].
  unfold mb_T. rewrite Gy, Gz. cbn [bind]. eauto.
Qed.
Lemma dremove_lost E D x y : wide -> lost E D -> In x (columns n) -> safe mb_exn (lost E) (dremove D x y).
Proof.
  intros Wd (K & L & Se) Hx. eapply safe_exn; [|eapply safe_mono; [|apply dremove_safe; [now rewrite K|assumption]]].
  - intros e ->. right. now split.
  - intros D' (K' & L' & S'). split; [congruence|]. split; [assumption|]. intros a b H. apply Se, S', H.
Qed.
Lemma dremove_there E D x l y : lost E D -> dget D x = Some l -> In y l -> safe mb_exn (lost E) (dremove D x y).
Proof.
  intros (K & L & Se) Dl Hy. destruct (dremove_sp D x l y Dl (L _ _ Dl) Hy) as (D' & -> & K' & G' & Ed). cbn [safe].
  split; [congruence|]. split; [eapply dremove_lists; eauto|]. intros a b H. apply Se. now apply Ed in H.
Qed.
Lemma test_mb cols : safe mb_exn (fun p => test cols = Ok p) (test cols).
Proof. eapply safe_exn; [|apply safe_test]. intros e H. now left. Qed.
Lemma mb_try_ok E D X Y Z s : wide -> lost E D -> In X (columns n) -> In Y (columns n) -> safe mb_exn (lost E) (mb_try test alpha X Y Z D s).
Proof.
  intros Wd HL HX HY. unfold mb_try. apply (safe_bind _ _ _ _ _ (test_mb _)). intros p _.
  destruct (getitem_keys D X) as (ex & Gx & _); [destruct HL as [K _]; now rewrite K|]. rewrite Gx. cbn [bind].
  destruct (mem Y ex); [|assumption]. destruct (p_lt p alpha); now apply dremove_lost.
Qed.
Lemma mb_try0_ok E D X Y Z : lost E D -> In X (columns n) -> In Y (columns n) -> safe mb_exn (lost E) (mb_try0 test alpha X Y Z D).
Proof.
  intros HL HX HY. unfold mb_try0. apply (safe_bind _ _ _ _ _ (test_mb _)). intros p _.
  destruct (getitem_keys D X) as (ex & Gx & Dx); [destruct HL as [K _]; now rewrite K|].
  destruct (getitem_keys D Y) as (ey & Gy & Dy); [destruct HL as [K _]; now rewrite K|].
  destruct (p_lt p alpha); [rewrite Gx|rewrite Gy]; cbn [bind]; [destruct (mem_spec Y ex) as [M|M]|destruct (mem_spec X ey) as [M|M]]; try assumption; eapply dremove_there; eassumption.
Qed.
Lemma mb_meet_ok o E D X Y iZ : lost E D -> In X (columns n) -> In Y (columns n) -> In (snd iZ) (columns n) ->
  safe mb_exn (lost E) (mb_meet o test alpha Mb X Y D iZ).
Proof.
  intros HL HX HY HZ. unfold mb_meet. destruct (mb_T_ok X Y (snd iZ) HY HZ) as (T & ET). rewrite ET. cbn [bind]. destruct (Nat.ltb_spec 0 (length T)) as [LT|LT].
  - assert (Wd : wide) by (exists X, Y, (snd iZ), T; repeat (split; [assumption|]); intros ->; cbn in LT; lia). apply safe_foldM; [assumption|]. intros i D1 _ H1. apply safe_foldM; [assumption|]. intros s D2 _ H2. now apply mb_try_ok.
  - now apply mb_try0_ok.
Qed.
Lemma In_enum {A} (l : list A) p : In p (enum l) -> In (snd p) l.
Proof. unfold enum. destruct p as [i x]. intros H. now apply in_combine_r in H. Qed.
Lemma lost_len E D X l l' : lost E D -> dget E X = Some l -> dget D X = Some l' -> length l' <= length l.
Proof.
  intros (_ & L & Se) DE DD. apply NoDup_incl_length; [eauto|]. intros y Hy. apply (edge_get _ _ _ _ DE), Se. eexists; eauto.
Qed.
Lemma mb_neighbours_ok E X : closed_edges E -> dkeys E = columns n -> In X (columns n) -> forall fuel o pos D L, good o -> lost E D -> length (succs D X) <= L -> pos <= L -> L < fuel + pos ->
  safe mb_exn (lost E) (mb_neighbours fuel o test alpha Mb X pos D).
Proof.
  intros C KE HX. induction fuel as [|f IH]; intros o pos D L Go HL Hlen Hpos F; [lia|]. cbn [mb_neighbours].
  pose proof HL as (K & Ls & Se). destruct (getitem_keys D X) as (ex & Gx & Dx); [now rewrite K|]. rewrite Gx. cbn [bind].
  assert (Le : length ex <= L). { unfold succs in Hlen. now rewrite Dx in Hlen. }
  destruct (nth_error ex pos) as [Y|] eqn:NY; [|assumption].
  assert (P : pos < length ex) by (apply nth_error_Some; congruence). apply nth_error_In in NY.
  assert (Cin : forall z, In z ex -> In z (columns n)). { intros z Hz. rewrite <- KE. apply (proj2 C X), Se. eexists; eauto. }
  destruct (getitem_keys D Y) as (ey & Gy & Dy); [rewrite K; auto|]. rewrite Gy. cbn [bind].
  apply (safe_bind _ (lost D)).
  - apply safe_foldM; [split; [assumption|split; [assumption|now intros ? ?]]|]. intros iZ D1 HZ H1. apply In_enum in HZ.
    apply (Permutation_in _ (good_ask (sub o pos) _ (good_sub _ _ Go))) in HZ. apply In_set_diff in HZ as [HZ _].
    apply mb_meet_ok; auto.
  - intros D' HD'. apply (IH o (S pos) D' L); [assumption| | |lia|lia].
    + destruct HD' as (K' & L' & S'). split; [assumption|]. split; [assumption|]. intros a b H. apply Se, S', H.
    + unfold succs. destruct (dget D' X) as [l'|] eqn:D'X; [|simpl; lia]. pose proof (lost_len D D' X ex l' HD' Dx D'X). lia.
Qed.
Lemma orient_edges_MB_ok o E : good o -> closed_edges E -> dkeys E = columns n -> lists_ok E -> safe mb_exn (lost E) (orient_edges_MB o test alpha Mb E).
Proof.
  intros Go C KE L. unfold orient_edges_MB. apply safe_foldM; [split; [assumption|split; [assumption|now intros ? ?]]|].
  intros iX D HX HD. apply In_enum in HX. rewrite KE in HX. eapply mb_neighbours_ok; eauto; try lia. now apply good_sub.
Qed.
(** without an uncoupled meeting nothing is oriented *)
Lemma orient_edges_MB_coupled o E : good o -> closed_edges E -> (forall x y z, edge E x y -> edge E x z -> z <> y -> edge E y z) -> orient_edges_MB o test alpha Mb E = Ok E.
Proof.
  intros Go C H. unfold orient_edges_MB.
  assert (G : forall l D, (forall p, In p l -> In (snd p) (dkeys E)) -> D = E -> foldM (fun E iX => mb_neighbours (S (length (succs E (snd iX)))) (sub o (fst iX)) test alpha Mb (snd iX) 0 E) l D = Ok E).
  2: { apply G; [|reflexivity]. intros p. apply In_enum. }
  induction l as [|iX l IH]; intros D Hl ->; [reflexivity|]. cbn [foldM].
  assert (N : forall fuel pos, length (succs E (snd iX)) < fuel + pos -> pos <= length (succs E (snd iX)) -> mb_neighbours fuel (sub o (fst iX)) test alpha Mb (snd iX) pos E = Ok E).
  { destruct (getitem_keys E (snd iX)) as (ex & Gx & Dx); [apply Hl; now left|]. unfold succs. rewrite Dx.
    induction fuel as [|f IHf]; intros pos Hf Hp; [lia|]. cbn [mb_neighbours]. rewrite Gx. cbn [bind].
    destruct (nth_error ex pos) as [Y|] eqn:NY; [|reflexivity]. assert (P : pos < length ex) by (apply nth_error_Some; congruence). apply nth_error_In in NY.
    assert (Exy : edge E (snd iX) Y) by (eexists; eauto). destruct (getitem_keys E Y) as (ey & Gy & Dy); [now apply (proj2 C) in Exy|]. rewrite Gy. cbn [bind].
    assert (ES : set_diff ex (Y :: ey) = []).
    { destruct (set_diff ex (Y :: ey)) as [|z r] eqn:S; [reflexivity|]. exfalso. assert (Hz : In z (set_diff ex (Y :: ey))) by (rewrite S; now left).
      apply In_set_diff in Hz as [Hz Nz]. apply Nz. destruct (name_eq_dec z Y) as [-> |NE]; [now left|]. right. apply (edge_get _ _ _ _ Dy).
      apply (H (snd iX) Y z Exy); [eexists; eauto|assumption]. }
    rewrite ES. pose proof (good_ask (sub (sub o (fst iX)) pos) [] (good_sub _ _ (good_sub _ _ Go))) as Pn. apply Permutation_sym, Permutation_nil in Pn. rewrite Pn. cbn [enum length seq combine foldM bind].
    apply IHf; lia. }
  rewrite N by lia. cbn [bind]. apply IH; [|reflexivity]. intros p Hp. apply Hl. now right.
Qed.
(** ** orient_edges_gs2 *)
Definition gs2_inv (E d : edict) : Prop := dkeys d = columns n /\ lists_ok d /\ forall a b, edge d a b -> uncoupled E a b.
Lemma gs2_meets_ok E X Y o : In X (columns n) -> In Y (columns n) -> edge E X Y -> forall zs k d, gs2_inv E d ->
  (forall z, In z zs -> In z (columns n) /\ edge E X z /\ z <> Y /\ ~ edge E Y z) -> safe (raised test) (gs2_inv E) (gs2_meets o test alpha Mb X Y k zs d).
Proof.
  intros HX HY EXY. induction zs as [|Z r IH]; intros k d I Hz; cbn [gs2_meets]; [assumption|].
  destruct (Hz Z (or_introl eq_refl)) as (HZ & Z1 & Z2 & Z3). destruct I as (K & L & U).
  destruct (put_sp d X Y) as (d1 & P1 & K1 & L1 & Ed1); [now rewrite K|assumption|]. rewrite P1. cbn [bind].
  assert (I1 : gs2_inv E d1). { split; [congruence|]. split; [assumption|]. intros a b H. apply Ed1 in H as [H|[-> ->]]; [auto|]. split; [assumption|]. eauto. }
  destruct (mb_T_ok X Y Z HY HZ) as (T & ->). cbn [bind].
  apply (safe_bind _ (gs2_inv E)).
  - apply safe_foldM; [assumption|]. intros i d2 _ I2. apply safe_foldM; [assumption|]. intros s d3 _ I3.
    apply (safe_bind _ _ _ _ _ (safe_test _ _)). intros p _. destruct I3 as (K3 & L3 & U3).
    destruct (getitem_keys d3 Y) as (dy & Gy & Dy); [now rewrite K3|]. rewrite Gy. cbn [bind].
    destruct (p_lt p alpha); cbn [andb]; [|split; [assumption|split; assumption]]. destruct (mem_spec X dy) as [Hm|Hm]; [|split; [assumption|split; assumption]].
    destruct (dremove_sp d3 Y dy X Dy (L3 _ _ Dy) Hm) as (d4 & -> & K4 & G4 & Ed4). cbn [safe]. split; [congruence|]. split; [eapply dremove_lists; eauto|].
    intros a b H. apply Ed4 in H as [H _]. auto.
  - intros d2 I2. destruct (getitem_keys d2 Y) as (dy & Gy & _); [destruct I2 as [K2 _]; now rewrite K2|]. rewrite Gy. cbn [bind].
    destruct (mem X dy); [assumption|]. apply IH; [assumption|]. intros z Hzr. apply Hz. now right.
Qed.
Lemma orient_edges_gs2_ok o E : good o -> closed_edges E -> dkeys E = columns n -> safe (raised test) (gs2_inv E) (orient_edges_gs2 o test alpha Mb E).
Proof.
  intros Go C KE. unfold orient_edges_gs2. apply safe_foldM.
  - split; [rewrite dkeys_map_pair; assumption|]. split; [intros x c H; apply empties_get in H; subst; constructor|]. intros a b (c & H & Hb). apply empties_get in H. subst. destruct Hb.
  - intros iX d HX Id. apply In_enum in HX. destruct (getitem_keys E (snd iX) HX) as (ex & Gx & Dx). rewrite Gx. cbn [bind].
    apply safe_foldM; [assumption|]. intros iY d1 HY I1. apply In_enum in HY. assert (Exy : edge E (snd iX) (snd iY)) by (eexists; eauto).
    destruct (getitem_keys E (snd iY)) as (ey & Gy & Dy); [now apply (proj2 C) in Exy|]. rewrite Gy. cbn [bind]. cbv zeta.
    apply gs2_meets_ok; [now rewrite <- KE|rewrite <- KE; now apply (proj2 C) in Exy|assumption|assumption|].
    intros z Hz. apply (Permutation_in _ (good_ask _ _ (good_sub _ _ (good_sub _ _ (good_sub _ _ Go))))) in Hz. apply In_set_diff in Hz as [Hz Nz].
    assert (Exz : edge E (snd iX) z) by (eexists; eauto). split; [rewrite <- KE; now apply (proj2 C) in Exz|]. split; [assumption|]. split.
    + intros ->. apply Nz. now left.
    + intros H. apply Nz. right. now apply (edge_get _ _ _ _ Dy).
Qed.
End MB.

(** ** iamb *)
Section IAMB.
Variables (mi test : ptest) (alpha : Qc) (n : nat) (T : name).
Definition im_exn (e : exn) : Prop := raised test e \/ raised mi e.
Lemma iamb_best_ok Mb cands : safe im_exn (fun b => match snd b with Some mx => best_candidate mi T Mb cands mx | None => no_candidate mi T Mb cands end) (iamb_best mi T Mb cands).
Proof.
  unfold iamb_best.
  assert (G : forall l (st : Qc * option name) seen, incl l cands -> (forall x, In x seen -> In x cands) -> (forall x w, In x seen -> mi (x :: T :: Mb) = Ok (Some w) -> (w <= fst st)%Qc) ->
     (match snd st with Some mx => In mx cands /\ mi (mx :: T :: Mb) = Ok (Some (fst st)) /\ (- (1) < fst st)%Qc | None => fst st = (- (1))%Qc end) ->
     safe im_exn (fun b : Qc * option name => (forall x w, In x (seen ++ l) -> mi (x :: T :: Mb) = Ok (Some w) -> (w <= fst b)%Qc) /\
       match snd b with Some mx => In mx cands /\ mi (mx :: T :: Mb) = Ok (Some (fst b)) /\ (- (1) < fst b)%Qc | None => fst b = (- (1))%Qc end)
       (foldM (fun (st : Qc * option name) X => do v <- mi (X :: T :: Mb) ;;
          Ok (if p_gt v (fst st) then (match v with Some q => q | None => 0%Qc end, Some X) else st)) l st)).
  { induction l as [|X l IH]; intros st seen Inc Ins Hs Hb; cbn [foldM].
    - cbn [safe]. rewrite app_nil_r. auto.
    - destruct (mi (X :: T :: Mb)) as [v|e] eqn:E; cbn [bind]; [|right; exists (X :: T :: Mb); exact E].
      replace (seen ++ X :: l) with ((seen ++ [X]) ++ l) by (rewrite <- app_assoc; reflexivity).
      assert (Inc' : incl l cands) by (intros z Hz; apply Inc; now right).
      assert (Ins' : forall x, In x (seen ++ [X]) -> In x cands). { intros x Hx. apply in_app_iff in Hx as [Hx|[<-|[]]]; [auto|apply Inc; now left]. }
      destruct (p_gt v (fst st)) eqn:P.
      + apply p_gt_true in P as (q & -> & Hq). apply IH; try assumption; cbn [fst snd].
        * intros x w Hx Hw. apply in_app_iff in Hx as [Hx|[<-|[]]].
          { apply Qcle_trans with (fst st); [eauto|]. now apply Qclt_le_weak. }
          { rewrite E in Hw. injection Hw as <-. apply Qcle_refl. }
        * split; [apply Inc; now left|]. split; [assumption|]. destruct (snd st); [destruct Hb as (_ & _ & Hb); now apply Qclt_trans with (fst st)|now rewrite <- Hb].
      + apply IH; try assumption. intros x w Hx Hw. apply in_app_iff in Hx as [Hx|[<-|[]]]; [eauto|]. rewrite E in Hw. injection Hw as ->.
        unfold p_gt in P. apply Qcnot_lt_le. intros HL. apply qltb_lt in HL. congruence. }
  eapply safe_mono; [|apply (G cands ((- (1))%Qc, None) []); cbn [fst snd]; [intros z Hz; exact Hz|intros x []|intros x w []|reflexivity]].
  intros b [H1 H2]. simpl app in H1. destruct (snd b) as [mx|].
  - destruct H2 as (A & B & C). split; [assumption|]. exists (fst b). split; [assumption|]. split; [assumption|]. exact H1.
  - intros x w Hx Hw. pose proof (H1 x w Hx Hw) as H. now rewrite H2 in H.
Qed.
Definition imb_ok (m : list name) : Prop := NoDup m /\ incl m (columns n) /\ ~ In T m.
Lemma iamb_grow_ok : forall fuel o m, good o -> imb_ok m -> n < fuel + length m ->
  safe im_exn (fun m' => imb_ok m' /\ incl m m' /\ grow_stopped mi test alpha05 (columns n) T m') (iamb_grow fuel o mi test n T m).
Proof.
  induction fuel as [|f IH]; intros o m Go I F.
  - exfalso. destruct I as (N & Inc & _). pose proof (length_le_columns n m N Inc). lia.
  - cbn [iamb_grow]. cbv zeta. set (cands := ask (sub o f) (set_diff (columns n) (T :: m))).
    assert (HC : forall x, In x cands <-> In x (columns n) /\ x <> T /\ ~ In x m).
    { intros x. unfold cands. assert (P : Permutation (ask (sub o f) (set_diff (columns n) (T :: m))) (set_diff (columns n) (T :: m))) by apply good_ask, good_sub, Go.
      split; intros H; [apply (Permutation_in _ P) in H|apply (Permutation_in _ (Permutation_sym P))]; apply In_set_diff in H || apply In_set_diff; simpl in *; intuition congruence. }
    apply (safe_bind _ _ _ _ _ (iamb_best_ok m cands)). intros b Hb. destruct (snd b) as [mx|].
    2: { cbn [safe]. split; [assumption|]. split; [intros z Hz; exact Hz|]. exists cands. auto. }
    unfold are_independent. destruct (test (mx :: T :: m)) as [p|e] eqn:E; cbn [bind]; [|left; exists (mx :: T :: m); exact E].
    destruct (p_lt p alpha05) eqn:P.
    + assert (HL : In (last cands mx) cands).
      { destruct Hb as [Hb _]. destruct cands as [|c r]; [destruct Hb|]. clear. revert c. induction r as [|d r IH]; intros c; [now left|]. right. apply (IH d). }
      apply HC in HL as (L1 & L2 & L3). eapply safe_mono; [|apply IH; [assumption| |rewrite app_length; simpl; lia]].
      * intros m' (A & B & C). split; [assumption|]. split; [|assumption]. intros z Hz. apply B, in_app_iff. now left.
      * apply (cand_snoc n T); assumption.
    + cbn [safe]. split; [assumption|]. split; [intros z Hz; exact Hz|]. exists cands. split; [assumption|]. right. exists mx. split; [assumption|].
      intros HD. apply (p_lt_dep _ _ _ _ _ _ E) in HD. congruence.
Qed.
(** every column that the shrinking phase removed was DEPENDENT on T given the rest *)
Lemma iamb_shrink_ok : forall fuel o pos m L, good o -> NoDup m -> length m <= L -> pos <= L -> L < fuel + pos ->
  safe (raised test) (fun m' => NoDup m' /\ incl m' m /\ forall x, In x m -> ~ In x m' -> exists r, (forall z, In z r -> In z m /\ z <> x) /\ dep test alpha x T r)
    (iamb_shrink fuel o test alpha T pos m).
Proof.
  induction fuel as [|f IH]; intros o pos m L Go N Hl Hp F; [lia|]. cbn [iamb_shrink].
  destruct (nth_error m pos) as [X|] eqn:NX.
  2: { cbn [safe]. split; [assumption|]. split; [intros z Hz; exact Hz|]. intros x Hx NHx. contradiction. }
  assert (P : pos < length m) by (apply nth_error_Some; congruence). apply nth_error_In in NX.
  set (r := ask (sub o pos) (set_diff m [X])).
  assert (Hr : forall z, In z r -> In z m /\ z <> X).
  { intros z Hz. apply (Permutation_in _ (good_ask _ _ (good_sub _ _ Go))) in Hz. apply In_set_diff in Hz as [Hz Nz]. split; [assumption|]. intros ->. apply Nz. now left. }
  unfold are_independent. destruct (test (X :: T :: r)) as [p|e] eqn:E; cbn [bind]; [|exists (X :: T :: r); exact E].
  destruct (p_lt p alpha) eqn:PL.
  - unfold list_remove. assert (mem X m = true) as -> by now apply mem_In. cbn [bind].
    assert (Len : length (remove1 X m) <= length m). { apply NoDup_incl_length; [now apply Py.NoDup_remove1|]. intros z Hz. eapply Py.remove1_incl; eauto. }
    eapply safe_mono; [|apply (IH o (S pos) (remove1 X m) L); [assumption|now apply Py.NoDup_remove1|lia|lia|lia]].
    intros m' (A & B & C). split; [assumption|]. split; [intros z Hz; eapply Py.remove1_incl; apply B, Hz|].
    intros x Hx Nx. destruct (name_eq_dec x X) as [-> |NE].
    + exists r. split; [assumption|]. now apply (p_lt_dep _ _ _ _ _ _ E).
    + destruct (C x) as (r' & R1 & R2); [apply Py.In_remove1; auto|assumption|]. exists r'. split; [|assumption]. intros z Hz. destruct (R1 z Hz) as [Hm Hne]. split; [|assumption].
      eapply Py.remove1_incl; eauto.
  - cbn [bind]. apply (IH o (S pos) m L); assumption || lia.
Qed.
End IAMB.

Lemma iamb_blankets_ok o mi test alpha n targets : good o -> incl targets (columns n) -> NoDup targets ->
  safe (im_exn mi test) (fun Mb => dkeys Mb = columns n /\ (forall x l, dget Mb x = Some l -> NoDup l /\ incl l (columns n) /\ ~ In x l))
    (iamb_blankets o mi test alpha n targets).
Proof.
  intros Go Inc N. unfold iamb_blankets.
  assert (G : forall l M0, incl (map snd l) (columns n) -> NoDup (map snd l) -> dkeys M0 = columns n -> (forall x l, dget M0 x = Some l -> NoDup l /\ incl l (columns n) /\ ~ In x l) ->
    (forall x, In x (map snd l) -> dget M0 x = Some []) ->
    safe (im_exn mi test) (fun Mb => dkeys Mb = columns n /\ (forall x l, dget Mb x = Some l -> NoDup l /\ incl l (columns n) /\ ~ In x l))
     (foldM (fun Mb iT => do m0 <- getitem Mb (snd iT) ;;
        do m1 <- iamb_grow (S n) (sub (sub o (fst iT)) 0) mi test n (snd iT) m0 ;;
        do m2 <- iamb_shrink (S (length m1)) (sub (sub o (fst iT)) 1) test alpha (snd iT) 0 m1 ;;
        Ok (dset Mb (snd iT) m2)) l M0)).
  { induction l as [|iT l IH]; intros M0 Il Nd K0 L0 E0; cbn [foldM]; [split; assumption|].
    cbn [map] in Il, Nd, E0. inversion Nd as [|? ? Nin Nd']; subst.
    unfold getitem at 1. rewrite (E0 (snd iT)) by now left. cbn [bind].
    apply (safe_bind _ (fun M1 => exists m2, M1 = dset M0 (snd iT) m2 /\ imb_ok n (snd iT) m2)).
    - eapply safe_bind; [apply iamb_grow_ok; [now apply good_sub, good_sub| |simpl; lia]|].
      { split; [constructor|]. split; [intros z []|intros []]. }
      intros m1 ((N1 & I1 & T1) & _ & _). eapply safe_bind.
      { eapply safe_exn; [|apply (iamb_shrink_ok test alpha (snd iT) _ _ 0 m1 (length m1)); [now apply good_sub, good_sub|assumption|lia|lia|lia]]. intros e H. now left. }
      intros m2 (N2 & I2 & _). cbn [safe]. exists m2. split; [reflexivity|]. split; [assumption|]. split; [intros z Hz; apply I1, I2, Hz|]. intros H. apply T1, I2, H.
    - intros M1 (m2 & -> & (N2 & I2 & T2)). apply IH.
      + intros z Hz. apply Il. now right.
      + assumption.
      + rewrite dkeys_dset_in; [assumption|]. rewrite K0. apply Il. now left.
      + intros x l'. rewrite dget_dset. destruct (name_eqb_spec x (snd iT)) as [-> |_]; [intros [= <-]; auto|apply L0].
      + intros x Hx. rewrite dget_dset. destruct (name_eqb_spec x (snd iT)) as [-> |_]; [contradiction|]. apply E0. now right. }
  assert (Es : map snd (enum targets) = targets).
  { unfold enum. assert (forall (a : list name) k, map snd (combine (seq k (length a)) a) = a) as H. { induction a as [|x a IH]; intros k; [reflexivity|]. simpl. now rewrite IH. } apply H. }
  apply G; rewrite ?Es; try assumption.
  - apply edgeless_keys.
  - intros x l D. apply edgeless_get in D. subst. split; [constructor|]. split; [intros z []|intros []].
  - intros x Hx. apply Inc in Hx. unfold columns in Hx. rewrite <- edgeless_keys in Hx. apply In_dget in Hx as (l & D). rewrite D. f_equal. now apply edgeless_get in D.
Qed.
