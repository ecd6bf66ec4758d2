(** CliqueInit.v -- creating the factors of the cliques and their potentials. *)
From Verif Require Import Py Num BayesNet Factor SpecFactor Radix SumOver FactorMul FactorOut FactorMore Factorization VE GraphNet Graph CliqueTree SpecClique CliqueFacts.
Open Scope nat_scope.

(** the objects [l] are well-formed and currently denote the factors [fs] *)
Definition holds (cd : name -> nat) (h : fheap) (l : list nat) (fs : list factor) : Prop :=
  Forall2 (fun a f => fload h a = Ok f /\ wf cd f) l fs.

Lemma holds_represents cd h l fs : holds cd h l fs -> represents cd h l (map val fs).
Proof.
  intros H. unfold represents. induction H as [|a f l fs [E W] _ IH]; simpl; constructor; [|exact IH]. exists f. split; [exact E|now apply repr_val].
Qed.
Lemma prod_at_val fs a : prod_at (map val fs) a = prodval fs a.
Proof. unfold prod_at, prodval. now rewrite map_map. Qed.
Lemma holds_scopes cd h l fs v : holds cd h l fs -> (scopes_of h l v <-> in_scopes fs v).
Proof.
  intros H. induction H as [|a f l fs [E W] _ IH].
  - split; [intros (a & f & [] & _)|intros (f & [] & _)].
  - split.
    + intros (b & g & [<-|Hb] & Eb & Hv); [rewrite E in Eb; injection Eb as <-; exists f; split; [now left|assumption]|].
      destruct (proj1 IH) as (g' & Hg & Hv'); [exists b, g; auto|]. exists g'. split; [now right|assumption].
    + intros (g & [<-|Hg] & Hv); [exists a, f; split; [now left|auto]|].
      destruct (proj2 IH) as (b & g' & Hb & Eb & Hv'); [exists g; auto|]. exists b, g'. split; [now right|auto].
Qed.
Lemma holds_frame cd h h' l fs : (forall a, In a l -> fload h' a = fload h a) -> holds cd h l fs -> holds cd h' l fs.
Proof.
  intros K H. induction H as [|a f l fs [E W] _ IH]; constructor.
  - split; [rewrite (K a (or_introl eq_refl)); exact E|exact W].
  - apply IH. intros b Hb. apply K. now right.
Qed.
Lemma holds_length cd h l fs : holds cd h l fs -> length l = length fs.
Proof. intros H. induction H; simpl; congruence. Qed.
Lemma holds_app cd h l m fs gs : holds cd h l fs -> holds cd h m gs -> holds cd h (l ++ m) (fs ++ gs).
Proof. apply Forall2_app. Qed.
Lemma holds_split cd h l m fs : holds cd h (l ++ m) fs -> exists f1 f2, fs = f1 ++ f2 /\ holds cd h l f1 /\ holds cd h m f2.
Proof. intros H. apply Forall2_app_inv_l in H as (f1 & f2 & H1 & H2 & ->). eauto. Qed.

(** ** a new object *)
Lemma falloc_ok h L f : live h L -> let p := falloc h f in
  live (fst p) (snd p :: L) /\ fload (fst p) (snd p) = Ok f /\ snd p = length (h_obj h) /\
  (forall a x, nth_error (h_obj h) a = Some x -> nth_error (h_obj (fst p)) a = Some x) /\
  (forall a g, fload h a = Ok g -> fload (fst p) a = Ok g) /\
  (forall x, wired h x -> wired (fst p) x) /\ length (h_obj (fst p)) = S (length (h_obj h)).
Proof.
  intros Lv. cbn zeta. unfold falloc. cbn [fst snd].
  set (nob := mkO (f_bn f) (f_var f) (length (h_scope h)) (length (h_card h)) (length (h_stride h)) (f_cpt f)).
  set (h' := mkH (h_obj h ++ [nob]) (h_scope h ++ [f_scope f]) (h_card h ++ [f_card f]) (h_stride h ++ [f_stride f])).
  assert (K : forall a x, nth_error (h_obj h) a = Some x -> nth_error (h_obj h') a = Some x) by (intros a x; apply nth_error_app_lt).
  assert (En : nth_error (h_obj h') (length (h_obj h)) = Some nob) by apply nth_error_snoc.
  assert (Wk : forall x, wired h x -> wired h' x).
  { intros x (W1 & W2 & W3). unfold wired, h'. cbn [h_scope h_card h_stride]. rewrite !app_length. simpl. lia. }
  assert (Fresh : forall a, In a L -> a < length (h_obj h)).
  { intros a Ha. destruct (lv_obj _ _ Lv a Ha) as (x & E & _). apply nth_error_Some. congruence. }
  assert (Ap : forall a x, In a L -> nth_error (h_obj h) a = Some x -> apart nob x).
  { intros a x Ha Ex. destruct (lv_obj _ _ Lv a Ha) as (x' & Ex' & (W1 & W2 & W3)). rewrite Ex in Ex'. injection Ex' as <-. unfold apart, nob. cbn [o_scope o_card o_stride]. lia. }
  split; [|split; [|split; [reflexivity|split; [exact K|split; [|split; [exact Wk|]]]]]].
  - constructor.
    + constructor; [intros C; apply Fresh in C; lia|apply Lv].
    + intros a [<-|Ha].
      * exists nob. split; [exact En|]. unfold wired, h', nob. cbn [h_scope h_card h_stride o_scope o_card o_stride]. rewrite !app_length. simpl. lia.
      * destruct (lv_obj _ _ Lv a Ha) as (x & E & Wx). exists x. split; [now apply K|now apply Wk].
    + intros a b x y [<-|Ha] [<-|Hb] N Ex Ey.
      * congruence.
      * rewrite En in Ex. injection Ex as <-. destruct (lv_obj _ _ Lv b Hb) as (y' & E' & _). rewrite (K _ _ E') in Ey. injection Ey as <-. now apply (Ap b).
      * rewrite En in Ey. injection Ey as <-. destruct (lv_obj _ _ Lv a Ha) as (y' & E' & _). rewrite (K _ _ E') in Ex. injection Ex as <-.
        destruct (Ap a y' Ha E') as (A1 & A2 & A3). unfold apart. auto.
      * destruct (lv_obj _ _ Lv a Ha) as (x' & E1 & _), (lv_obj _ _ Lv b Hb) as (y' & E2 & _).
        rewrite (K _ _ E1) in Ex. injection Ex as <-. rewrite (K _ _ E2) in Ey. injection Ey as <-. now apply (lv_apart _ _ Lv a b).
  - unfold fload, cell. rewrite En. cbn [bind nob o_scope o_card o_stride]. unfold h'. cbn [h_scope h_card h_stride]. rewrite !nth_error_snoc. cbn [bind o_bn o_var o_cpt]. now destruct f.
  - intros a g E. unfold fload, cell in *. destruct (nth_error (h_obj h) a) as [ob|] eqn:Eo; [|discriminate]. rewrite (K _ _ Eo). cbn [bind] in *.
    destruct (nth_error (h_scope h) (o_scope ob)) as [sc|] eqn:E1; [|discriminate]. unfold h'. cbn [h_scope h_card h_stride]. rewrite (nth_error_app_lt _ _ _ _ E1). cbn [bind] in *.
    destruct (nth_error (h_card h) (o_card ob)) as [c|] eqn:E2; [|discriminate]. rewrite (nth_error_app_lt _ _ _ _ E2). cbn [bind] in *.
    destruct (nth_error (h_stride h) (o_stride ob)) as [st|] eqn:E3; [|discriminate]. rewrite (nth_error_app_lt _ _ _ _ E3). cbn [bind] in *. exact E.
  - cbn [h_obj h']. rewrite app_length. simpl. lia.
Qed.

(** the factor of a node, as the constructor makes it *)
Definition node_factor (bn : bayesnet) (v : name) (f : factor) : Prop := factor_init bn v = Ok f.

Lemma alloc_loop bn : wfnet bn -> forall nodes h fs0 L, live h (fs0 ++ L) -> incl nodes (bn_V bn) ->
  exists h' fs gs, foldM (fun st v => do f <- factor_init bn v ;; let p := falloc (fst st) f in Ok (fst p, snd st ++ [snd p])) nodes (h, fs0) = Ok (h', fs0 ++ fs) /\
    live h' ((fs0 ++ fs) ++ L) /\ holds (ncard bn) h' fs gs /\ Forall2 (node_factor bn) nodes gs /\
    (forall a x, nth_error (h_obj h) a = Some x -> nth_error (h_obj h') a = Some x) /\
    (forall a g, fload h a = Ok g -> fload h' a = Ok g) /\ (forall x, wired h x -> wired h' x).
Proof.
  intros W. induction nodes as [|v r IH]; intros h fs0 L Lv I.
  - exists h, [], []. rewrite app_nil_r. split; [reflexivity|]. split; [exact Lv|]. split; [constructor|]. split; [constructor|auto].
  - destruct (init_ok bn v W (I v (or_introl eq_refl))) as (f & E & Sc & Va & B & C & Rn & R). cbn [foldM]. rewrite E. cbn [bind fst snd].
    pose proof (falloc_ok h (fs0 ++ L) f Lv) as (L1 & F1 & N1 & O1 & G1 & W1 & Len). destruct (falloc h f) as [h1 a1] eqn:Ea. cbn [fst snd] in *.
    assert (L1' : live h1 ((fs0 ++ [a1]) ++ L)).
    { eapply live_perm; [|exact L1]. rewrite <- app_assoc. simpl. symmetry. apply Permutation_sym. apply Permutation_middle. }
    destruct (IH h1 (fs0 ++ [a1]) L L1') as (h' & fs & gs & E2 & L2 & H2 & N2 & O2 & G2 & W2); [intros x Hx; apply I; now right|].
    cbn zeta. exists h', (a1 :: fs), (f :: gs). split; [rewrite E2; now rewrite <- app_assoc|].
    split; [eapply live_perm; [|exact L2]; now rewrite <- (app_assoc fs0)|].
    split; [constructor; [split; [now apply G2|exact (proj1 R)]|exact H2]|]. split; [constructor; [exact E|exact N2]|]. auto.
Qed.
Lemma alloc_factors_ok bn nodes h L : wfnet bn -> live h L -> incl nodes (bn_V bn) ->
  exists h' fs gs, alloc_factors bn h nodes = Ok (h', fs) /\
    live h' (fs ++ L) /\ holds (ncard bn) h' fs gs /\ Forall2 (node_factor bn) nodes gs /\
    (forall a x, nth_error (h_obj h) a = Some x -> nth_error (h_obj h') a = Some x) /\
    (forall a g, fload h a = Ok g -> fload h' a = Ok g) /\ (forall x, wired h x -> wired h' x).
Proof. intros W Lv I. exact (alloc_loop bn W nodes h [] L Lv I). Qed.

Lemma node_prod bn nodes gs : wfnet bn -> incl nodes (bn_V bn) -> Forall2 (node_factor bn) nodes gs -> forall a, valid (ncard bn) (bn_V bn) a ->
  prodval gs a = qprod (map (fun v => getq (cond_prob bn v a)) nodes).
Proof.
  intros W I H a V. unfold prodval. induction H as [|v g nodes gs E _ IH]; [reflexivity|]. simpl. rewrite IH by (intros x Hx; apply I; now right). f_equal.
  destruct (init_ok bn v W (I v (or_introl eq_refl))) as (f & E' & Sc & _ & _ & _ & _ & R). unfold node_factor in E. rewrite E in E'. injection E' as <-.
  symmetry. apply (repr_to_val _ _ _ R). rewrite Sc. intros w [<-|Hw]; [apply V, I; now left|]. apply V. apply (wn_par _ W v); [apply I; now left|assumption].
Qed.
Lemma node_scopes bn nodes gs : wfnet bn -> incl nodes (bn_V bn) -> Forall2 (node_factor bn) nodes gs -> forall w,
  in_scopes gs w <-> exists v, In v nodes /\ In w (v :: nparents bn v).
Proof.
  intros W I H w. induction H as [|v g nodes gs E _ IH].
  - split; [intros (f & [] & _)|intros (v & [] & _)].
  - destruct (init_ok bn v W (I v (or_introl eq_refl))) as (f & E' & Sc & _). unfold node_factor in E. rewrite E in E'. injection E' as <-.
    assert (I' : incl nodes (bn_V bn)) by (intros x Hx; apply I; now right). specialize (IH I'). split.
    + intros (f & [<-|Hf] & Hw); [exists v; split; [now left|now rewrite <- Sc]|].
      destruct (proj1 IH) as (u & Hu & Hw'); [exists f; auto|]. exists u. split; [now right|assumption].
    + intros (u & [<-|Hu] & Hw); [exists g; split; [now left|now rewrite Sc]|].
      destruct (proj2 IH) as (f & Hf & Hw'); [exists u; auto|]. exists f. split; [now right|assumption].
Qed.

(** ** the longest factor *)

Lemma longest_loop h : forall (r : list nat) (lens : list nat) pre plens best,
  Forall2 (fun a n => exists ob, nth_error (h_obj h) a = Some ob /\ length (o_cpt ob) = n) r lens ->
  length pre = length plens -> first_max plens best ->
  exists i, foldM (fun best g => do og <- cell (h_obj h) g ;;
                   Ok (if snd best <? length (o_cpt og) then (g, length (o_cpt og)) else best)) r (nth best pre 0, nth best plens 0) = Ok (nth i (pre ++ r) 0, nth i (plens ++ lens) 0) /\
    first_max (plens ++ lens) i.
Proof.
  induction r as [|a r IH]; intros lens pre plens best H Len Fm.
  - inversion H; subst. exists best. rewrite !app_nil_r. split; [reflexivity|exact Fm].
  - inversion H as [|? n ? lens' (ob & Eo & En) H']; subst. cbn [foldM]. rewrite (cell_Some _ _ _ Eo). cbn [bind fst snd].
    set (n := length (o_cpt ob)) in *. destruct Fm as [Fb Fm].
    assert (Len' : length (pre ++ [a]) = length (plens ++ [n])) by (rewrite !app_length; simpl; lia).
    destruct (nth best plens 0 <? n) eqn:C.
    + apply Nat.ltb_lt in C. destruct (IH lens' (pre ++ [a]) (plens ++ [n]) (length plens) H' Len') as (i & E & F).
      * split; [rewrite app_length; simpl; lia|]. intros j Hj. rewrite app_length in Hj. simpl in Hj.
        assert (Ej : nth (length plens) (plens ++ [n]) 0 = n) by (rewrite app_nth2 by lia; now rewrite Nat.sub_diag). rewrite Ej.
        destruct (Nat.eq_dec j (length plens)) as [->|Nj]; [rewrite Ej; lia|]. rewrite app_nth1 by lia. destruct (Fm j) as [F1 _]; [lia|]. lia.
      * exists i. rewrite <- app_assoc in E, F. rewrite <- app_assoc in E. simpl in E, F. split; [|exact F]. rewrite <- E. f_equal. f_equal.
        -- rewrite <- Len. rewrite app_nth2 by lia. now rewrite Nat.sub_diag.
        -- rewrite app_nth2 by lia. now rewrite Nat.sub_diag.
    + apply Nat.ltb_ge in C. destruct (IH lens' (pre ++ [a]) (plens ++ [n]) best H' Len') as (i & E & F).
      * split; [rewrite app_length; lia|]. intros j Hj. rewrite app_length in Hj. simpl in Hj. rewrite (app_nth1 plens [n] 0 Fb).
        destruct (Nat.eq_dec j (length plens)) as [->|Nj]; [rewrite app_nth2 by lia; rewrite Nat.sub_diag; simpl; lia|]. rewrite app_nth1 by lia. apply Fm. lia.
      * exists i. rewrite <- app_assoc in E, F. rewrite <- app_assoc in E. simpl in E, F. split; [|exact F]. rewrite <- E. f_equal. f_equal; now rewrite app_nth1 by lia.
Qed.
Lemma longest_ok h fs lens : fs <> [] -> Forall2 (fun a n => exists ob, nth_error (h_obj h) a = Some ob /\ length (o_cpt ob) = n) fs lens ->
  exists i, longest h fs = Ok (nth i fs 0) /\ first_max lens i.
Proof.
  intros N H. destruct fs as [|f r]; [congruence|]. inversion H as [|? n ? lens' (ob & Eo & En) H']; subst. cbn [longest]. rewrite (cell_Some _ _ _ Eo). cbn [bind].
  destruct (longest_loop h r lens' [f] [length (o_cpt ob)] 0 H' eq_refl) as (i & E & F).
  - split; [simpl; lia|]. intros j Hj. simpl in Hj. assert (j = 0) by lia. subst. simpl. lia.
  - exists i. simpl in E. rewrite E. cbn [bind fst]. split; [reflexivity|exact F].
Qed.

(** ** initialize_psi *)
Fixpoint later (o : oracle) (n : nat) : oracle := match n with 0 => o | S n' => later (sub o 1) n' end.
Lemma good_later n : forall o, good o -> good (later o n).
Proof. induction n as [|n IH]; intros o Go; simpl; [assumption|]. apply IH. now apply good_sub. Qed.
Lemma fmul_all_app s l r : forall o h, fmul_all o h s (l ++ r) = do h' <- fmul_all o h s l ;; fmul_all (later o (length l)) h' s r.
Proof.
  induction l as [|t l IH]; intros o h; [reflexivity|]. cbn [fmul_all app length later]. destruct (fmul (sub o 0) h s t); cbn [bind]; [apply IH|reflexivity].
Qed.


Lemma holds_lens cd h l fs : holds cd h l fs ->
  Forall2 (fun a n => exists ob, nth_error (h_obj h) a = Some ob /\ length (o_cpt ob) = n) l (map (fun g => length (f_cpt g)) fs).
Proof.
  intros H. induction H as [|a f l fs [E W] _ IH]; simpl; constructor; [|exact IH].
  unfold fload, cell in E. destruct (nth_error (h_obj h) a) as [ob|]; [|discriminate]. exists ob. split; [reflexivity|]. cbn [bind] in E.
  destruct (nth_error (h_scope h) (o_scope ob)); [|discriminate]. cbn [bind] in E. destruct (nth_error (h_card h) (o_card ob)); [|discriminate]. cbn [bind] in E.
  destruct (nth_error (h_stride h) (o_stride ob)); [|discriminate]. cbn [bind] in E. injection E as <-. reflexivity.
Qed.

Lemma fmul_all_others : forall l o h s h', fmul_all o h s l = Ok h' -> forall a x, a <> s -> nth_error (h_obj h) a = Some x -> nth_error (h_obj h') a = Some x.
Proof.
  induction l as [|t l IH]; intros o h s h' E a x Na Ex; cbn [fmul_all] in E; [injection E as <-; assumption|].
  destruct (fmul (sub o 0) h s t) as [h1|] eqn:E1; [|discriminate]. cbn [bind] in E. apply (IH _ _ _ _ E a x Na).
  unfold fmul in E1. destruct (fload h s) as [f|]; [|discriminate]. cbn [bind] in E1. destruct (fload h t) as [f0|]; [|discriminate]. cbn [bind] in E1.
  destruct (multiply_factor (sub o 0) f f0); [|discriminate]. cbn [bind] in E1. unfold cell in E1.
  destruct (nth_error (h_obj h) s); [|discriminate]. cbn [bind] in E1. destruct (nth_error (h_obj h) t); [|discriminate]. cbn [bind] in E1. injection E1 as <-.
  cbn [h_obj]. rewrite nth_error_upd_other by congruence. exact Ex.
Qed.

Lemma initialize_psi_ok cd o h c gs L : good o -> c_F c <> [] -> live h (c_F c ++ L) -> holds cd h (c_F c) gs ->
  exists h' p b f es, initialize_psi o h c = Ok (h', mkC (c_scope c) (c_F c) (Some p) (Some b) (c_msgs c)) /\
    live h' (b :: L) /\ p <> b /\ nth_error (h_obj h') p = nth_error (h_obj h') b /\ fload h' b = Ok f /\ wf cd f /\
    (forall v, In v (f_scope f) <-> in_scopes gs v) /\
    doubled (fun g => length (f_cpt g)) gs es /\ (forall a, vscope cd gs a -> val f a = prodval es a * prodval gs a)%Qc /\
    (forall a, In a L -> fload h' a = fload h a) /\
    (forall a x, ~ In a (c_F c) -> nth_error (h_obj h) a = Some x -> nth_error (h_obj h') a = Some x) /\ length (h_obj h) <= b.
Proof.
  intros Go Ne Lv H. unfold initialize_psi. destruct c as [sc fs ps bl ms]. cbn [c_F c_scope c_msgs] in *.
  assert (Llt : forall a, In a (fs ++ L) -> a < length (h_obj h)).
  { intros a Ha. destruct (lv_obj _ _ Lv a Ha) as (x & E & _). apply nth_error_Some. congruence. }
  destruct fs as [|f0 [|f1 r]]; [congruence| |].
  - (* one factor *)
    inversion H as [|? g ? gs' [E W] H']; subst. inversion H'; subst. simpl in Lv.
    destruct (fcopy_ok h f0 L g Lv E) as (h1 & E1 & L1 & F1 & N1 & K1 & O1 & S1 & P1 & P2 & P3). rewrite E1. cbn [bind fst snd].
    destruct (fcopy_ok h1 _ L g L1 F1) as (h2 & E2 & L2 & F2 & N2 & K2 & O2 & S2 & _). rewrite E2. cbn [bind fst snd].
    set (p := length (h_obj h)) in *. set (b := length (h_obj h1)) in *.
    exists h2, p, b, g, []. split; [reflexivity|]. split; [exact L2|]. split; [lia|]. split.
    { destruct (lv_obj _ _ L1 p (or_introl eq_refl)) as (x & Ex & _). rewrite (O2 _ _ Ex), (S2 _ Ex). reflexivity. }
    split; [exact F2|]. split; [exact W|]. split.
    { intros v. split; [intros Hv; exists g; split; [now left|assumption]|intros (g' & [<-|[]] & Hv); exact Hv]. }
    split; [left; auto|]. split; [intros a _; unfold prodval; simpl; ring|].
    split; [intros a Ha; assert (a < p) by (apply Llt; now right); rewrite K2, K1 by lia; reflexivity|].
    split; [intros a x _ Ex; apply O2; now apply O1|lia].
  - set (fs := f0 :: f1 :: r) in *.
    assert (Hl := holds_lens _ _ _ _ H). destruct (longest_ok h fs _ Ne Hl) as (i & Ei & Fm). rewrite Ei. cbn [bind].
    assert (Lg := holds_length _ _ _ _ H). destruct Fm as [Fi Fm']. rewrite map_length in Fi.
    assert (Hi : i < length fs) by lia.
    destruct (nth_split fs 0 Hi) as (pre & post & Efs & Lpre). set (m := nth i fs 0) in *.
    rewrite Efs in H. apply holds_split in H as (gp & gr & -> & Hp & Hr). inversion Hr as [|? gm ? gq [Em Wm] Hq]; subst gr. subst.
    assert (Lgp := holds_length _ _ _ _ Hp).
    rewrite Efs in Lv. 
    assert (Lv1 : live h (m :: pre ++ (post ++ L))).
    { eapply live_perm; [|exact Lv]. rewrite <- app_assoc. simpl. symmetry. apply Permutation_middle. }
    rewrite Efs. rewrite fmul_all_app.
    destruct (fmul_all_ok cd pre (map val gp) o h m (post ++ L) gm (val gm) Go Lv1 Em (repr_val _ _ Wm) (holds_represents _ _ _ _ Hp))
      as (h1 & a1 & E1 & L1 & F1 & R1 & S1 & B1 & K1 & N1 & O1).
    rewrite E1. cbn [bind fmul_all].
    assert (Gl : good (sub (later o (length pre)) 0)) by (apply good_sub; now apply good_later).
    destruct (fmul_big_ok cd _ h1 m m (post ++ L) a1 a1 _ _ Gl L1 F1 F1 R1 R1 (Nat.le_refl _)) as (h2 & a2 & E2 & L2 & F2 & R2 & S2 & B2 & K2 & N2 & O2).
    rewrite E2. cbn [bind].
    assert (Hq2 : holds cd h2 post gq).
    { apply (holds_frame cd h); [|exact Hq]. intros a Ha. rewrite K2, K1 by (apply in_or_app; now left). reflexivity. }
    assert (Gl1 : good (sub (later o (length pre)) 1)) by (apply good_sub; now apply good_later).
    destruct (fmul_all_ok cd post (map val gq) _ h2 m L a2 _ Gl1 L2 F2 R2 (holds_represents _ _ _ _ Hq2)) as (h3 & a3 & E3 & L3 & F3 & R3 & S3 & B3 & K3 & N3 & O3).
    rewrite E3. cbn [bind].
    destruct (fcopy_ok h3 m L a3 L3 F3) as (h4 & E4 & L4 & F4 & N4 & K4 & O4 & P4 & _). rewrite E4. cbn [bind fst snd].
    set (b := length (h_obj h3)) in *.
    assert (Sc : forall v, In v (f_scope a3) <-> in_scopes (gp ++ gm :: gq) v).
    { intros v. rewrite S3, S2, S1. rewrite (holds_scopes cd h pre gp v Hp), (holds_scopes cd h2 post gq v Hq2). rewrite in_scopes_app.
      change (gm :: gq) with ([gm] ++ gq). rewrite in_scopes_app.
      assert (in_scopes [gm] v <-> In v (f_scope gm)).
      { split; [intros (x & [<-|[]] & Hx); exact Hx|intros Hv; exists gm; split; [now left|assumption]]. } tauto. }
    exists h4, m, b, a3, (firstn (S (length pre)) (gp ++ gm :: gq)). split; [reflexivity|]. split; [exact L4|].
    assert (Lm : m < length (h_obj h)) by (apply Llt; rewrite Efs; apply in_or_app; left; apply in_or_app; right; now left).
    assert (Lb : length (h_obj h) <= b) by (unfold b; lia).
    split; [lia|]. split.
    { destruct (lv_obj _ _ L3 m (or_introl eq_refl)) as (x & Ex & _). rewrite (O4 _ _ Ex), (P4 _ Ex). reflexivity. }
    split; [exact F4|]. split; [exact (proj1 R3)|]. split; [exact Sc|].
    split; [right; split; [|exists (length pre); split; [split; [rewrite map_length; exact Fi|exact Fm']|reflexivity]]|].
    { rewrite <- Lg. unfold fs. simpl. lia. }
    split.
    { intros a Va. assert (V : valid cd (f_scope a3) a) by (intros v Hv; apply Va; now apply Sc).
      rewrite <- (repr_to_val _ _ _ R3 a V). rewrite !prod_at_val.
      replace (firstn (S (length pre)) (gp ++ gm :: gq)) with (gp ++ [gm]).
      - rewrite !prodval_app. change (gm :: gq) with ([gm] ++ gq). rewrite prodval_app. assert (Q : prodval [gm] a = val gm a) by (unfold prodval; simpl; ring). rewrite Q. ring.
      - rewrite Lgp. change (gm :: gq) with ([gm] ++ gq). rewrite app_assoc, firstn_app. rewrite app_length. cbn [length].
        replace (S (length gp) - (length gp + 1)) with 0 by lia. rewrite firstn_O, app_nil_r. rewrite firstn_all2; [reflexivity|]. rewrite app_length. simpl. lia. }
    split.
    { intros a Ha. assert (a < length (h_obj h)) by (apply Llt; apply in_or_app; now right).
      rewrite K4 by (unfold b in *; lia). rewrite K3 by assumption. rewrite K2, K1 by (apply in_or_app; now right). reflexivity. }
    split; [|exact Lb]. intros a x Na Ex. rewrite <- Efs in Na. assert (Nm : a <> m).
    { intros ->. apply Na. apply nth_In. exact Hi. }
    apply O4. apply O3; [assumption|]. apply O2; [assumption|]. now apply O1.
Qed.
