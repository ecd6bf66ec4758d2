(** FactorHeapSim.v -- variable elimination on objects tracks variable elimination on values. *)
From Verif Require Import Py Num BayesNet Factor Factorization CliqueTree CliqueFacts CliqueInit FactorHeap FactorHeapFacts Rounding.
Open Scope nat_scope.

Definition loads (h : fheap) (l : list nat) (fs : list factor) : Prop := Forall2 (fun a f => fload h a = Ok f) l fs.
Lemma loads_same h h' l fs : same_on h h' l -> loads h l fs -> loads h' l fs.
Proof. intros S H. induction H; [constructor|]. constructor; [rewrite S; [assumption|now left]|]. apply IHForall2. intros a Ha. apply S. now right. Qed.
Lemma same_trans h1 h2 h3 l : same_on h1 h2 l -> same_on h2 h3 l -> same_on h1 h3 l.
Proof. intros A B a Ha. rewrite B by assumption. now apply A. Qed.
Lemma same_sub h h' l m : incl m l -> same_on h h' l -> same_on h h' m.
Proof. intros I S a Ha. apply S. now apply I. Qed.

Lemma new_factors_tracks base bn : forall nodes h M, own base h M ->
  tracks (fun p fs => own base (fst p) (snd p ++ M) /\ loads (fst p) (snd p) fs /\ (forall a g, fload h a = Ok g -> fload (fst p) a = Ok g))
    (new_factors h bn nodes) (mapM (factor_init bn) nodes).
Proof.
  induction nodes as [|v r IH]; intros h M O; [cbn; split; [assumption|]; split; [constructor|auto]|]. cbn [new_factors mapM].
  apply (tracks_bind eq); [apply tracks_eq|]. intros f _ <-. cbn zeta. destruct (own_alloc base h M f O) as (O1 & F1 & G1). destruct (falloc h f) as [h1 a1]. cbn [fst snd] in *.
  eapply tracks_bind; [apply (IH h1 (a1 :: M) O1)|]. intros [h2 l] fs (O2 & L2 & G2). cbn [fst snd] in *. cbn [tracks fst snd]. split; [|split].
  - eapply own_perm; [|exact O2]. symmetry. apply Permutation_middle.
  - constructor; [now apply G2|assumption].
  - intros a g E. now apply G2, G1.
Qed.

Lemma reduce_all_tracks base rv val : forall l fs o h M, own base h (l ++ M) -> loads h l fs ->
  tracks (fun h' fs' => own base h' (l ++ M) /\ loads h' l fs' /\ same_on h h' M) (hreduce_all o rv val h l) (reduce_all o rv val fs).
Proof.
  induction l as [|a l IH]; intros fs o h M O L; inversion L as [|? f ? fs0 Ef L0]; subst; [cbn; split; [assumption|split; [constructor|intros ? ?; reflexivity]]|].
  cbn [hreduce_all reduce_all]. rewrite Ef. cbn [bind].
  apply (tracks_bind (fun h' f' => own base h' (a :: l ++ M) /\ fload h' a = Ok f' /\ same_on h h' (l ++ M))).
  - destruct (mem rv (f_scope f)); [|cbn; split; [assumption|split; [assumption|intros ? ?; reflexivity]]]. apply (write_tracks base (fun f => reduce_factor (sub o 0) f rv val) h a (l ++ M) f O Ef). intros f'. apply reduce_bn.
  - intros h1 f' (O1 & F1 & S1).
    assert (P : Permutation (a :: l ++ M) (l ++ a :: M)) by apply Permutation_middle.
    pose proof (IH fs0 (sub o 1) h1 (a :: M) (own_perm _ _ _ _ P O1) (loads_same h h1 l fs0 (same_sub _ _ _ _ (incl_appl _ (incl_refl _)) S1) L0)) as T.
    destruct (hreduce_all (sub o 1) rv val h1 l) as [h2|e], (reduce_all (sub o 1) rv val fs0) as [fs2|e']; cbn [tracks] in T; try contradiction; [|now cbn]. cbn [bind tracks]. destruct T as (O2 & L2 & S2).
    split; [exact (own_perm _ _ _ _ (Permutation_sym P) O2)|]. split.
    + constructor; [rewrite S2 by (now left); assumption|assumption].
    + intros b Hb. rewrite S2 by (now right). apply S1. apply in_or_app. now right.
Qed.

Lemma mul_all_tracks base : forall l fs o h s f M, own base h (s :: l ++ M) -> fload h s = Ok f -> loads h l fs ->
  tracks (fun h' f' => own base h' (s :: M) /\ fload h' s = Ok f' /\ same_on h h' M) (fmul_all o h s l) (mul_all o f fs).
Proof.
  induction l as [|t l IH]; intros fs o h s f M O Es L; inversion L as [|? g ? fs0 Eg L0]; subst; [cbn; split; [assumption|split; [assumption|intros ? ?; reflexivity]]|].
  cbn [fmul_all mul_all]. unfold factor_mul. pose proof (mul_tracks base (sub o 0) h s t (l ++ M) f g O Es Eg) as T.
  destruct (fmul (sub o 0) h s t) as [h1|e], (multiply_factor (sub o 0) f g) as [p|e']; cbn [tracks] in T; try contradiction; [|now cbn]. cbn [bind]. destruct T as (O1 & F1 & S1).
  eapply tracks_impl; [apply (IH fs0 (sub o 1) h1 s (fst p) M O1 F1 (loads_same h h1 l fs0 (same_sub _ _ _ _ (incl_appl _ (incl_refl _)) S1) L0))|].
  intros h2 f2 (O2 & F2 & S2). split; [assumption|]. split; [assumption|]. apply (same_trans h h1); [|assumption]. apply (same_sub _ _ (l ++ M)); [now apply incl_appr|assumption].
Qed.

Lemma hfilter_ok rv h : forall l fs, loads h l fs -> exists ra ia, hfilter true rv h l = Ok ra /\ hfilter false rv h l = Ok ia /\
  loads h ra (relevant_factors rv fs) /\ loads h ia (irrelevant_factors rv fs) /\ Permutation l (ra ++ ia).
Proof.
  intros l fs H. induction H as [|a f l fs E _ (ra & ia & E1 & E2 & L1 & L2 & P)]; [exists [], []; cbn; split; [reflexivity|]; split; [reflexivity|]; split; [constructor|]; split; [constructor|reflexivity]|].
  cbn [hfilter relevant_factors irrelevant_factors filter]. rewrite E, E1, E2. cbn [bind]. destruct (mem rv (f_scope f)); cbn [Bool.eqb negb].
  - exists (a :: ra), ia. split; [reflexivity|]. split; [reflexivity|]. split; [now constructor|]. split; [assumption|]. cbn [app]. now constructor.
  - exists ra, (a :: ia). split; [reflexivity|]. split; [reflexivity|]. split; [assumption|]. split; [now constructor|]. etransitivity; [constructor; exact P|]. apply Permutation_middle.
Qed.
Lemma product_tracks base rv o h l fs M ra ia : own base h (l ++ M) -> loads h l fs -> hfilter true rv h l = Ok ra -> hfilter false rv h l = Ok ia ->
  tracks (fun p f => own base (fst p) (snd p :: ia ++ M) /\ fload (fst p) (snd p) = Ok f /\ same_on h (fst p) (ia ++ M)) (hproduct o rv h l) (product_relevant o rv fs).
Proof.
  intros O L E1 E2. destruct (hfilter_ok rv h l fs L) as (ra' & ia' & X1 & X2 & L1 & L2 & P). rewrite E1 in X1. injection X1 as <-. rewrite E2 in X2. injection X2 as <-.
  unfold hproduct, product_relevant. rewrite E1. cbn [bind]. destruct ra as [|s r]; inversion L1 as [|? f ? fs0 Ef L0]; subst; [reflexivity|].
  assert (O' : own base h (s :: r ++ ia ++ M)) by (eapply own_perm; [|exact O]; rewrite P; cbn [app]; now rewrite <- app_assoc).
  pose proof (mul_all_tracks base r fs0 o h s f (ia ++ M) O' Ef L0) as T.
  destruct (fmul_all o h s r) as [h1|e], (mul_all o f fs0) as [g|e']; cbn [tracks] in T; try contradiction; [|exact T]. cbn [bind tracks fst snd]. exact T.
Qed.

(** ** Factorization objects *)
Definition map_rel (h : fheap) (m : dict nat) (pm : dict factor) : Prop := Forall2 (fun x y => fst x = fst y /\ fload h (snd x) = Ok (snd y)) m pm.
Definition hz_rel (base h : fheap) (z : hfz) (w : factorization) : Prop :=
  hz_bn z = fz_bn w /\ loads h (hz_phi z) (fz_phi w) /\ map_rel h (hz_map z) (fz_map w) /\ hz_asg z = fz_asg w /\
  own base h (hz_phi z ++ map snd (hz_map z)).
Lemma map_same h h' m pm : same_on h h' (map snd m) -> map_rel h m pm -> map_rel h' m pm.
Proof. intros S H. induction H as [|x y m pm [E1 E2] _ IH]; [constructor|]. constructor; [split; [assumption|rewrite S; [assumption|now left]]|]. apply IH. intros a Ha. apply S. now right. Qed.

Lemma init_tracks base bn : tracks (fun p w => hz_rel base (fst p) (snd p) w /\ fz_bn w = bn) (hz_init base bn) (fz_init bn).
Proof.
  unfold hz_init, fz_init. eapply tracks_bind; [apply (new_factors_tracks base bn (bn_nodes bn) base [] (own_nil base))|]. intros [h l] fs (O & L & _). cbn [fst snd tracks] in *.
  split; [|reflexivity]. split; [reflexivity|]. split; [assumption|]. split; [constructor|]. split; [reflexivity|]. exact O.
Qed.
Lemma sub_tracks base o h z w rv val : hz_rel base h z w -> tracks (fun p w' => hz_rel base (fst p) (snd p) w' /\ fz_bn w' = fz_bn w) (hz_sub o h z rv val) (fz_sub o w rv val).
Proof.
  intros (B & L & Mr & A & O). unfold hz_sub, fz_sub. eapply tracks_bind; [apply (reduce_all_tracks base rv val (hz_phi z) (fz_phi w) o h (map snd (hz_map z)) O L)|].
  intros h' fs' (O' & L' & S'). cbn [tracks fst snd fz_bn]. split; [|reflexivity]. split; [assumption|]. split; [assumption|]. split; [now apply (map_same h)|]. split; [cbn; now rewrite A|]. exact O'.
Qed.
Lemma sum_tracks base o h z w rv : hz_rel base h z w -> tracks (fun p w' => hz_rel base (fst p) (snd p) w' /\ fz_bn w' = fz_bn w) (hz_sum_elim o h z rv) (fz_sum_elim o w rv).
Proof.
  intros (B & L & Mr & A & O). unfold hz_sum_elim, fz_sum_elim. destruct (hfilter_ok rv h _ _ L) as (ra & ia & E1 & E2 & L1 & L2 & P). rewrite E2. cbn [bind].
  eapply tracks_bind; [apply (product_tracks base rv (sub o 0) h _ _ (map snd (hz_map z)) ra ia O L E1 E2)|]. intros [h1 a] psi (O1 & F1 & S1). cbn [fst snd] in *.
  pose proof (write_tracks base (fun f => sumout_var (sub o 1) f rv) h1 a (ia ++ map snd (hz_map z)) psi O1 F1 (fun f' => out_var_bn _ _ _ _ _ _)) as T.
  change (fsumout (sub o 1) h1 a rv) with (fwrite (fun f => sumout_var (sub o 1) f rv) h1 a).
  eapply tracks_bind; [exact T|]. intros h2 psi' (O2 & F2 & S2). cbn [tracks fst snd fz_bn]. split; [|reflexivity].
  assert (S12 := same_trans _ _ _ _ S1 S2). split; [assumption|]. cbn [hz_phi fz_phi hz_map fz_map hz_asg fz_asg]. split; [|split; [|split]].
  - apply Forall2_app; [|constructor; [assumption|constructor]]. apply (loads_same h); [|assumption]. apply (same_sub _ _ (ia ++ map snd (hz_map z))); [now apply incl_appl|assumption].
  - apply (map_same h); [|assumption]. apply (same_sub _ _ (ia ++ map snd (hz_map z))); [now apply incl_appr|assumption].
  - assumption.
  - eapply own_perm; [|exact O2]. rewrite <- app_assoc. cbn [app]. apply Permutation_middle.
Qed.

Lemma map_dset h (m : dict nat) (pm : dict factor) k a f : map_rel h m pm -> fload h a = Ok f -> map_rel h (dset m k a) (dset pm k f).
Proof.
  intros H E. induction H as [|[k1 a1] [k2 f2] m pm [E1 E2] H0 IH]; cbn [dset]; [constructor; [auto|constructor]|]. cbn [fst snd] in *. subst k2.
  destruct (name_eqb k k1); constructor; auto.
Qed.
Lemma dset_addr (m : dict nat) k a b : In b (map snd (dset m k a)) -> b = a \/ In b (map snd m).
Proof. induction m as [|[k1 a1] m IH]; cbn; [intros [<-|[]]; now left|]. destruct (name_eqb k k1); cbn; [intros [<-|H]; auto|]. intros [<-|H]; [auto|]. destruct (IH H); auto. Qed.
Lemma dset_nodup (m : dict nat) k a : ~ In a (map snd m) -> NoDup (map snd m) -> NoDup (map snd (dset m k a)).
Proof.
  induction m as [|[k1 a1] m IH]; cbn; intros N D; [constructor; [intros []|constructor]|]. inversion D; subst. destruct (name_eqb k k1); cbn; [constructor; [tauto|assumption]|].
  constructor; [|apply IH; [tauto|assumption]]. intros H. apply dset_addr in H. destruct H as [->|H]; [tauto|contradiction].
Qed.
Lemma nodup_app_r {A} (l m : list A) : NoDup (l ++ m) -> NoDup m.
Proof. induction l; cbn; intros H; [assumption|]. inversion H; auto. Qed.
Lemma max_tracks base o h z w rv : hz_rel base h z w -> tracks (fun p w' => hz_rel base (fst p) (snd p) w' /\ fz_bn w' = fz_bn w) (hz_max_elim o h z rv) (fz_max_elim o w rv).
Proof.
  intros (B & L & Mr & A & O). unfold hz_max_elim, fz_max_elim. destruct (hfilter_ok rv h _ _ L) as (ra & ia & E1 & E2 & L1 & L2 & P). rewrite E2. cbn [bind].
  eapply tracks_bind; [apply (product_tracks base rv (sub o 0) h _ _ (map snd (hz_map z)) ra ia O L E1 E2)|]. intros [h1 a] psi (O1 & F1 & S1). cbn [fst snd] in *.
  unfold fdeepcopy. rewrite F1. cbn [bind]. destruct (own_alloc base h1 _ psi O1) as (O2 & F2 & G2). destruct (falloc h1 psi) as [h2 c]. cbn [fst snd] in *.
  assert (Fa : fload h2 a = Ok psi) by (now apply G2).
  assert (O2' : own base h2 (a :: c :: ia ++ map snd (hz_map z))) by (eapply own_perm; [apply perm_swap|exact O2]).
  pose proof (write_tracks base (fun f => maxout_var f rv) h2 a (c :: ia ++ map snd (hz_map z)) psi O2' Fa (fun f' => out_var_bn _ _ _ _ _ _)) as T.
  eapply tracks_bind; [exact T|]. intros h3 psi' (O3 & F3 & S3). cbn [tracks fst snd fz_bn]. split; [|reflexivity].
  assert (SS : forall b g, In b (ia ++ map snd (hz_map z)) -> fload h b = Ok g -> fload h3 b = Ok g).
  { intros b g Hb E. rewrite S3 by (now right). apply G2. rewrite S1 by assumption. exact E. }
  split; [assumption|]. cbn [hz_phi fz_phi hz_map fz_map hz_asg fz_asg]. split; [|split; [|split]].
  - apply Forall2_app; [|constructor; [assumption|constructor]].
    assert (SI : forall b g, In b ia -> fload h b = Ok g -> fload h3 b = Ok g) by (intros b g Hb; apply SS; apply in_or_app; now left).
    clear -SI L2. induction L2; constructor; [apply SI; [now left|assumption]|]. apply IHL2. intros b g Hb. apply SI. now right.
  - apply map_dset; [|rewrite S3 by (now left); assumption].
    assert (SI : forall b g, In b (map snd (hz_map z)) -> fload h b = Ok g -> fload h3 b = Ok g) by (intros b g Hb; apply SS; apply in_or_app; now right).
    clear -SI Mr. unfold map_rel in *. induction Mr as [|x y m pm [E1 E2] _ IH]; [constructor|]. constructor; [split; [assumption|apply SI; [now left|assumption]]|]. apply IH. intros b g Hb. apply SI. now right.
  - assumption.
  - pose proof (lv_nodup _ _ (proj1 O3)) as ND. inversion ND as [|? ? Na ND1]; subst. inversion ND1 as [|? ? Nc ND2]; subst.
    eapply own_sub; [| |exact O3].
    + apply NoDup_app_intro.
      * apply (Permutation_NoDup (l := a :: ia)); [apply Permutation_cons_append|]. constructor; [intros X; apply Na; right; apply in_or_app; now left|]. clear -ND2. induction ia; [constructor|]. inversion ND2; subst. constructor; [intros X; apply H1; apply in_or_app; now left|]. now apply IHia.
      * apply dset_nodup; [intros X; apply Nc; apply in_or_app; now right|]. now apply nodup_app_r in ND2.
      * intros x Hx Hm. apply dset_addr in Hm. apply in_app_or in Hx.
        destruct Hx as [Hx|[<-|[]]], Hm as [->|Hm].
        -- apply Nc. apply in_or_app. now left.
        -- clear -ND2 Hx Hm. induction ia as [|y ia IH]; [destruct Hx|]. inversion ND2; subst. destruct Hx as [<-|Hx]; [apply H1; apply in_or_app; now right|]. now apply IH.
        -- apply Na. now left.
        -- apply Na. right. apply in_or_app. now right.
    + intros x Hx. apply in_app_or in Hx as [Hx|Hx].
      * apply in_app_or in Hx as [Hx|[<-|[]]]; [right; right; apply in_or_app; now left|now left].
      * apply dset_addr in Hx as [->|Hx]; [right; now left|right; right; apply in_or_app; now right].
Qed.

Lemma evidence_tracks base : forall ev o h z w order, hz_rel base h z w ->
  tracks (fun p q => hz_rel base (fst (fst p)) (snd (fst p)) (fst q) /\ fz_bn (fst q) = fz_bn w /\ snd p = snd q) (happly_evidence o h z order ev) (apply_evidence o w order ev).
Proof.
  induction ev as [|[E e] ev IH]; intros o h z w order R; [cbn; auto|]. cbn [happly_evidence apply_evidence].
  eapply tracks_bind; [apply (sub_tracks base (sub o 0) h z w E e R)|]. intros [h1 z1] w1 [R1 B1]. cbn [fst snd] in *.
  apply (tracks_bind eq); [apply tracks_eq|]. intros order' _ <-. eapply tracks_impl; [apply (IH (sub o 1) h1 z1 w1 order' R1)|]. intros p q (X & Y & Z). split; [assumption|]. split; [congruence|assumption].
Qed.
Lemma elim_tracks base he pe : (forall o h z w rv, hz_rel base h z w -> tracks (fun p w' => hz_rel base (fst p) (snd p) w' /\ fz_bn w' = fz_bn w) (he o h z rv) (pe o w rv)) ->
  forall order o h z w, hz_rel base h z w -> tracks (fun p w' => hz_rel base (fst p) (snd p) w' /\ fz_bn w' = fz_bn w) (helim_all he o h z order) (elim_all pe o w order).
Proof.
  intros H. induction order as [|v r IH]; intros o h z w R; [cbn; auto|]. cbn [helim_all elim_all]. eapply tracks_bind; [apply (H (sub o 0) h z w v R)|]. intros [h1 z1] w1 [R1 B1]. cbn [fst snd] in *.
  eapply tracks_impl; [apply (IH (sub o 1) h1 z1 w1 R1)|]. intros p q (X & Y). split; [assumption|congruence].
Qed.
Lemma later_tracks base asg : forall later o h a f M, own base h (a :: M) -> fload h a = Ok f ->
  tracks (fun h' f' => own base h' (a :: M) /\ fload h' a = Ok f' /\ same_on h h' M) (hreduce_later o asg later h a) (reduce_later o asg later f).
Proof.
  induction later as [|nd r IH]; intros o h a f M O E; [cbn; split; [assumption|split; [assumption|intros ? ?; reflexivity]]|]. cbn [hreduce_later reduce_later]. rewrite E. cbn [bind].
  apply (tracks_bind (fun h' f' => own base h' (a :: M) /\ fload h' a = Ok f' /\ same_on h h' M)).
  - destruct (mem nd (f_scope f)); [|cbn; split; [assumption|split; [assumption|intros ? ?; reflexivity]]]. apply (tracks_bind eq); [apply tracks_eq|]. intros v _ <-.
    apply (write_tracks base (fun f => reduce_factor (sub o 0) f nd v) h a M f O E). intros f'. apply reduce_bn.
  - intros h1 f1 (O1 & F1 & S1). eapply tracks_impl; [apply (IH (sub o 1) h1 a f1 M O1 F1)|]. intros h2 f2 (O2 & F2 & S2). split; [assumption|]. split; [assumption|]. now apply (same_trans h h1).
Qed.
Lemma map_keys h m pm : map_rel h m pm -> dkeys m = dkeys pm.
Proof. intros H. induction H as [|x y m pm [E _] _ IH]; [reflexivity|]. unfold dkeys in *. cbn [map]. now rewrite E, IH. Qed.
Lemma traceback_tracks base bn : forall items pm o h asg M, own base h (map snd items ++ M) -> map_rel h items pm ->
  tracks (fun p asg' => snd p = asg' /\ own base (fst p) (map snd items ++ M) /\ same_on h (fst p) M) (htraceback o bn h items asg) (traceback o bn pm asg).
Proof.
  induction items as [|[rv a] later IH]; intros pm o h asg M O R; inversion R as [|? [k f] ? pm0 [E1 E2] R0]; subst; [cbn; split; [reflexivity|split; [assumption|intros ? ?; reflexivity]]|]. cbn [fst snd] in *. subst k.
  cbn [htraceback traceback]. cbn [map snd app] in O.
  assert (P : Permutation (a :: map snd later ++ M) (map snd later ++ a :: M)) by apply Permutation_middle.
  eapply tracks_bind; [apply (IH pm0 (sub o 0) h asg (a :: M) (own_perm _ _ _ _ P O) R0)|]. intros [h1 asg1] asg1' (X1 & O1 & S1). cbn [fst snd] in *. subst asg1'.
  rewrite <- (map_keys _ _ _ R0).
  assert (F1 : fload h1 a = Ok f) by (rewrite S1 by (now left); assumption).
  eapply tracks_bind; [apply (later_tracks base asg1 (dkeys later) (sub o 1) h1 a f (map snd later ++ M) (own_perm _ _ _ _ (Permutation_sym P) O1) F1)|]. intros h2 f2 (O2 & F2 & S2).
  apply (tracks_bind eq); [apply tracks_eq|]. intros vs _ <-. rewrite F2. cbn [bind]. apply (tracks_bind eq); [apply tracks_eq|]. intros i _ <-. apply (tracks_bind eq); [apply tracks_eq|]. intros v _ <-.
  cbn [tracks fst snd]. split; [reflexivity|]. split; [exact O2|]. intros b Hb. rewrite S2 by (apply in_or_app; now right). apply S1. now right.
Qed.
Lemma consolidate_tracks h l fs : loads h l fs -> tracks (fun a f => fload h a = Ok f) (hconsolidate l) (consolidate fs).
Proof. intros L. destruct L as [|a f l fs E L]; [reflexivity|]. destruct L; [exact E|reflexivity]. Qed.

Lemma marginal_tracks o h bn target ev : tracks (fun p v => snd p = v /\ keeps h (fst p)) (h_marginal_ve_e o h bn target ev) (marginal_ve_e o bn target ev).
Proof.
  unfold h_marginal_ve_e, marginal_ve_e, marginal_factor.
  assert (T : tracks (fun p f => fload (fst p) (snd p) = Ok f /\ keeps h (fst p))
    (do z <- hz_init h bn ;; do order <- list_remove (bn_nodes bn) target ;; do p <- happly_evidence (sub o 0) (fst z) (snd z) order ev ;;
     do q <- helim_all hz_sum_elim (sub o 1) (fst (fst p)) (snd (fst p)) (snd p) ;; do a <- hconsolidate (hz_phi (snd q)) ;; Ok (fst q, a))
    (do z <- fz_init bn ;; do order <- list_remove (bn_nodes bn) target ;; do p <- apply_evidence (sub o 0) z order ev ;;
     do z' <- elim_all fz_sum_elim (sub o 1) (fst p) (snd p) ;; consolidate (fz_phi z'))).
  { eapply tracks_bind; [apply (init_tracks h bn)|]. intros [h0 z0] w0 [R0 B0]. cbn [fst snd] in *. apply (tracks_bind eq); [apply tracks_eq|]. intros order _ <-.
    eapply tracks_bind; [apply (evidence_tracks h ev (sub o 0) h0 z0 w0 order R0)|]. intros [[h1 z1] ord1] [w1 ord1'] (R1 & B1 & Eo). cbn [fst snd] in *. subst ord1'.
    eapply tracks_bind; [apply (elim_tracks h _ _ (sum_tracks h) ord1 (sub o 1) h1 z1 w1 R1)|]. intros [h2 z2] w2 [R2 B2]. cbn [fst snd] in *.
    destruct R2 as (_ & L2 & _ & _ & O2). pose proof (consolidate_tracks h2 _ _ L2) as C. destruct (hconsolidate (hz_phi z2)) as [a|e], (consolidate (fz_phi w2)) as [f|e']; cbn [tracks] in C; try contradiction; [|exact C].
    cbn [bind tracks fst snd]. split; [exact C|]. apply O2. }
  match type of T with tracks _ ?x ?y => set (X := x) in *; set (Y := y) in * end.
  assert (E1 : (do z <- hz_init h bn ;; do order <- list_remove (bn_nodes bn) target ;; do p <- happly_evidence (sub o 0) (fst z) (snd z) order ev ;;
     do q <- helim_all hz_sum_elim (sub o 1) (fst (fst p)) (snd (fst p)) (snd p) ;; do a <- hconsolidate (hz_phi (snd q)) ;; do f <- fload (fst q) a ;; Ok (fst q, map (np_round 4) (f_cpt f)))
     = do r <- X ;; do f <- fload (fst r) (snd r) ;; Ok (fst r, map (np_round 4) (f_cpt f))).
  { unfold X. destruct (hz_init h bn) as [z|]; [|reflexivity]. cbn [bind]. destruct (list_remove (bn_nodes bn) target) as [order|]; [|reflexivity]. cbn [bind].
    destruct (happly_evidence (sub o 0) (fst z) (snd z) order ev) as [p|]; [|reflexivity]. cbn [bind]. destruct (helim_all hz_sum_elim (sub o 1) (fst (fst p)) (snd (fst p)) (snd p)) as [q|]; [|reflexivity]. cbn [bind].
    destruct (hconsolidate (hz_phi (snd q))) as [a|]; [|reflexivity]. reflexivity. }
  rewrite E1. eapply tracks_bind; [exact T|]. intros [h' a] f [E K]. cbn [fst snd] in *. rewrite E. cbn [bind tracks fst snd]. split; [reflexivity|exact K].
Qed.
Lemma map_run_tracks o h bn ev : tracks (fun p q => snd p = snd q /\ loads (fst (fst p)) (hz_phi (snd (fst p))) (fz_phi (fst q)) /\ keeps h (fst (fst p))) (h_map_run o h bn ev) (map_run o bn ev).
Proof.
  unfold h_map_run, map_run. eapply tracks_bind; [apply (init_tracks h bn)|]. intros [h0 z0] w0 [R0 B0]. cbn [fst snd] in *.
  eapply tracks_bind; [apply (evidence_tracks h ev (sub o 0) h0 z0 w0 (bn_nodes bn) R0)|]. intros [[h1 z1] ord1] [w1 ord1'] (R1 & B1 & Eo). cbn [fst snd] in *. subst ord1'.
  eapply tracks_bind; [apply (elim_tracks h _ _ (max_tracks h) ord1 (sub o 1) h1 z1 w1 R1)|]. intros [h2 z2] w2 [R2 B2]. cbn [fst snd] in *.
  destruct R2 as (_ & L2 & M2 & A2 & O2). rewrite A2.
  eapply tracks_bind; [apply (traceback_tracks h bn (hz_map z2) (fz_map w2) (sub o 2) h2 (fz_asg w2) (hz_phi z2) (own_perm _ _ _ _ (Permutation_app_comm _ _) O2) M2)|].
  intros [h3 m] m' (E & O3 & S3). cbn [fst snd] in *. subst m'. cbn [tracks fst snd]. split; [reflexivity|]. split; [now apply (loads_same h2)|]. apply O3.
Qed.
