(** FactorHeapFacts.v -- operations on Factor objects agree with the operations on values, as long as the objects involved
    share nothing. *)
From Verif Require Import Py Num BayesNet Factor Factorization CliqueTree CliqueFacts CliqueInit FactorHeap.
Open Scope nat_scope.

(** both fail with the same exception, or both succeed with related results *)
Definition tracks {A B} (R : A -> B -> Prop) (p : res A) (q : res B) : Prop :=
  match p, q with Ok a, Ok b => R a b | Raise e, Raise e' => e = e' | _, _ => False end.
Lemma tracks_bind {A B C D} (R : A -> B -> Prop) (S : C -> D -> Prop) p q k k' :
  tracks R p q -> (forall a b, R a b -> tracks S (k a) (k' b)) -> tracks S (bind p k) (bind q k').
Proof. destruct p, q; cbn; intros H K; try contradiction; [now apply K|congruence]. Qed.
Lemma tracks_eq {A} (p : res A) : tracks eq p p.
Proof. now destruct p. Qed.
Lemma tracks_impl {A B} (R S : A -> B -> Prop) p q : tracks R p q -> (forall a b, R a b -> S a b) -> tracks S p q.
Proof. destruct p, q; cbn; auto. Qed.

(** every cell of [base] is still there, unchanged *)
Definition keeps (base h : fheap) : Prop :=
  (forall i x, nth_error (h_obj base) i = Some x -> nth_error (h_obj h) i = Some x) /\
  (forall i x, nth_error (h_scope base) i = Some x -> nth_error (h_scope h) i = Some x) /\
  (forall i x, nth_error (h_card base) i = Some x -> nth_error (h_card h) i = Some x) /\
  (forall i x, nth_error (h_stride base) i = Some x -> nth_error (h_stride h) i = Some x).
Definition beyond (base : fheap) (a : nat) (ob : fobj) : Prop :=
  length (h_obj base) <= a /\ length (h_scope base) <= o_scope ob /\ length (h_card base) <= o_card ob /\ length (h_stride base) <= o_stride ob.
(** the objects [l] share nothing with each other and with [base] *)
Definition own (base h : fheap) (l : list nat) : Prop :=
  live h l /\ keeps base h /\ forall a ob, In a l -> nth_error (h_obj h) a = Some ob -> beyond base a ob.

Lemma keeps_refl h : keeps h h.
Proof. split; [|split; [|split]]; auto. Qed.
Lemma keeps_load base h a f : keeps base h -> fload base a = Ok f -> fload h a = Ok f.
Proof.
  intros (K1 & K2 & K3 & K4) E. unfold fload, cell in *. destruct (nth_error (h_obj base) a) as [ob|] eqn:Eo; [|discriminate]. rewrite (K1 _ _ Eo). cbn [bind] in *.
  destruct (nth_error (h_scope base) (o_scope ob)) as [sc|] eqn:E1; [|discriminate]. rewrite (K2 _ _ E1). cbn [bind] in *.
  destruct (nth_error (h_card base) (o_card ob)) as [c|] eqn:E2; [|discriminate]. rewrite (K3 _ _ E2). cbn [bind] in *.
  destruct (nth_error (h_stride base) (o_stride ob)) as [st|] eqn:E3; [|discriminate]. rewrite (K4 _ _ E3). cbn [bind] in *. exact E.
Qed.
Lemma own_nil h : own h h [].
Proof. split; [|split; [apply keeps_refl|intros a ob []]]. constructor; [constructor|intros a []|intros a b x y []]. Qed.
Lemma own_perm base h l m : Permutation l m -> own base h l -> own base h m.
Proof. intros P (L & K & A). split; [exact (live_perm h l m P L)|]. split; [assumption|]. intros a ob Ha. apply A. now apply (Permutation_in _ (Permutation_sym P)). Qed.
Lemma own_sub base h l m : NoDup m -> incl m l -> own base h l -> own base h m.
Proof. intros N I (L & K & A). split; [exact (live_sub h l m N I L)|]. split; [assumption|]. intros a ob Ha. apply A. now apply I. Qed.

Lemma upd_keep {A} (l b : list A) i x : length b <= i -> (forall j y, nth_error b j = Some y -> nth_error l j = Some y) ->
  forall j y, nth_error b j = Some y -> nth_error (upd_nth i x l) j = Some y.
Proof. intros L H j y E. rewrite nth_error_upd_other; [now apply H|]. assert (j < length b) by (apply nth_error_Some; congruence). lia. Qed.
Lemma app_keep {A} (l b : list A) x : (forall j y, nth_error b j = Some y -> nth_error l j = Some y) -> forall j y, nth_error b j = Some y -> nth_error (l ++ [x]) j = Some y.
Proof. intros H j y E. apply nth_error_app_lt. now apply H. Qed.
Lemma keep_length {A} (l b : list A) : (forall j y, nth_error b j = Some y -> nth_error l j = Some y) -> length b <= length l.
Proof.
  intros H. destruct (length b) as [|n] eqn:L; [lia|]. assert (X : n < length b) by lia. apply nth_error_Some in X. destruct (nth_error b n) as [y|] eqn:E; [|congruence]. apply H in E.
  assert (n < length l) by (apply nth_error_Some; congruence). lia.
Qed.

(** ** one method call *)
Definition same_on (h h' : fheap) (l : list nat) : Prop := forall a, In a l -> fload h' a = fload h a.
Lemma write_tracks base op h s l f : own base h (s :: l) -> fload h s = Ok f -> (forall f', op f = Ok f' -> f_bn f' = f_bn f) ->
  tracks (fun h' f' => own base h' (s :: l) /\ fload h' s = Ok f' /\ same_on h h' l) (fwrite op h s) (op f).
Proof.
  intros (Lv & K & Ab) Es Hb. pose proof (lv_nodup _ _ Lv) as ND. inversion ND as [|? ? N1 ND1]; subst.
  destruct (lv_obj _ _ Lv s (or_introl eq_refl)) as (os & Eos & Ws). unfold fwrite. rewrite Es. cbn [bind]. destruct (op f) as [f'|e] eqn:Em; [|reflexivity]. cbn [bind]. rewrite (cell_Some _ _ _ Eos). cbn [bind tracks].
  specialize (Hb f' eq_refl). destruct (Ab s os (or_introl eq_refl) Eos) as (B1 & B2 & B3 & B4). destruct K as (K1 & K2 & K3 & K4).
  set (nob := mkO (o_bn os) (f_var f') (o_scope os) (o_card os) (o_stride os) (f_cpt f')).
  set (h' := mkH (upd_nth s nob (h_obj h)) (upd_nth (o_scope os) (f_scope f') (h_scope h)) (upd_nth (o_card os) (f_card f') (h_card h)) (upd_nth (o_stride os) (f_stride f') (h_stride h))).
  assert (Ls : s < length (h_obj h)) by (apply nth_error_Some; congruence).
  assert (En : nth_error (h_obj h') s = Some nob) by now apply nth_error_upd_same.
  assert (Eo : forall a, a <> s -> nth_error (h_obj h') a = nth_error (h_obj h) a) by (intros a Na; apply nth_error_upd_other; congruence).
  assert (Hn : forall a, In a l -> a <> s) by (intros a Ha ->; contradiction).
  assert (Wk : forall x, wired h x -> wired h' x).
  { intros x (W1 & W2 & W3). unfold wired, h'. cbn [h_scope h_card h_stride]. now rewrite !upd_nth_length. }
  assert (Cc : forall a x, In a l -> nth_error (h_obj h) a = Some x -> apart os x).
  { intros a x Ha Ex. apply (lv_apart _ _ Lv s a os x); auto; [now left|now right|]. intros ->. now apply Hn in Ha. }
  split; [split; [|split]|split].
  - constructor.
    + assumption.
    + intros a [<-|Ha]; [exists nob; split; [exact En|apply Wk; exact Ws]|].
      destruct (lv_obj _ _ Lv a (or_intror Ha)) as (x & Ex & Wx). exists x. rewrite Eo by (now apply Hn). split; [exact Ex|now apply Wk].
    + intros a b x y [<-|Ha] [<-|Hb'] Nab Ex Ey.
      * congruence.
      * rewrite En in Ex. injection Ex as <-. rewrite Eo in Ey by (now apply Hn). exact (Cc b y Hb' Ey).
      * rewrite En in Ey. injection Ey as <-. rewrite Eo in Ex by (now apply Hn). destruct (Cc a x Ha Ex) as (A1 & A2 & A3). unfold apart, nob. cbn [o_scope o_card o_stride]. auto.
      * rewrite Eo in Ex by (now apply Hn). rewrite Eo in Ey by (now apply Hn). apply (lv_apart _ _ Lv a b); auto; now right.
  - unfold keeps, h'. cbn [h_obj h_scope h_card h_stride]. split; [|split; [|split]]; now apply upd_keep.
  - intros a ob [<-|Ha] E; [rewrite En in E; injection E as <-; split; [|split; [|split]]; assumption|]. rewrite Eo in E by (now apply Hn). apply (Ab a ob); [now right|assumption].
  - unfold fload, cell. rewrite En. cbn [bind nob o_scope o_card o_stride]. unfold h'. cbn [h_scope h_card h_stride].
    rewrite nth_error_upd_same by apply Ws. cbn [bind]. rewrite nth_error_upd_same by apply Ws. cbn [bind]. rewrite nth_error_upd_same by apply Ws. cbn [bind o_bn o_var o_cpt].
    f_equal. destruct (fload_obj h s os Eos Ws) as (sc & c & st & _ & _ & _ & E). rewrite E in Es. injection Es as <-. cbn [f_bn] in Hb.
    destruct f'. cbn in *. now subst.
  - intros a Ha. destruct (lv_obj _ _ Lv a (or_intror Ha)) as (x & Ex & Wx). destruct (Cc a x Ha Ex) as (A1 & A2 & A3). apply (fload_frame h h' a x Ex Wx).
    + rewrite Eo by (now apply Hn). exact Ex.
    + unfold h'. cbn [h_scope]. now apply nth_error_upd_other.
    + unfold h'. cbn [h_card]. now apply nth_error_upd_other.
    + unfold h'. cbn [h_stride]. now apply nth_error_upd_other.
Qed.
Lemma out_var_bn cl b o f rv f' : out_var cl b o f rv = Ok f' -> f_bn f' = f_bn f.
Proof.
  unfold out_var. intros E. destruct (getitem (f_card f) rv) as [c|]; [|discriminate]. cbn [bind] in E. destruct (c =? 0); [discriminate|].
  destruct (getitem (f_stride f) rv) as [s|]; [|discriminate]. cbn [bind] in E. destruct (lower_cards f s) as [p|]; [|discriminate]. cbn [bind] in E.
  destruct (out_loop cl (f_cpt f) p s c (length (f_cpt f) / c) 0) as [n|]; [|discriminate]. cbn [bind] in E. destruct (delitem (f_card f) rv) as [cc|]; [|discriminate]. cbn [bind] in E.
  destruct (list_remove (f_scope f) rv) as [sc|]; [|discriminate]. cbn [bind] in E. injection E as <-. reflexivity.
Qed.
Lemma reduce_bn o f rv v f' : reduce_factor o f rv v = Ok f' -> f_bn f' = f_bn f.
Proof.
  unfold reduce_factor. intros E. destruct (getitem (f_card f) rv) as [c|]; [|discriminate]. cbn [bind] in E. destruct (c =? 0); [discriminate|].
  destruct (getitem (bn_F (f_bn f)) rv) as [d|]; [|discriminate]. cbn [bind] in E. destruct (list_index (f_values d) v) as [i|]; [|discriminate]. cbn [bind] in E.
  destruct (getitem (f_stride f) rv) as [s|]; [|discriminate]. cbn [bind] in E.
  destruct (reduce_loop (S (length (f_cpt f) / c)) (f_cpt f) c s (i * s) (length (f_cpt f) / c)) as [n|]; [|discriminate]. cbn [bind] in E. destruct (delitem (f_card f) rv) as [cc|]; [|discriminate]. cbn [bind] in E.
  destruct (list_remove (f_scope f) rv) as [sc|]; [|discriminate]. cbn [bind] in E. injection E as <-. reflexivity.
Qed.
Lemma multiply_bn o f g p : multiply_factor o f g = Ok p -> f_bn (fst p) = f_bn f /\ f_var (fst p) = f_var f.
Proof.
  unfold multiply_factor. cbn zeta. intros E. match type of E with bind ?x _ = _ => destruct x as [psi|]; [|discriminate] end. cbn [bind] in E.
  match type of E with bind ?x _ = _ => destruct x as [st|]; [|discriminate] end. cbn [bind] in E. injection E as <-. split; reflexivity.
Qed.

(** [s *= t] with [t] dropped afterwards *)
Lemma mul_tracks base o h s t l fs ft : own base h (s :: t :: l) -> fload h s = Ok fs -> fload h t = Ok ft ->
  tracks (fun h' p => own base h' (s :: l) /\ fload h' s = Ok (fst p) /\ same_on h h' l) (fmul o h s t) (multiply_factor o fs ft).
Proof.
  intros (Lv & K & Ab) Es Et. pose proof (lv_nodup _ _ Lv) as ND. inversion ND as [|? ? N1 ND1]; subst. inversion ND1 as [|? ? N2 ND2]; subst.
  destruct (lv_obj _ _ Lv s (or_introl eq_refl)) as (os & Eos & Ws). destruct (lv_obj _ _ Lv t (or_intror (or_introl eq_refl))) as (ot & Eot & Wt).
  unfold fmul. rewrite Es, Et. cbn [bind]. destruct (multiply_factor o fs ft) as [[fs' ft']|e] eqn:Em; [|reflexivity]. cbn [bind fst]. rewrite (cell_Some _ _ _ Eos), (cell_Some _ _ _ Eot). cbn [bind tracks].
  destruct (multiply_bn _ _ _ _ Em) as [B Va]. cbn [fst] in B, Va.
  destruct (Ab s os (or_introl eq_refl) Eos) as (B1 & B2 & B3 & B4). destruct (Ab t ot (or_intror (or_introl eq_refl)) Eot) as (C1 & C2 & C3 & C4). destruct K as (K1 & K2 & K3 & K4).
  set (cc := if self_is_phi1 fs ft then o_card os else o_card ot).
  set (nob := mkO (o_bn os) (o_var os) (length (h_scope h)) cc (length (h_stride h)) (f_cpt fs')).
  set (h' := mkH (upd_nth s nob (h_obj h)) (h_scope h ++ [f_scope fs']) (upd_nth cc (f_card fs') (h_card h)) (h_stride h ++ [f_stride fs'])).
  assert (Bc : length (h_card base) <= cc) by (unfold cc; destruct (self_is_phi1 fs ft); assumption).
  assert (Ls : s < length (h_obj h)) by (apply nth_error_Some; congruence).
  assert (Lc : cc < length (h_card h)) by (unfold cc; destruct (self_is_phi1 fs ft); [apply Ws|apply Wt]).
  assert (En : nth_error (h_obj h') s = Some nob) by now apply nth_error_upd_same.
  assert (Eo : forall a, a <> s -> nth_error (h_obj h') a = nth_error (h_obj h) a) by (intros a Na; apply nth_error_upd_other; congruence).
  assert (Wk : forall x, wired h x -> wired h' x).
  { intros x (W1 & W2 & W3). unfold wired, h'. cbn [h_scope h_card h_stride]. rewrite !app_length, upd_nth_length. simpl. lia. }
  assert (Hn : forall a, In a l -> a <> s /\ a <> t).
  { intros a Ha. split; intros ->; [apply N1; now right|contradiction]. }
  assert (Cc : forall a x, In a l -> nth_error (h_obj h) a = Some x -> o_card x <> cc).
  { intros a x Ha Ex. destruct (Hn a Ha) as [Na1 Na2]. unfold cc. destruct (self_is_phi1 fs ft).
    - apply (lv_apart _ _ Lv a s x os); auto; [right; now right|now left].
    - apply (lv_apart _ _ Lv a t x ot); auto; [right; now right|right; now left]. }
  split; [split; [|split]|split].
  - constructor.
    + constructor; [intros C; apply N1; now right|assumption].
    + intros a [<-|Ha].
      * exists nob. split; [exact En|]. unfold wired, h', nob. cbn [h_scope h_card h_stride o_scope o_card o_stride]. rewrite !app_length, upd_nth_length. simpl. lia.
      * destruct (lv_obj _ _ Lv a (or_intror (or_intror Ha))) as (x & Ex & Wx). exists x. rewrite Eo by (now apply Hn). split; [exact Ex|now apply Wk].
    + assert (An : forall a x, In a l -> nth_error (h_obj h) a = Some x -> apart nob x).
      { intros a x Ha Ex. destruct (lv_obj _ _ Lv a (or_intror (or_intror Ha))) as (x' & Ex' & (W1 & W2 & W3)). rewrite Ex in Ex'. injection Ex' as <-.
        unfold apart, nob. cbn [o_scope o_card o_stride]. split; [lia|]. split; [|lia]. intros C. now apply (Cc a x Ha Ex). }
      intros a b x y [<-|Ha] [<-|Hb] Nab Ex Ey.
      * congruence.
      * rewrite En in Ex. injection Ex as <-. rewrite Eo in Ey by (now apply Hn). now apply (An b).
      * rewrite En in Ey. injection Ey as <-. rewrite Eo in Ex by (now apply Hn). destruct (An a x Ha Ex) as (A1 & A2 & A3). unfold apart. auto.
      * rewrite Eo in Ex by (now apply Hn). rewrite Eo in Ey by (now apply Hn). apply (lv_apart _ _ Lv a b); auto; right; now right.
  - unfold keeps, h'. cbn [h_obj h_scope h_card h_stride]. split; [|split; [|split]]; [now apply upd_keep|now apply app_keep|now apply upd_keep|now apply app_keep].
  - intros a ob [<-|Ha] E; [rewrite En in E; injection E as <-; unfold beyond, nob; cbn [o_scope o_card o_stride]; split; [assumption|]; split; [now apply keep_length|]; split; [assumption|now apply keep_length]|].
    rewrite Eo in E by (now apply Hn). apply (Ab a ob); [right; now right|assumption].
  - unfold fload, cell. rewrite En. cbn [bind nob o_scope o_card o_stride]. unfold h'. cbn [h_scope h_card h_stride]. rewrite nth_error_snoc. cbn [bind].
    rewrite nth_error_upd_same by assumption. cbn [bind]. rewrite nth_error_snoc. cbn [bind o_bn o_var o_cpt fst].
    f_equal. destruct (fload_obj h s os Eos Ws) as (sc & c & st & _ & _ & _ & E). rewrite E in Es. injection Es as <-. cbn [f_bn f_var] in B, Va.
    destruct fs'. cbn in *. now subst.
  - intros a Ha. destruct (lv_obj _ _ Lv a (or_intror (or_intror Ha))) as (x & Ex & Wx). apply (fload_frame h h' a x Ex Wx).
    + rewrite Eo by (now apply Hn). exact Ex.
    + unfold h'. cbn [h_scope]. apply nth_error_app1. apply Wx.
    + unfold h'. cbn [h_card]. apply nth_error_upd_other. intros C. now apply (Cc a x Ha Ex).
    + unfold h'. cbn [h_stride]. apply nth_error_app1. apply Wx.
Qed.

(** a new object *)
Lemma own_alloc base h l f : own base h l -> own base (fst (falloc h f)) (snd (falloc h f) :: l) /\ fload (fst (falloc h f)) (snd (falloc h f)) = Ok f /\
  (forall a g, fload h a = Ok g -> fload (fst (falloc h f)) a = Ok g).
Proof.
  intros (Lv & (K1 & K2 & K3 & K4) & Ab). destruct (falloc_ok h l f Lv) as (L1 & F1 & N1 & O1 & G1 & W1 & Len). split; [|split; [exact F1|exact G1]]. split; [exact L1|]. split.
  - unfold keeps, falloc. cbn [fst h_obj h_scope h_card h_stride]. split; [|split; [|split]]; now apply app_keep.
  - intros a ob [<-|Ha] E.
    + unfold falloc in E. cbn [fst snd h_obj] in E. rewrite nth_error_snoc in E. injection E as <-. unfold beyond, falloc. cbn [snd o_scope o_card o_stride]. split; [|split; [|split]]; now apply keep_length.
    + destruct (lv_obj _ _ Lv a Ha) as (x & Ex & _). rewrite (O1 _ _ Ex) in E. injection E as <-. now apply Ab.
Qed.
