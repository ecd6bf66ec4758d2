(** CliqueFacts.v -- the heap of Factor objects: which objects stay intact under which operation. *)
From Verif Require Import Py Num BayesNet Factor SpecFactor Radix SumOver FactorMul FactorOut FactorMore Factorization VETotal GraphNet Graph CliqueTree.
Open Scope nat_scope.

Lemma cell_Some {A} (l : list A) i x : nth_error l i = Some x -> cell l i = Ok x.
Proof. unfold cell. now intros ->. Qed.
Lemma nth_error_upd_other {A} (l : list A) i j x : i <> j -> nth_error (upd_nth i x l) j = nth_error l j.
Proof. revert i j. induction l as [|y l IH]; intros [|i] [|j] N; simpl; try reflexivity; try congruence. apply IH. congruence. Qed.
Lemma nth_error_upd_same {A} (l : list A) i x : i < length l -> nth_error (upd_nth i x l) i = Some x.
Proof. revert i. induction l as [|y l IH]; intros [|i] L; simpl in *; try lia; [reflexivity|]. apply IH. lia. Qed.
Lemma nth_error_snoc {A} (l : list A) x : nth_error (l ++ [x]) (length l) = Some x.
Proof. rewrite nth_error_app2 by lia. now rewrite Nat.sub_diag. Qed.
Lemma nth_error_app_lt {A} (l m : list A) i x : nth_error l i = Some x -> nth_error (l ++ m) i = Some x.
Proof. intros H. rewrite nth_error_app1; [assumption|]. apply nth_error_Some. congruence. Qed.

(** the parts of a live object exist *)
Definition wired (h : fheap) (ob : fobj) : Prop :=
  o_scope ob < length (h_scope h) /\ o_card ob < length (h_card h) /\ o_stride ob < length (h_stride h).
Definition apart (x y : fobj) : Prop := o_scope x <> o_scope y /\ o_card x <> o_card y /\ o_stride x <> o_stride y.
(** pairwise disjoint objects *)
Record live (h : fheap) (l : list nat) : Prop := {
  lv_nodup : NoDup l;
  lv_obj : forall a, In a l -> exists ob, nth_error (h_obj h) a = Some ob /\ wired h ob;
  lv_apart : forall a b x y, In a l -> In b l -> a <> b -> nth_error (h_obj h) a = Some x -> nth_error (h_obj h) b = Some y -> apart x y }.

Lemma live_perm h l m : Permutation l m -> live h l -> live h m.
Proof.
  intros P [N O A]. constructor.
  - eapply Permutation_NoDup; eassumption.
  - intros a Ha. apply O. eapply Permutation_in; [symmetry; exact P|assumption].
  - intros a b x y Ha Hb. apply A; (eapply Permutation_in; [symmetry; exact P|assumption]).
Qed.
Lemma live_sub h l m : NoDup m -> incl m l -> live h l -> live h m.
Proof. intros ND I [N O A]. constructor; [assumption|auto|]. intros a b x y Ha Hb. apply A; auto. Qed.

Lemma fload_obj h a ob : nth_error (h_obj h) a = Some ob -> wired h ob -> exists sc cd st,
  nth_error (h_scope h) (o_scope ob) = Some sc /\ nth_error (h_card h) (o_card ob) = Some cd /\ nth_error (h_stride h) (o_stride ob) = Some st /\
  fload h a = Ok (mkFactor (o_bn ob) (o_var ob) sc cd st (o_cpt ob)).
Proof.
  intros E (L1 & L2 & L3). apply nth_error_Some in L1, L2, L3.
  destruct (nth_error (h_scope h) (o_scope ob)) as [sc|] eqn:E1; [|congruence].
  destruct (nth_error (h_card h) (o_card ob)) as [cd|] eqn:E2; [|congruence].
  destruct (nth_error (h_stride h) (o_stride ob)) as [st|] eqn:E3; [|congruence].
  exists sc, cd, st. unfold fload. rewrite (cell_Some _ _ _ E). cbn [bind]. rewrite (cell_Some _ _ _ E1). cbn [bind].
  rewrite (cell_Some _ _ _ E2). cbn [bind]. rewrite (cell_Some _ _ _ E3). cbn [bind]. auto.
Qed.
(** an object whose cells were not written loads as before *)
Lemma fload_frame h h' a ob : nth_error (h_obj h) a = Some ob -> wired h ob -> nth_error (h_obj h') a = Some ob ->
  nth_error (h_scope h') (o_scope ob) = nth_error (h_scope h) (o_scope ob) ->
  nth_error (h_card h') (o_card ob) = nth_error (h_card h) (o_card ob) ->
  nth_error (h_stride h') (o_stride ob) = nth_error (h_stride h) (o_stride ob) -> fload h' a = fload h a.
Proof.
  intros E W E' E1 E2 E3. unfold fload, cell. rewrite E, E'. cbn [bind]. now rewrite E1, E2, E3.
Qed.

(** ** copy *)
Lemma fcopy_ok h s L f : live h (s :: L) -> fload h s = Ok f -> exists h', fcopy h s = Ok (h', length (h_obj h)) /\
  live h' (length (h_obj h) :: L) /\ fload h' (length (h_obj h)) = Ok f /\ length (h_obj h') = S (length (h_obj h)) /\
  (forall a, a < length (h_obj h) -> fload h' a = fload h a) /\
  (forall a x, nth_error (h_obj h) a = Some x -> nth_error (h_obj h') a = Some x) /\
  (forall x, nth_error (h_obj h) s = Some x -> nth_error (h_obj h') (length (h_obj h)) = Some x) /\
  h_scope h' = h_scope h /\ h_card h' = h_card h /\ h_stride h' = h_stride h.
Proof.
  intros Lv Ef. destruct (lv_obj _ _ Lv s (or_introl eq_refl)) as (ob & Eo & W).
  unfold fcopy. rewrite (cell_Some _ _ _ Eo). cbn [bind]. eexists. split; [reflexivity|].
  set (h' := mkH (h_obj h ++ [ob]) (h_scope h) (h_card h) (h_stride h)).
  assert (K : forall a x, nth_error (h_obj h) a = Some x -> nth_error (h_obj h') a = Some x) by (intros a x; apply nth_error_app_lt).
  assert (En : nth_error (h_obj h') (length (h_obj h)) = Some ob) by apply nth_error_snoc.
  assert (Fresh : forall a, In a L -> a < length (h_obj h)).
  { intros a Ha. destruct (lv_obj _ _ Lv a (or_intror Ha)) as (x & E & _). apply nth_error_Some. congruence. }
  split; [|split; [|split; [|split; [|split; [|split]]]]].
  - pose proof (lv_nodup _ _ Lv) as ND. inversion ND; subst. constructor.
    + constructor; [intros C; apply Fresh in C; lia|assumption].
    + intros a [<-|Ha]; [exists ob; split; assumption|]. destruct (lv_obj _ _ Lv a (or_intror Ha)) as (x & E & Wx). exists x. split; [now apply K|exact Wx].
    + intros a b x y [<-|Ha] [<-|Hb] N Ex Ey.
      * congruence.
      * rewrite En in Ex. injection Ex as <-. destruct (lv_obj _ _ Lv b (or_intror Hb)) as (y' & E' & _). rewrite (K _ _ E') in Ey. injection Ey as <-.
        apply (lv_apart _ _ Lv s b); auto; [now left|now right|intros ->; contradiction].
      * rewrite En in Ey. injection Ey as <-. destruct (lv_obj _ _ Lv a (or_intror Ha)) as (y' & E' & _). rewrite (K _ _ E') in Ex. injection Ex as <-.
        apply (lv_apart _ _ Lv a s); auto; [now right|now left|intros ->; contradiction].
      * destruct (lv_obj _ _ Lv a (or_intror Ha)) as (x' & E1 & _), (lv_obj _ _ Lv b (or_intror Hb)) as (y' & E2 & _).
        rewrite (K _ _ E1) in Ex. injection Ex as <-. rewrite (K _ _ E2) in Ey. injection Ey as <-. apply (lv_apart _ _ Lv a b); auto; now right.
  - rewrite <- Ef. unfold fload, cell. rewrite En, Eo. reflexivity.
  - simpl. rewrite app_length. simpl. lia.
  - intros a La. apply nth_error_Some in La. destruct (nth_error (h_obj h) a) as [x|] eqn:E; [|congruence]. unfold fload, cell. rewrite E, (K _ _ E). reflexivity.
  - exact K.
  - intros x Ex. rewrite En. congruence.
  - auto.
Qed.

(** ** product *)
Lemma fmul_ok cd o h s t L fs ft phi psi : good o -> live h (s :: t :: L) -> fload h s = Ok fs -> fload h t = Ok ft -> repr cd fs phi -> repr cd ft psi ->
  exists h' fs', fmul o h s t = Ok h' /\ live h' (s :: L) /\ fload h' s = Ok fs' /\ repr cd fs' (fun a => phi a * psi a)%Qc /\
    (forall v, In v (f_scope fs') <-> In v (f_scope fs) \/ In v (f_scope ft)) /\ f_bn fs' = f_bn fs /\
    (forall a, In a L -> fload h' a = fload h a) /\ length (h_obj h') = length (h_obj h) /\
    (forall a x, a <> s -> nth_error (h_obj h) a = Some x -> nth_error (h_obj h') a = Some x).
Proof.
  intros Go Lv Es Et Rs Rt. pose proof (lv_nodup _ _ Lv) as ND. inversion ND as [|? ? N1 ND1]; subst. inversion ND1 as [|? ? N2 ND2]; subst.
  destruct (lv_obj _ _ Lv s (or_introl eq_refl)) as (os & Eos & Ws). destruct (lv_obj _ _ Lv t (or_intror (or_introl eq_refl))) as (ot & Eot & Wt).
  assert (Ast : apart os ot) by (apply (lv_apart _ _ Lv s t); auto; [now left|right; now left|intros ->; apply N1; now left]).
  destruct (multiply_ok cd o fs ft phi psi Go Rs Rt) as (fs' & ft' & Em & R' & Sc & B & Va & _).
  unfold fmul. rewrite Es, Et. cbn [bind]. rewrite Em. cbn [bind fst]. rewrite (cell_Some _ _ _ Eos), (cell_Some _ _ _ Eot). cbn [bind].
  set (cc := if self_is_phi1 fs ft then o_card os else o_card ot).
  set (nob := mkO (o_bn os) (o_var os) (length (h_scope h)) cc (length (h_stride h)) (f_cpt fs')).
  set (h' := mkH (upd_nth s nob (h_obj h)) (h_scope h ++ [f_scope fs']) (upd_nth cc (f_card fs') (h_card h)) (h_stride h ++ [f_stride fs'])).
  assert (Ls : s < length (h_obj h)) by (apply nth_error_Some; congruence).
  assert (Lc : cc < length (h_card h)) by (unfold cc; destruct (self_is_phi1 fs ft); [apply Ws|apply Wt]).
  assert (En : nth_error (h_obj h') s = Some nob) by now apply nth_error_upd_same.
  assert (Eo : forall a, a <> s -> nth_error (h_obj h') a = nth_error (h_obj h) a) by (intros a Na; apply nth_error_upd_other; congruence).
  assert (Wk : forall x, wired h x -> wired h' x).
  { intros x (W1 & W2 & W3). unfold wired, h'. cbn [h_scope h_card h_stride]. rewrite !app_length, upd_nth_length. simpl. lia. }
  assert (Hn : forall a, In a L -> a <> s /\ a <> t).
  { intros a Ha. split; intros ->; [apply N1; now right|contradiction]. }
  assert (Cc : forall a x, In a L -> nth_error (h_obj h) a = Some x -> o_card x <> cc).
  { intros a x Ha Ex. destruct (Hn a Ha) as [Na1 Na2]. unfold cc. destruct (self_is_phi1 fs ft).
    - apply (lv_apart _ _ Lv a s x os); auto; [right; now right|now left].
    - apply (lv_apart _ _ Lv a t x ot); auto; [right; now right|right; now left]. }
  exists h', fs'. split; [reflexivity|]. split; [|split; [|split; [|split; [|split; [|split; [|split]]]]]].
  - constructor.
    + constructor; [intros C; apply N1; now right|assumption].
    + intros a [<-|Ha].
      * exists nob. split; [exact En|]. unfold wired, h', nob. cbn [h_scope h_card h_stride o_scope o_card o_stride]. rewrite !app_length, upd_nth_length. simpl. lia.
      * destruct (lv_obj _ _ Lv a (or_intror (or_intror Ha))) as (x & Ex & Wx). exists x. rewrite Eo by (now apply Hn). split; [exact Ex|now apply Wk].
    + assert (An : forall a x, In a L -> nth_error (h_obj h) a = Some x -> apart nob x).
      { intros a x Ha Ex. destruct (lv_obj _ _ Lv a (or_intror (or_intror Ha))) as (x' & Ex' & (W1 & W2 & W3)). rewrite Ex in Ex'. injection Ex' as <-.
        unfold apart, nob. cbn [o_scope o_card o_stride]. split; [lia|]. split; [|lia]. intros C. now apply (Cc a x Ha Ex). }
      intros a b x y [<-|Ha] [<-|Hb] Nab Ex Ey.
      * congruence.
      * rewrite En in Ex. injection Ex as <-. rewrite Eo in Ey by (now apply Hn). now apply (An b).
      * rewrite En in Ey. injection Ey as <-. rewrite Eo in Ex by (now apply Hn). destruct (An a x Ha Ex) as (A1 & A2 & A3). unfold apart. auto.
      * rewrite Eo in Ex by (now apply Hn). rewrite Eo in Ey by (now apply Hn). apply (lv_apart _ _ Lv a b); auto; right; now right.
  - unfold fload, cell. rewrite En. cbn [bind nob o_scope o_card o_stride]. unfold h'. cbn [h_scope h_card h_stride]. rewrite nth_error_snoc. cbn [bind].
    rewrite nth_error_upd_same by assumption. cbn [bind]. rewrite nth_error_snoc. cbn [bind o_bn o_var o_cpt].
    f_equal. destruct (fload_obj h s os Eos Ws) as (sc & c & st & _ & _ & _ & E). rewrite E in Es. injection Es as <-. cbn [f_bn f_var] in B, Va.
    destruct fs'. cbn in *. now subst.
  - exact R'.
  - exact Sc.
  - exact B.
  - intros a Ha. destruct (lv_obj _ _ Lv a (or_intror (or_intror Ha))) as (x & Ex & Wx). apply (fload_frame h h' a x Ex Wx).
    + rewrite Eo by (now apply Hn). exact Ex.
    + unfold h'. cbn [h_scope]. apply nth_error_app1. apply Wx.
    + unfold h'. cbn [h_card]. apply nth_error_upd_other. intros C. now apply (Cc a x Ha Ex).
    + unfold h'. cbn [h_stride]. apply nth_error_app1. apply Wx.
  - unfold h'. cbn [h_obj]. apply upd_nth_length.
  - intros a x Na Ex. rewrite Eo by assumption. exact Ex.
Qed.

(** [s *= t] when [t] is not wider than [s], whatever the two share (in particular [s *= s]) *)
Lemma fload_inv h a f : fload h a = Ok f -> exists ob, nth_error (h_obj h) a = Some ob.
Proof. unfold fload, cell. destruct (nth_error (h_obj h) a); [eauto|discriminate]. Qed.
Lemma fmul_big_ok cd o h s t L fs ft phi psi : good o -> live h (s :: L) -> fload h s = Ok fs -> fload h t = Ok ft -> repr cd fs phi -> repr cd ft psi ->
  length (f_scope ft) <= length (f_scope fs) ->
  exists h' fs', fmul o h s t = Ok h' /\ live h' (s :: L) /\ fload h' s = Ok fs' /\ repr cd fs' (fun a => phi a * psi a)%Qc /\
    (forall v, In v (f_scope fs') <-> In v (f_scope fs) \/ In v (f_scope ft)) /\ f_bn fs' = f_bn fs /\
    (forall a, In a L -> fload h' a = fload h a) /\ length (h_obj h') = length (h_obj h) /\
    (forall a x, a <> s -> nth_error (h_obj h) a = Some x -> nth_error (h_obj h') a = Some x).
Proof.
  intros Go Lv Es Et Rs Rt Len. pose proof (lv_nodup _ _ Lv) as ND. inversion ND as [|? ? N1 ND1]; subst.
  destruct (lv_obj _ _ Lv s (or_introl eq_refl)) as (os & Eos & Ws). destruct (fload_inv _ _ _ Et) as (ot & Eot).
  destruct (multiply_ok cd o fs ft phi psi Go Rs Rt) as (fs' & ft' & Em & R' & Sc & B & Va & _).
  unfold fmul. rewrite Es. cbn [bind]. rewrite Et. cbn [bind]. rewrite Em. cbn [bind fst]. rewrite (cell_Some _ _ _ Eos). cbn [bind]. rewrite (cell_Some _ _ _ Eot). cbn [bind].
  assert (Ec : self_is_phi1 fs ft = true) by now apply Nat.leb_le. rewrite Ec.
  set (nob := mkO (o_bn os) (o_var os) (length (h_scope h)) (o_card os) (length (h_stride h)) (f_cpt fs')).
  set (h' := mkH (upd_nth s nob (h_obj h)) (h_scope h ++ [f_scope fs']) (upd_nth (o_card os) (f_card fs') (h_card h)) (h_stride h ++ [f_stride fs'])).
  assert (Ls : s < length (h_obj h)) by (apply nth_error_Some; congruence).
  assert (En : nth_error (h_obj h') s = Some nob) by now apply nth_error_upd_same.
  assert (Eo : forall a, a <> s -> nth_error (h_obj h') a = nth_error (h_obj h) a) by (intros a Na; apply nth_error_upd_other; congruence).
  assert (Hn : forall a, In a L -> a <> s) by (intros a Ha ->; contradiction).
  assert (Cc : forall a x, In a L -> nth_error (h_obj h) a = Some x -> o_card x <> o_card os).
  { intros a x Ha Ex. apply (lv_apart _ _ Lv a s x os); auto; [now right|now left]. }
  exists h', fs'. split; [reflexivity|]. split; [|split; [|split; [|split; [|split; [|split; [|split]]]]]].
  - constructor.
    + assumption.
    + intros a [<-|Ha].
      * exists nob. split; [exact En|]. unfold wired, h', nob. cbn [h_scope h_card h_stride o_scope o_card o_stride]. rewrite !app_length, upd_nth_length. destruct Ws as (_ & W2 & _). simpl. lia.
      * destruct (lv_obj _ _ Lv a (or_intror Ha)) as (x & Ex & Wx). exists x. rewrite Eo by (now apply Hn). split; [exact Ex|].
        destruct Wx as (W1 & W2 & W3). unfold wired, h'. cbn [h_scope h_card h_stride]. rewrite !app_length, upd_nth_length. simpl. lia.
    + assert (An : forall a x, In a L -> nth_error (h_obj h) a = Some x -> apart nob x).
      { intros a x Ha Ex. destruct (lv_obj _ _ Lv a (or_intror Ha)) as (x' & Ex' & (W1 & W2 & W3)). rewrite Ex in Ex'. injection Ex' as <-.
        unfold apart, nob. cbn [o_scope o_card o_stride]. split; [lia|]. split; [|lia]. intros C. now apply (Cc a x Ha Ex). }
      intros a b x y [<-|Ha] [<-|Hb] Nab Ex Ey.
      * congruence.
      * rewrite En in Ex. injection Ex as <-. rewrite Eo in Ey by (now apply Hn). now apply (An b).
      * rewrite En in Ey. injection Ey as <-. rewrite Eo in Ex by (now apply Hn). destruct (An a x Ha Ex) as (A1 & A2 & A3). unfold apart. auto.
      * rewrite Eo in Ex by (now apply Hn). rewrite Eo in Ey by (now apply Hn). apply (lv_apart _ _ Lv a b); auto; now right.
  - unfold fload, cell. rewrite En. cbn [bind nob o_scope o_card o_stride]. unfold h'. cbn [h_scope h_card h_stride]. rewrite nth_error_snoc. cbn [bind].
    rewrite nth_error_upd_same by apply Ws. cbn [bind]. rewrite nth_error_snoc. cbn [bind o_bn o_var o_cpt].
    f_equal. destruct (fload_obj h s os Eos Ws) as (sc & c & st & _ & _ & _ & E). rewrite E in Es. injection Es as <-. cbn [f_bn f_var] in B, Va.
    destruct fs'. cbn in *. now subst.
  - exact R'.
  - exact Sc.
  - exact B.
  - intros a Ha. destruct (lv_obj _ _ Lv a (or_intror Ha)) as (x & Ex & Wx). apply (fload_frame h h' a x Ex Wx).
    + rewrite Eo by (now apply Hn). exact Ex.
    + unfold h'. cbn [h_scope]. apply nth_error_app1. apply Wx.
    + unfold h'. cbn [h_card]. apply nth_error_upd_other. intros C. now apply (Cc a x Ha Ex).
    + unfold h'. cbn [h_stride]. apply nth_error_app1. apply Wx.
  - unfold h'. cbn [h_obj]. apply upd_nth_length.
  - intros a x Na Ex. rewrite Eo by assumption. exact Ex.
Qed.

(** ** summing out *)
Lemma fsumout_ok cd o h s L f phi rv : live h (s :: L) -> fload h s = Ok f -> repr cd f phi -> In rv (f_scope f) ->
  exists h' f', fsumout o h s rv = Ok h' /\ live h' (s :: L) /\ fload h' s = Ok f' /\ repr cd f' (sum_values cd rv phi) /\
    f_scope f' = remove1 rv (f_scope f) /\ f_bn f' = f_bn f /\
    (forall a, In a L -> fload h' a = fload h a) /\ length (h_obj h') = length (h_obj h) /\
    (forall a x, a <> s -> nth_error (h_obj h) a = Some x -> nth_error (h_obj h') a = Some x) /\
    (forall x x', nth_error (h_obj h) s = Some x -> nth_error (h_obj h') s = Some x' -> o_scope x' = o_scope x /\ o_card x' = o_card x /\ o_stride x' = o_stride x) /\
    length (h_scope h') = length (h_scope h) /\ length (h_card h') = length (h_card h) /\ length (h_stride h') = length (h_stride h).
Proof.
  intros Lv Es Rs Hrv. pose proof (lv_nodup _ _ Lv) as ND. inversion ND as [|? ? N1 ND1]; subst.
  destruct (lv_obj _ _ Lv s (or_introl eq_refl)) as (os & Eos & Ws).
  destruct (sumout_ok cd o f phi rv Rs Hrv) as (f' & Em & R' & Sc & B).
  unfold fsumout. rewrite Es. cbn [bind]. rewrite Em. cbn [bind]. rewrite (cell_Some _ _ _ Eos). cbn [bind].
  set (nob := mkO (o_bn os) (f_var f') (o_scope os) (o_card os) (o_stride os) (f_cpt f')).
  set (h' := mkH (upd_nth s nob (h_obj h)) (upd_nth (o_scope os) (f_scope f') (h_scope h)) (upd_nth (o_card os) (f_card f') (h_card h)) (upd_nth (o_stride os) (f_stride f') (h_stride h))).
  assert (Ls : s < length (h_obj h)) by (apply nth_error_Some; congruence).
  assert (En : nth_error (h_obj h') s = Some nob) by now apply nth_error_upd_same.
  assert (Eo : forall a, a <> s -> nth_error (h_obj h') a = nth_error (h_obj h) a) by (intros a Na; apply nth_error_upd_other; congruence).
  assert (Hn : forall a, In a L -> a <> s) by (intros a Ha ->; contradiction).
  assert (Wk : forall x, wired h x -> wired h' x).
  { intros x (W1 & W2 & W3). unfold wired, h'. cbn [h_scope h_card h_stride]. now rewrite !upd_nth_length. }
  assert (Cc : forall a x, In a L -> nth_error (h_obj h) a = Some x -> apart os x).
  { intros a x Ha Ex. apply (lv_apart _ _ Lv s a os x); auto; [now left|now right|]. intros ->. now apply Hn in Ha. }
  exists h', f'. split; [reflexivity|]. split; [|split; [|split; [|split; [|split; [|split; [|split; [|split; [|split]]]]]]]].
  - constructor.
    + assumption.
    + intros a [<-|Ha]; [exists nob; split; [exact En|apply Wk; exact Ws]|].
      destruct (lv_obj _ _ Lv a (or_intror Ha)) as (x & Ex & Wx). exists x. rewrite Eo by (now apply Hn). split; [exact Ex|now apply Wk].
    + intros a b x y [<-|Ha] [<-|Hb] Nab Ex Ey.
      * congruence.
      * rewrite En in Ex. injection Ex as <-. rewrite Eo in Ey by (now apply Hn). exact (Cc b y Hb Ey).
      * rewrite En in Ey. injection Ey as <-. rewrite Eo in Ex by (now apply Hn). destruct (Cc a x Ha Ex) as (A1 & A2 & A3). unfold apart, nob. cbn [o_scope o_card o_stride]. auto.
      * rewrite Eo in Ex by (now apply Hn). rewrite Eo in Ey by (now apply Hn). apply (lv_apart _ _ Lv a b); auto; now right.
  - unfold fload, cell. rewrite En. cbn [bind nob o_scope o_card o_stride]. unfold h'. cbn [h_scope h_card h_stride].
    rewrite nth_error_upd_same by apply Ws. cbn [bind]. rewrite nth_error_upd_same by apply Ws. cbn [bind]. rewrite nth_error_upd_same by apply Ws. cbn [bind o_bn o_var o_cpt].
    f_equal. destruct (fload_obj h s os Eos Ws) as (sc & c & st & _ & _ & _ & E). rewrite E in Es. injection Es as <-. cbn [f_bn] in B.
    destruct f'. cbn in *. now subst.
  - exact R'.
  - exact Sc.
  - exact B.
  - intros a Ha. destruct (lv_obj _ _ Lv a (or_intror Ha)) as (x & Ex & Wx). destruct (Cc a x Ha Ex) as (A1 & A2 & A3). apply (fload_frame h h' a x Ex Wx).
    + rewrite Eo by (now apply Hn). exact Ex.
    + unfold h'. cbn [h_scope]. now apply nth_error_upd_other.
    + unfold h'. cbn [h_card]. now apply nth_error_upd_other.
    + unfold h'. cbn [h_stride]. now apply nth_error_upd_other.
  - unfold h'. cbn [h_obj]. apply upd_nth_length.
  - intros a x Na Ex. rewrite Eo by assumption. exact Ex.
  - intros x x' Ex Ex'. rewrite En in Ex'. injection Ex' as <-. rewrite Eos in Ex. injection Ex as <-. auto.
  - unfold h'. cbn [h_scope h_card h_stride]. now rewrite !upd_nth_length.
Qed.

(** ** loops *)
Definition prod_at (ps : list (asg -> Qc)) (a : asg) : Qc := qprod (map (fun p => p a) ps).
(** the objects [l] represent the functions [ps] *)
Definition represents (cd : name -> nat) (h : fheap) (l : list nat) (ps : list (asg -> Qc)) : Prop :=
  Forall2 (fun a p => exists f, fload h a = Ok f /\ repr cd f p) l ps.
Definition scopes_of (h : fheap) (l : list nat) (v : name) : Prop := exists a f, In a l /\ fload h a = Ok f /\ In v (f_scope f).

Lemma fmul_all_ok cd : forall l ps o h s L fs phi, good o -> live h (s :: l ++ L) -> fload h s = Ok fs -> repr cd fs phi -> represents cd h l ps ->
  exists h' fs', fmul_all o h s l = Ok h' /\ live h' (s :: L) /\ fload h' s = Ok fs' /\ repr cd fs' (fun a => phi a * prod_at ps a)%Qc /\
    (forall v, In v (f_scope fs') <-> In v (f_scope fs) \/ scopes_of h l v) /\ f_bn fs' = f_bn fs /\
    (forall a, In a L -> fload h' a = fload h a) /\ length (h_obj h') = length (h_obj h) /\
    (forall a x, a <> s -> nth_error (h_obj h) a = Some x -> nth_error (h_obj h') a = Some x).
Proof.
  induction l as [|t l IH]; intros ps o h s L fs phi Go Lv Es Rs Rp.
  - inversion Rp; subst. exists h, fs. split; [reflexivity|]. split; [exact Lv|]. split; [exact Es|]. split.
    { eapply repr_congr; [exact Rs|]. intros a _. unfold prod_at. simpl. ring. }
    split; [|split; [reflexivity|auto]]. intros v. split; [auto|]. intros [H|(a & f & [] & _)]; assumption.
  - inversion Rp as [|? p ? ps' (ft & Et & Rt) Rp']; subst. cbn [fmul_all].
    assert (Lv1 : live h (s :: t :: l ++ L)) by exact Lv.
    destruct (fmul_ok cd (sub o 0) h s t (l ++ L) fs ft phi p (good_sub _ _ Go) Lv1 Es Et Rs Rt) as (h1 & f1 & E1 & L1 & F1 & R1 & S1 & B1 & K1 & N1 & O1).
    rewrite E1. cbn [bind].
    assert (Rp1 : represents cd h1 l ps').
    { clear - Rp' K1. unfold represents in *. assert (K : forall a, In a l -> fload h1 a = fload h a) by (intros a Ha; apply K1; apply in_or_app; now left).
      clear K1. induction Rp' as [|a q l' qs (f & E & R) _ IH]; constructor.
      - exists f. split; [rewrite (K a (or_introl eq_refl)); exact E|exact R].
      - apply IH. intros b Hb. apply K. now right. }
    destruct (IH ps' (sub o 1) h1 s L f1 _ (good_sub _ _ Go) L1 F1 R1 Rp1) as (h2 & f2 & E2 & L2 & F2 & R2 & S2 & B2 & K2 & N2 & O2).
    exists h2, f2. split; [exact E2|]. split; [exact L2|]. split; [exact F2|]. split.
    { eapply repr_congr; [exact R2|]. intros a _. unfold prod_at. simpl. ring. }
    split.
    { intros v. rewrite S2, S1. split.
      - intros [[H|H]|(a & f & Ha & Ea & Hv)]; [now left|right; exists t, ft; split; [now left|split; assumption]|].
        right. exists a, f. split; [now right|]. split; [|exact Hv]. rewrite K1 in Ea by (apply in_or_app; now left). exact Ea.
      - intros [H|(a & f & [<-|Ha] & Ea & Hv)]; [left; now left| |].
        + rewrite Et in Ea. injection Ea as <-. left. now right.
        + right. exists a, f. split; [exact Ha|]. split; [|exact Hv]. rewrite K1 by (apply in_or_app; now left). exact Ea. }
    split; [congruence|]. split.
    { intros a Ha. rewrite K2 by assumption. apply K1. apply in_or_app. now right. }
    split; [congruence|]. intros a x Na Ex. apply O2; [assumption|]. now apply O1.
Qed.

Lemma fsumout_all_ok cd : forall vs o h s L f phi, live h (s :: L) -> fload h s = Ok f -> repr cd f phi -> NoDup vs -> incl vs (f_scope f) ->
  exists h' f', fsumout_all o h s vs = Ok h' /\ live h' (s :: L) /\ fload h' s = Ok f' /\
    repr cd f' (sum_over cd (rev vs) phi) /\ (forall v, In v (f_scope f') <-> In v (f_scope f) /\ ~ In v vs) /\ f_bn f' = f_bn f /\
    (forall a, In a L -> fload h' a = fload h a) /\ length (h_obj h') = length (h_obj h) /\
    (forall a x, a <> s -> nth_error (h_obj h) a = Some x -> nth_error (h_obj h') a = Some x) /\
    (forall x x', nth_error (h_obj h) s = Some x -> nth_error (h_obj h') s = Some x' -> o_scope x' = o_scope x /\ o_card x' = o_card x /\ o_stride x' = o_stride x) /\
    length (h_scope h') = length (h_scope h) /\ length (h_card h') = length (h_card h) /\ length (h_stride h') = length (h_stride h).
Proof.
  induction vs as [|v vs IH]; intros o h s L f phi Lv Es Rs ND I.
  - exists h, f. split; [reflexivity|]. split; [exact Lv|]. split; [exact Es|]. split; [exact Rs|]. split; [simpl; tauto|].
    split; [reflexivity|]. split; [auto|]. split; [auto|]. split; [auto|]. split; [intros x x' E E'; rewrite E in E'; injection E' as <-; auto|auto].
  - inversion ND as [|? ? Nv NDv]; subst. cbn [fsumout_all].
    destruct (fsumout_ok cd (sub o 0) h s L f phi v Lv Es Rs (I v (or_introl eq_refl))) as (h1 & f1 & E1 & L1 & F1 & R1 & S1 & B1 & K1 & N1 & O1 & A1 & Ln1 & Ln2 & Ln3).
    rewrite E1. cbn [bind].
    assert (NDf : NoDup (f_scope f)) by exact (wf_nodup _ _ (proj1 Rs)).
    assert (I1 : incl vs (f_scope f1)).
    { intros w Hw. rewrite S1. apply In_remove1; [assumption|]. split; [apply I; now right|]. intros ->. contradiction. }
    destruct (IH (sub o 1) h1 s L f1 _ L1 F1 R1 NDv I1) as (h2 & f2 & E2 & L2 & F2 & R2 & S2 & B2 & K2 & N2 & O2 & A2 & M1 & M2 & M3).
    exists h2, f2. split; [exact E2|]. split; [exact L2|]. split; [exact F2|]. split.
    { cbn [rev]. eapply repr_congr; [exact R2|]. intros a _. now rewrite sum_over_app. }
    split.
    { intros w. rewrite S2, S1, In_remove1 by assumption. simpl. split; [intros [[H1 H2] H3]; split; [assumption|]; intros [C|C]; [now subst|contradiction]|].
      intros [H1 H2]. split; [split; [assumption|]; intros ->; apply H2; now left|]. intros C. apply H2. now right. }
    split; [congruence|]. split; [intros a Ha; rewrite K2 by assumption; now apply K1|]. split; [congruence|].
    split; [intros a x Na Ex; apply O2; [assumption|]; now apply O1|].
    split; [|split; [congruence|split; congruence]].
    intros x x' Ex Ex'. destruct (lv_obj _ _ L1 s (or_introl eq_refl)) as (x1 & Ex1 & _).
    destruct (A1 x x1 Ex Ex1) as (Q1 & Q2 & Q3); destruct (A2 x1 x' Ex1 Ex') as (Q4 & Q5 & Q6); split; [congruence|split; congruence].
Qed.
