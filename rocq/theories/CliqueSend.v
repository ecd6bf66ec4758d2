(** CliqueSend.v -- one message. *)
From Verif Require Import Py Num BayesNet Factor SpecFactor Radix SumOver FactorMul FactorOut FactorMore Factorization VE GraphNet Graph CliqueTree SpecClique CliqueFacts CliqueInit CliqueBuild.
Open Scope nat_scope.

Lemma upd_nth_same {A} (l : list A) i x : nth_error l i = Some x -> upd_nth i x l = l.
Proof. revert i. induction l as [|y l IH]; intros [|i] E; simpl in *; try discriminate; [injection E as <-; reflexivity|]. f_equal. now apply IH. Qed.



Lemma send_ok cd o h cs i j c d b L fb ms ws : good o -> i <> j -> nth_error cs i = Some c -> nth_error cs j = Some d ->
  c_belief c = Some b -> live h (b :: c_msgs c ++ L) -> fload h b = Ok fb -> wf cd fb -> holds cd h (c_msgs c) ms ->
  NoDup ws -> (forall v, In v ws <-> In v (c_scope c) /\ ~ In v (c_scope d)) ->
  (forall v, In v ws -> In v (f_scope fb) \/ in_scopes ms v) ->
  exists h' m fm ff, send_message o h cs i j = Ok (h', upd_nth j (add_msg d m) cs) /\
    live h' (m :: L) /\ fload h' m = Ok fm /\ repr cd fm (sum_over cd ws (prodval (fb :: ms))) /\
    (forall v, In v (f_scope fm) <-> in_scopes (fb :: ms) v /\ ~ In v ws) /\ f_bn fm = f_bn fb /\
    (forall a, In a L -> fload h' a = fload h a) /\
    (forall a x, a <> b -> nth_error (h_obj h) a = Some x -> nth_error (h_obj h') a = Some x) /\ m = length (h_obj h) /\
    (* the sender *)
    repr cd ff (prodval (fb :: ms)) /\ (c_msgs c = [] -> ff = fb) /\ fload h' b = Ok (relabel ff fm).
Proof.
  intros Go Nij Ei Ej Eb Lv Fb Wb Hm NDw Hw Cov. unfold send_message. rewrite (cell_Some _ _ _ Ei). cbn [bind]. unfold ensure_belief. rewrite Eb. cbn [bind fst snd].
  destruct (fmul_all_ok cd (c_msgs c) (map val ms) (sub o 0) h b L fb (val fb) (good_sub _ 0 Go) Lv Fb (repr_val _ _ Wb) (holds_represents _ _ _ _ Hm))
    as (h1 & f1 & E1 & L1 & F1 & R1 & S1 & B1 & K1 & N1 & O1). rewrite E1. cbn [bind].
  destruct (fcopy_ok h1 b L f1 L1 F1) as (h2 & E2 & L2 & F2 & N2 & K2 & O2 & P2 & Q1 & Q2 & Q3). rewrite E2. cbn [bind fst snd]. rewrite (cell_Some _ _ _ Ej). cbn [bind].
  set (m := length (h_obj h1)) in *.
  set (vs := ask (sub o 2) _).
  assert (Pv : Permutation vs ws).
  { assert (Pd : Permutation vs (set_diff (c_scope c) (set_inter (c_scope c) (c_scope d)))) by (apply good_ask; now apply good_sub).
    apply perm_of_iff; [|exact NDw|].
    - eapply Permutation_NoDup; [symmetry; exact Pd|]. apply NoDup_set_diff.
    - intros v. rewrite Hw. split.
      + intros Hv. apply (Permutation_in _ Pd) in Hv. apply In_set_diff in Hv as [H1 H2]. split; [exact H1|]. intros C. apply H2. now apply In_set_inter.
      + intros [H1 H2]. apply (Permutation_in _ (Permutation_sym Pd)). apply In_set_diff. split; [exact H1|]. intros C. apply In_set_inter in C. tauto. }
  assert (Sc1 : forall v, In v (f_scope f1) <-> in_scopes (fb :: ms) v).
  { intros v. rewrite S1, (holds_scopes cd h _ ms v Hm). change (fb :: ms) with ([fb] ++ ms). rewrite in_scopes_app.
    assert (in_scopes [fb] v <-> In v (f_scope fb)).
    { split; [intros (x & [<-|[]] & Hx); exact Hx|intros Hv; exists fb; split; [now left|assumption]]. } tauto. }
  assert (R1' : repr cd f1 (prodval (fb :: ms))).
  { eapply repr_congr; [exact R1|]. intros a _. cbn beta. rewrite prod_at_val. reflexivity. }
  assert (NDv : NoDup vs) by (eapply Permutation_NoDup; [symmetry; exact Pv|exact NDw]).
  destruct (fsumout_all_ok cd vs (sub o 1) h2 m L f1 (prodval (fb :: ms)) L2 F2 R1' NDv) as (h3 & f3 & E3 & L3 & F3 & R3 & S3 & B3 & K3 & N3 & O3 & A3 & M1 & M2 & M3).
  { intros v Hv. apply Sc1. apply (Permutation_in _ Pv) in Hv. destruct (Cov v Hv) as [H|(x & Hx & Hv')]; [exists fb; split; [now left|exact H]|exists x; split; [now right|exact Hv']]. }
  rewrite E3. cbn [bind].
  assert (Ec : mkC (c_scope c) (c_F c) (c_psi c) (Some b) (c_msgs c) = c) by (rewrite <- Eb; now destruct c). rewrite Ec. rewrite (upd_nth_same cs i c Ei). rewrite (cell_Some _ _ _ Ej). cbn [bind].
  exists h3, m, f3, f1. split; [reflexivity|]. split; [exact L3|]. split; [exact F3|]. split.
  { eapply repr_congr; [exact R3|]. intros a Va. rewrite (sum_over_perm cd (rev vs) ws); [reflexivity|apply prodval_ext|now apply NoDup_rev|]. now rewrite <- Permutation_rev. }
  split; [intros v; rewrite S3, Sc1; split; intros [A B]; (split; [exact A|]); intros C; apply B; [now apply (Permutation_in _ (Permutation_sym Pv))|now apply (Permutation_in _ Pv)]|].
  split; [congruence|].
  assert (Llt : forall a, In a L -> a < m).
  { intros a Ha. destruct (lv_obj _ _ L1 a (or_intror Ha)) as (x & Ex & _). apply nth_error_Some. congruence. }
  split; [intros a Ha; rewrite K3 by assumption; rewrite K2 by (now apply Llt); now apply K1|].
  split.
  { intros a x Na Ex. assert (a < m) by (rewrite N1; apply nth_error_Some; congruence). apply O3; [lia|]. apply O2. now apply O1. }
  split; [exact N1|]. split; [exact R1'|]. split.
  { intros Em. rewrite Em in E1. cbn [fmul_all] in E1. injection E1 as <-. congruence. }
  destruct (lv_obj _ _ L1 b (or_introl eq_refl)) as (x & Ex & Wx).
  assert (Lbm : b < m) by (apply nth_error_Some; congruence).
  assert (Ex3 : nth_error (h_obj h3) b = Some x) by (apply O3; [lia|]; now apply O2).
  destruct (lv_obj _ _ L3 m (or_introl eq_refl)) as (y & Ey & Wy).
  destruct (A3 x y (P2 _ Ex) Ey) as (Y1 & Y2 & Y3).
  destruct (fload_obj h3 m y Ey Wy) as (sc & cc & st & Z1 & Z2 & Z3 & Z4). rewrite F3 in Z4. injection Z4 as ->.
  destruct (fload_obj h1 b x Ex Wx) as (sc' & cc' & st' & _ & _ & _ & Z4'). rewrite F1 in Z4'. injection Z4' as ->.
  unfold fload, cell. rewrite Ex3. cbn [bind]. rewrite <- Y1, <- Y2, <- Y3, Z1, Z2, Z3. cbn [bind]. reflexivity.
Qed.
