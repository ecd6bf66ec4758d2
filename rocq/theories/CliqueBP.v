(** CliqueBP.v -- the upward pass computes the product of the potentials summed onto the root. *)
From Verif Require Import Py Num BayesNet Factor SpecFactor Radix SumOver FactorMul FactorOut FactorMore Factorization VE GraphNet Graph CliqueTree SpecClique CliqueFacts CliqueInit CliqueBuild CliqueSend.
Open Scope nat_scope.

Definition msgs_at (cs : list clique) (k : nat) : list nat := match nth_error cs k with Some c => c_msgs c | None => [] end.

(** what one clique that has not sent yet looks like *)
Definition station (cd : name -> nat) (h : fheap) (cs : list clique) (sc : nat -> list name) (k b : nat) (f : factor) (ms : list factor) : Prop :=
  exists c p, nth_error cs k = Some c /\ c_scope c = sc k /\ c_belief c = Some b /\ c_psi c = Some p /\
    p <> b /\ nth_error (h_obj h) p = nth_error (h_obj h) b /\ fload h b = Ok f /\ wf cd f /\ holds cd h (c_msgs c) ms /\
    forall v, in_scopes (f :: ms) v -> In v (sc k).

Definition owned (cs : list clique) (B : nat -> nat) (rem : list nat) : list nat := flat_map (fun k => B k :: msgs_at cs k) rem.

Record inv (cd : name -> nat) (sc : nat -> list name) (h : fheap) (cs : list clique) (rem : list nat) (B : nat -> nat) (F : nat -> factor) (Ms : nat -> list factor) : Prop := {
  iv_nd : NoDup rem;
  iv_live : live h (owned cs B rem);
  iv_st : forall k, In k rem -> station cd h cs sc k (B k) (F k) (Ms k);
  iv_cov : forall k v, In k rem -> In v (sc k) -> exists k', In k' rem /\ in_scopes (F k' :: Ms k') v }.

Definition current (F : nat -> factor) (Ms : nat -> list factor) (rem : list nat) (a : asg) : Qc :=
  qprod (map (fun k => prodval (F k :: Ms k) a) rem).

Lemma owned_perm cs B rem rem' : Permutation rem rem' -> Permutation (owned cs B rem) (owned cs B rem').
Proof. intros P. unfold owned. now apply Permutation_flat_map. Qed.
Lemma inv_perm cd sc h cs rem rem' B F Ms : Permutation rem rem' -> inv cd sc h cs rem B F Ms -> inv cd sc h cs rem' B F Ms.
Proof.
  intros P [N L St C]. constructor.
  - eapply Permutation_NoDup; eassumption.
  - eapply live_perm; [apply owned_perm; exact P|exact L].
  - intros k Hk. apply St. eapply Permutation_in; [symmetry; exact P|exact Hk].
  - intros k v Hk Hv. destruct (C k v) as (k' & Hk' & H); [eapply Permutation_in; [symmetry; exact P|exact Hk]|exact Hv|]. exists k'. split; [eapply Permutation_in; eassumption|exact H].
Qed.

Definition fset {A} (g : nat -> A) (j : nat) (x : A) : nat -> A := fun k => if k =? j then x else g k.
Lemma fset_same {A} (g : nat -> A) j x : fset g j x j = x. Proof. unfold fset. now rewrite Nat.eqb_refl. Qed.
Lemma fset_other {A} (g : nat -> A) j x k : k <> j -> fset g j x k = g k. Proof. intros N. unfold fset. apply Nat.eqb_neq in N. now rewrite N. Qed.

(** one message *)
Lemma send_step cd sc o h cs i j rem B F Ms : good o -> inv cd sc h cs (i :: rem) B F Ms -> In j rem ->
  (forall k v, In k rem -> In v (sc i) -> In v (sc k) -> In v (sc j)) ->
  let ws := set_diff (sc i) (sc j) in
  exists h' cs' fm, send_message o h cs i j = Ok (h', cs') /\ inv cd sc h' cs' rem B F (fset Ms j (Ms j ++ [fm])) /\
    repr cd fm (sum_over cd ws (prodval (F i :: Ms i))) /\ (forall v, In v (f_scope fm) <-> in_scopes (F i :: Ms i) v /\ ~ In v ws).
Proof.
  intros Go [ND Lv St Cov] Hj Rip ws. inversion ND as [|? ? Ni ND']; subst.
  assert (Nij : i <> j) by (intros ->; contradiction).
  destruct (St i (or_introl eq_refl)) as (c & p & Ec & Sc & Eb & Ep & Npb & Eob & Fb & Wb & Hm & Ib).
  destruct (St j (or_intror Hj)) as (d & pd & Ed & Sd & Ebd & Epd & Npd & Eod & Fd & Wd & Hmd & Id).
  assert (Hws : forall v, In v ws <-> In v (c_scope c) /\ ~ In v (c_scope d)) by (intros v; unfold ws; rewrite In_set_diff, Sc, Sd; tauto).
  assert (Out : forall v, In v ws -> forall k, In k rem -> ~ In v (sc k)).
  { intros v Hv k Hk Hs. apply In_set_diff in Hv as [H1 H2]. apply H2. now apply (Rip k). }
  assert (Lv1 : live h (B i :: c_msgs c ++ owned cs B rem)).
  { unfold owned in Lv. simpl in Lv. unfold msgs_at in Lv at 1. rewrite Ec in Lv. exact Lv. }
  destruct (send_ok cd o h cs i j c d (B i) (owned cs B rem) (F i) (Ms i) ws Go Nij Ec Ed Eb Lv1 Fb Wb Hm (NoDup_set_diff _ _) Hws)
    as (h' & m & fm & ff & E & L' & Fm & Rm & Sm & _ & K & O & Em & _).
  { intros v Hv. assert (Hs : In v (sc i)) by (apply In_set_diff in Hv; tauto).
    destruct (Cov i v (or_introl eq_refl) Hs) as (k' & [<-|Hk'] & Hin).
    - destruct Hin as (x & [<-|Hx] & Hv'); [now left|right; exists x; auto].
    - exfalso. destruct (St k' (or_intror Hk')) as (c' & p' & _ & _ & _ & _ & _ & _ & _ & _ & _ & I'). apply (Out v Hv k' Hk'). now apply I'. }
  set (cs' := upd_nth j (add_msg d m) cs) in *.
  assert (Lj : j < length cs) by (apply nth_error_Some; congruence).
  assert (Nj : nth_error cs' j = Some (add_msg d m)) by now apply nth_error_upd_same.
  assert (Nk : forall k, k <> j -> nth_error cs' k = nth_error cs k) by (intros k Hk; apply nth_error_upd_other; congruence).
  exists h', cs', fm. split; [exact E|]. split; [|split; [exact Rm|exact Sm]].
  assert (Obj : forall k, In k rem -> forall q, nth_error (h_obj h) q = nth_error (h_obj h) (B k) -> q <> B k -> nth_error (h_obj h') q = nth_error (h_obj h') (B k)).
  { intros k Hk q Eq Nq. assert (HB : In (B k) (owned cs B rem)) by (apply in_flat_map; exists k; split; [exact Hk|now left]).
    destruct (lv_obj _ _ Lv1 (B k)) as (x & Ex & Wx); [right; apply in_or_app; now right|].
    assert (N1 : B k <> B i). { intros C. pose proof (lv_nodup _ _ Lv1) as Q. inversion Q as [|? ? Q1 _]; subst. apply Q1. rewrite <- C. apply in_or_app. now right. }
    assert (N2 : q <> B i).
    { intros ->. rewrite Ex in Eq. destruct (lv_apart _ _ Lv1 (B i) (B k) x x) as (Q & _); auto; [now left|right; apply in_or_app; now right]. }
    rewrite (O q x N2) by congruence. now rewrite (O (B k) x N1 Ex). }
  constructor.
  - exact ND'.
  - assert (Pj : exists r1 r2, rem = r1 ++ j :: r2) by now apply in_split. destruct Pj as (r1 & r2 & ->).
    eapply live_perm; [|exact L']. unfold owned. rewrite !flat_map_app. simpl.
    assert (Q1 : msgs_at cs' j = c_msgs d ++ [m]) by (unfold msgs_at; now rewrite Nj).
    assert (Q2 : msgs_at cs j = c_msgs d) by (unfold msgs_at; now rewrite Ed). rewrite Q1, Q2.
    assert (Q : forall r, ~ In j r -> flat_map (fun k => B k :: msgs_at cs' k) r = flat_map (fun k => B k :: msgs_at cs k) r).
    { intros r Hr. induction r as [|k r IHr]; [reflexivity|]. simpl. rewrite IHr by (intros C; apply Hr; now right). unfold msgs_at. rewrite Nk; [reflexivity|]. intros ->. apply Hr. now left. }
    pose proof (NoDup_remove_2 _ _ _ ND') as Nr.
    rewrite !Q by (intros C; apply Nr; apply in_or_app; auto).
    set (X := flat_map _ r1). set (Y := flat_map _ r2). change (m :: X ++ B j :: c_msgs d ++ Y) with ([m] ++ X ++ B j :: c_msgs d ++ Y).
    change (X ++ B j :: (c_msgs d ++ [m]) ++ Y) with (X ++ (B j :: c_msgs d ++ [m]) ++ Y).
    rewrite (Permutation_app_comm [m]). rewrite <- app_assoc. apply Permutation_app_head.
    change (B j :: c_msgs d ++ [m]) with ((B j :: c_msgs d) ++ [m]). rewrite <- app_assoc. change (B j :: c_msgs d ++ Y) with ((B j :: c_msgs d) ++ Y). rewrite <- app_assoc.
    apply Permutation_app_head. apply Permutation_app_comm.
  - intros k Hk. destruct (Nat.eq_dec k j) as [->|Nkj].
    + rewrite fset_same. exists (add_msg d m), pd. split; [exact Nj|]. cbn [add_msg c_scope c_belief c_psi c_msgs]. split; [exact Sd|]. split; [exact Ebd|]. split; [exact Epd|]. split; [exact Npd|].
      split; [now apply Obj|].
      assert (HBj : In (B j) (owned cs B rem)) by (apply in_flat_map; exists j; split; [exact Hj|now left]).
      split; [rewrite K by assumption; exact Fd|]. split; [exact Wd|]. split.
      * apply holds_app; [|constructor; [split; [exact Fm|exact (proj1 Rm)]|constructor]]. eapply holds_frame; [|exact Hmd]. intros a Ha. apply K. apply in_flat_map. exists j. split; [exact Hj|right]. unfold msgs_at. now rewrite Ed.
      * intros v Hv. change (F j :: Ms j ++ [fm]) with ((F j :: Ms j) ++ [fm]) in Hv. apply in_scopes_app in Hv as [Hv|(x & [<-|[]] & Hv)]; [now apply Id|].
        apply Sm in Hv as [Hv Nw]. apply Ib in Hv. destruct (in_dec name_eq_dec v (sc j)) as [H|H]; [exact H|]. exfalso. apply Nw. now apply In_set_diff.
    + rewrite fset_other by assumption. destruct (St k (or_intror Hk)) as (c' & p' & A1 & A2 & A3 & A4 & A5 & A6 & A7 & A8 & A9 & A10). exists c', p'.
      split; [rewrite Nk by assumption; exact A1|]. split; [exact A2|]. split; [exact A3|]. split; [exact A4|]. split; [exact A5|]. split; [now apply Obj|].
      assert (HB : In (B k) (owned cs B rem)) by (apply in_flat_map; exists k; split; [exact Hk|now left]).
      split; [rewrite K by assumption; exact A7|]. split; [exact A8|]. split; [|exact A10]. eapply holds_frame; [|exact A9]. intros a Ha. apply K. apply in_flat_map. exists k. split; [exact Hk|right]. unfold msgs_at. now rewrite A1.
  - intros k v Hk Hv. destruct (Cov k v (or_intror Hk) Hv) as (k' & [<-|Hk'] & Hin).
    + exists j. split; [exact Hj|]. rewrite fset_same. change (F j :: Ms j ++ [fm]) with ((F j :: Ms j) ++ [fm]). apply in_scopes_app. right. exists fm. split; [now left|].
      apply Sm. split; [exact Hin|]. intros C. exact (Out v C k Hk Hv).
    + exists k'. split; [exact Hk'|]. destruct (Nat.eq_dec k' j) as [->|N]; [|now rewrite fset_other]. rewrite fset_same. change (F j :: Ms j ++ [fm]) with ((F j :: Ms j) ++ [fm]). apply in_scopes_app. now left.
Qed.

(** ** sums *)
Lemma qsum_map_mul_r {A} (f : A -> Qc) (k : Qc) l : qsum (map (fun x => f x * k) l)%Qc = (qsum (map f l) * k)%Qc.
Proof.
  induction l as [|x l IH]; [simpl; ring|]. cbn [map].
  change (qsum ((f x * k)%Qc :: map (fun x => f x * k)%Qc l)) with (f x * k + qsum (map (fun x => f x * k) l))%Qc.
  change (qsum (f x :: map f l)) with (f x + qsum (map f l))%Qc. rewrite IH. ring.
Qed.
Lemma sum_over_mul_const cd vs f k : forall a, sum_over cd vs (fun b => f b * k)%Qc a = (sum_over cd vs f a * k)%Qc.
Proof.
  induction vs as [|v r IH]; intros a; [reflexivity|]. cbn [sum_over]. unfold sum_values. rewrite <- qsum_map_mul_r. apply qsum_map_ext. intros x _. apply IH.
Qed.
Lemma sum_over_mul_r cd vs f g a : (forall b, (forall w, ~ In w vs -> b w = a w) -> g b = g a) ->
  sum_over cd vs (fun b => f b * g b)%Qc a = (sum_over cd vs f a * g a)%Qc.
Proof.
  intros H. rewrite <- sum_over_mul_const. apply sum_over_congr. intros b Hb _. now rewrite H.
Qed.

Lemma current_perm F Ms l m a : Permutation l m -> current F Ms l a = current F Ms m a.
Proof. intros P. unfold current. apply qprod_perm. now apply Permutation_map. Qed.
Lemma current_ext F Ms l : ext (current F Ms l).
Proof. intros a b H. unfold current. apply qprod_map_ext. intros k _. now apply prodval_ext. Qed.

(** the schedule *)
Lemma pass cd sc root all : forall rem es, schedule sc root rem es -> forall o h cs B F Ms P gone,
  good o -> inv cd sc h cs rem B F Ms -> (forall k, In k rem -> incl (sc k) all) ->
  (forall a, valid cd all a -> sum_over cd gone P a = current F Ms rem a) ->
  NoDup gone -> (forall v, In v gone <-> In v all /\ forall k, In k rem -> ~ In v (sc k)) ->
  exists h' cs' F' Ms' gone', upward o h cs es = Ok (h', cs') /\ inv cd sc h' cs' [root] B F' Ms' /\
    (forall a, valid cd all a -> sum_over cd gone' P a = prodval (F' root :: Ms' root) a) /\
    NoDup gone' /\ forall v, In v gone' <-> In v all /\ ~ In v (sc root).
Proof.
  intros rem es Sch. induction Sch as [|i j rem rem' es Pr Hj Nr Rip Sch IH]; intros o h cs B F Ms P gone Go Iv Ia Val NDg Hg.
  - exists h, cs, F, Ms, gone. split; [reflexivity|]. split; [exact Iv|]. split.
    { intros a Va. rewrite Val by assumption. unfold current. simpl. ring. }
    split; [exact NDg|]. intros v. rewrite Hg. split; [intros [H1 H2]; split; [exact H1|apply H2; now left]|]. intros [H1 H2]. split; [exact H1|]. intros k [<-|[]]. exact H2.
  - apply (inv_perm _ _ _ _ _ _ _ _ _ Pr) in Iv. cbn [upward].
    destruct (send_step cd sc (sub o 0) h cs i j rem' B F Ms (good_sub _ 0 Go) Iv Hj Rip) as (h1 & cs1 & fm & E1 & Iv1 & Rm & Sm). rewrite E1. cbn [bind fst snd].
    set (ws := set_diff (sc i) (sc j)) in *.
    assert (Ji : In i rem) by (apply (Permutation_in _ (Permutation_sym Pr)); now left).
    assert (Jr : forall k, In k rem' -> In k rem) by (intros k Hk; apply (Permutation_in _ (Permutation_sym Pr)); now right).
    assert (Out : forall v, In v ws -> forall k, In k rem' -> ~ In v (sc k)).
    { intros v Hv k Hk Hs. apply In_set_diff in Hv as [H1 H2]. apply H2. now apply (Rip k). }
    assert (Wall : incl ws all) by (intros v Hv; apply (Ia i Ji); apply In_set_diff in Hv; tauto).
    pose proof (iv_st _ _ _ _ _ _ _ _ Iv) as St.
    destruct (IH (sub o 1) h1 cs1 B F (fset Ms j (Ms j ++ [fm])) P (ws ++ gone)) as (h' & cs' & F' & Ms' & gone' & E & Iv' & V' & N' & H').
    + now apply good_sub.
    + exact Iv1.
    + intros k Hk. apply Ia. now apply Jr.
    + intros a Va. rewrite sum_over_app.
      transitivity (sum_over cd ws (fun b => prodval (F i :: Ms i) b * current F Ms rem' b)%Qc a).
      { apply sum_over_congr. intros b Hb Vb. rewrite Val.
        - rewrite (current_perm F Ms rem (i :: rem') b Pr). reflexivity.
        - intros v Hv. destruct (in_dec name_eq_dec v ws) as [H|H]; [now apply Vb; [apply NoDup_set_diff|]|]. rewrite Hb by assumption. now apply Va. }
      rewrite sum_over_mul_r.
      * assert (Vm : valid cd (f_scope fm) a).
        { intros v Hv. apply Sm in Hv as [Hv _]. destruct (St i (or_introl eq_refl)) as (c' & p' & _ & _ & _ & _ & _ & _ & _ & _ & _ & I'). apply Va. apply (Ia i Ji). now apply I'. }
        rewrite (repr_to_val _ _ _ Rm a Vm).
        apply in_split in Hj as (r1 & r2 & ->).
        assert (ND : NoDup (r1 ++ j :: r2)) by (pose proof (iv_nd _ _ _ _ _ _ _ _ Iv) as Q; now inversion Q).
        pose proof (NoDup_remove_2 _ _ _ ND) as Nj.
        unfold current. rewrite !map_app, !qprod_app. cbn [map].
        assert (Q : forall r, ~ In j r -> map (fun k => prodval (F k :: fset Ms j (Ms j ++ [fm]) k) a) r = map (fun k => prodval (F k :: Ms k) a) r).
        { intros r Hr. apply map_ext_in. intros k Hk. rewrite fset_other; [reflexivity|]. intros ->. contradiction. }
        rewrite !Q by (intros C; apply Nj; apply in_or_app; auto). rewrite fset_same.
        change (F j :: Ms j ++ [fm]) with ((F j :: Ms j) ++ [fm]). rewrite prodval_app.
        assert (Q1 : prodval [fm] a = val fm a) by (unfold prodval; simpl; ring). rewrite Q1. simpl. ring.
      * intros b Hb. unfold current. apply qprod_map_ext. intros k Hk. apply prodval_scope. intros w Hw. apply Hb. intros C.
        destruct (St k (or_intror Hk)) as (c' & p' & _ & _ & _ & _ & _ & _ & _ & _ & _ & I'). exact (Out w C k Hk (I' w Hw)).
    + apply NoDup_app_intro; [apply NoDup_set_diff|exact NDg|]. intros v H1 H2. apply Hg in H2 as [_ H2]. apply (H2 i Ji). apply In_set_diff in H1. tauto.
    + intros v. rewrite in_app_iff, Hg. split.
      * intros [H|[H1 H2]]; [split; [now apply Wall|now apply Out]|]. split; [exact H1|]. intros k Hk. apply H2. now apply Jr.
      * intros [H1 H2]. destruct (in_dec name_eq_dec v (sc i)) as [H|H]; [left; apply In_set_diff; split; [exact H|now apply H2]|].
        right. split; [exact H1|]. intros k Hk. apply (Permutation_in _ Pr) in Hk as [<-|Hk]; [exact H|now apply H2].
    + exists h', cs', F', Ms', gone'. auto.
Qed.

(** collecting at the root *)
Lemma collect_ok cd sc o h cs root B F Ms : good o -> inv cd sc h cs [root] B F Ms ->
  exists c h' c' b f, nth_error cs root = Some c /\ collect_beliefs o h c = Ok (h', c') /\ c_belief c' = Some b /\ fload h' b = Ok f /\
    repr cd f (prodval (F root :: Ms root)) /\ (forall v, In v (f_scope f) <-> in_scopes (F root :: Ms root) v) /\ c_scope c' = c_scope c.
Proof.
  intros Go [ND Lv St Cov]. destruct (St root (or_introl eq_refl)) as (c & p & Ec & Sc & Eb & Ep & Npb & Eob & Fb & Wb & Hm & Ib).
  assert (Lv1 : live h (B root :: c_msgs c)).
  { unfold owned in Lv. simpl in Lv. rewrite app_nil_r in Lv. unfold msgs_at in Lv. rewrite Ec in Lv. exact Lv. }
  exists c. unfold collect_beliefs. destruct (c_msgs c) as [|m0 mr] eqn:Em.
  - rewrite Eb. inversion Hm as [Hq|]; subst. destruct (fcopy_ok h (B root) [] (F root) Lv1 Fb) as (h1 & E1 & _ & F1 & _). rewrite E1. cbn [bind fst snd].
    exists h1, (mkC (c_scope c) (c_F c) (c_psi c) (Some (length (h_obj h))) []), (length (h_obj h)), (F root).
    split; [exact Ec|]. split; [reflexivity|]. split; [reflexivity|]. split; [exact F1|]. rewrite <- Hq || idtac. split.
    + eapply repr_congr; [apply repr_val; exact Wb|]. intros a _. unfold prodval. simpl. ring.
    + split; [|reflexivity]. intros v. split; [intros Hv; exists (F root); split; [now left|assumption]|intros (x & [<-|[]] & Hv); exact Hv].
  - rewrite Ep. assert (Ecp : fcopy h p = fcopy h (B root)) by (unfold fcopy, cell; now rewrite Eob). rewrite Ecp.
    destruct (fcopy_ok h (B root) (m0 :: mr) (F root) Lv1 Fb) as (h1 & E1 & L1 & F1 & N1 & K1 & _). rewrite E1. cbn [bind fst snd].
    assert (Hm1 : holds cd h1 (m0 :: mr) (Ms root)).
    { eapply holds_frame; [|exact Hm]. intros a Ha. apply K1. destruct (lv_obj _ _ Lv1 a (or_intror Ha)) as (x & Ex & _). apply nth_error_Some. congruence. }
    assert (L1' : live h1 (length (h_obj h) :: (m0 :: mr) ++ [])) by now rewrite app_nil_r.
    destruct (fmul_all_ok cd (m0 :: mr) (map val (Ms root)) o h1 (length (h_obj h)) [] (F root) (val (F root)) Go L1' F1 (repr_val _ _ Wb) (holds_represents _ _ _ _ Hm1))
      as (h2 & f2 & E2 & _ & F2 & R2 & S2 & _). rewrite E2. cbn [bind].
    exists h2, (mkC (c_scope c) (c_F c) (Some p) (Some (length (h_obj h))) []), (length (h_obj h)), f2. split; [exact Ec|]. split; [reflexivity|]. split; [reflexivity|]. split; [exact F2|]. split.
    + eapply repr_congr; [exact R2|]. intros a _. cbn beta. rewrite prod_at_val. reflexivity.
    + split; [|reflexivity]. intros v. rewrite S2, (holds_scopes cd h1 _ _ v Hm1). change (F root :: Ms root) with ([F root] ++ Ms root). rewrite in_scopes_app.
      assert (in_scopes [F root] v <-> In v (f_scope (F root))).
      { split; [intros (x & [<-|[]] & Hx); exact Hx|intros Hv; exists (F root); split; [now left|assumption]]. } tauto.
Qed.
