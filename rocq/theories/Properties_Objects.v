(** Properties_Objects.v -- C122, C123: Factor and Factorization objects, edited in place. *)
From Verif Require Import Py Num BayesNet Factor SpecFactor Factorization Rounding CliqueTree CliqueFacts CliqueInit FactorMul FactorOut FactorHeap FactorHeapFacts FactorHeapSim SpecObjects Examples.
Open Scope nat_scope.

Definition holds_at (bn : bayesnet) (h : fheap) (a : nat) (phi : asg -> Qc) (sc : name -> Prop) : Prop :=
  exists f, fload h a = Ok f /\ f_bn f = bn /\ repr (ncard bn) f phi /\ forall v, In v (f_scope f) <-> sc v.
Lemma holds_same bn h h' a phi sc : fload h' a = fload h a -> holds_at bn h a phi sc -> holds_at bn h' a phi sc.
Proof. intros E (f & L & R). exists f. rewrite E. auto. Qed.
Lemma remove1_wf cd f rv v : wf cd f -> (In v (remove1 rv (f_scope f)) <-> In v (f_scope f) /\ v <> rv).
Proof. intros W. apply In_remove1. apply (wf_nodup _ _ W). Qed.

Lemma feval_ok bn base env sc : forall e o h M, good o -> own base h (vars e ++ M) -> (forall a, In a (vars e) -> holds_at bn h a (env a) (fun v => In v (sc a))) -> proper bn sc e ->
  exists h', feval o h e = Ok (h', leftmost e) /\ own base h' (leftmost e :: M) /\ holds_at bn h' (leftmost e) (mean bn env e) (about sc e) /\ same_on h h' M.
Proof.
  induction e as [a|x IHx y IHy|x IHx rv val|x IHx rv|x IHx rv]; intros o h M G O H P; cbn [feval leftmost mean about vars proper] in *.
  - exists h. split; [reflexivity|]. split; [exact O|]. split; [apply H; now left|intros ? ?; reflexivity].
  - destruct P as [Px Py]. rewrite <- app_assoc in O.
    destruct (IHx (sub o 0) h (vars y ++ M) (good_sub _ _ G) O) as (h1 & E1 & O1 & H1 & S1); [intros a Ha; apply H; apply in_or_app; now left|assumption|]. rewrite E1. cbn [bind fst snd].
    assert (O1' : own base h1 (vars y ++ leftmost x :: M)) by (eapply own_perm; [apply Permutation_middle|exact O1]).
    destruct (IHy (sub o 1) h1 (leftmost x :: M) (good_sub _ _ G) O1') as (h2 & E2 & O2 & H2 & S2); [|assumption|].
    { intros a Ha. apply (holds_same bn h); [apply S1; apply in_or_app; now left|]. apply H. apply in_or_app. now right. }
    rewrite E2. cbn [bind fst snd]. destruct (holds_same bn h1 h2 _ _ _ (S2 _ (or_introl eq_refl)) H1) as (fx & Lx & Bx & Rx & Scx). destruct H2 as (fy & Ly & By & Ry & Scy).
    assert (O2' : own base h2 (leftmost x :: leftmost y :: M)) by (eapply own_perm; [apply perm_swap|exact O2]).
    destruct (multiply_ok (ncard bn) (sub o 2) fx fy _ _ (good_sub _ _ G) Rx Ry) as (p & p' & Em & R' & Sc & B & _).
    pose proof (mul_tracks base (sub o 2) h2 (leftmost x) (leftmost y) M fx fy O2' Lx Ly) as T. rewrite Em in T. destruct (fmul (sub o 2) h2 (leftmost x) (leftmost y)) as [h3|]; [|contradiction]. cbn [tracks fst] in T. destruct T as (O3 & L3 & S3).
    cbn [bind]. exists h3. split; [reflexivity|]. split; [exact O3|]. split.
    + exists p. split; [exact L3|]. split; [congruence|]. split; [exact R'|]. intros v. rewrite Sc, Scx, Scy. reflexivity.
    + intros a Ha. rewrite S3 by assumption. rewrite S2 by (now right). apply S1. apply in_or_app. now right.
  - destruct P as (Px & Ar & Hv). destruct (IHx (sub o 0) h M (good_sub _ _ G) O H Px) as (h1 & E1 & O1 & (f & L & B & R & Sc) & S1). rewrite E1. cbn [bind fst snd].
    destruct (index_of val (nvalues bn rv)) as [i|] eqn:Ei; [|apply index_of_None in Ei; contradiction].
    assert (Hd : exists d, dget (bn_F bn) rv = Some d /\ nvalues bn rv = f_values d). { unfold nvalues in *. destruct (dget (bn_F bn) rv) as [d|]; [eauto|destruct Hv]. }
    destruct Hd as (d & Ed & Ev).
    destruct (reduce_ok (ncard bn) (sub o 1) f _ rv val i R) as (f' & Em & R' & Sc' & B').
    { now apply Sc. } { rewrite B. intros d' Hd'. rewrite Ed in Hd'. injection Hd' as <-. now rewrite <- Ev. } { rewrite B. congruence. }
    { unfold ncard. rewrite Ed, <- Ev. now apply index_of_lt in Ei. }
    pose proof (write_tracks base (fun f => reduce_factor (sub o 1) f rv val) h1 (leftmost x) M f O1 L (fun f' => reduce_bn _ _ _ _ _)) as T. cbv beta in T. rewrite Em in T.
    unfold freduce. destruct (fwrite (fun f => reduce_factor (sub o 1) f rv val) h1 (leftmost x)) as [h2|]; [|contradiction]. cbn [tracks] in T. destruct T as (O2 & L2 & S2). cbn [bind].
    exists h2. split; [reflexivity|]. split; [exact O2|]. split.
    + exists f'. split; [exact L2|]. split; [congruence|]. split; [unfold position; rewrite Ei; exact R'|]. intros v. rewrite Sc', (remove1_wf _ f rv v (proj1 R)), Sc. reflexivity.
    + now apply (same_trans h h1).
  - destruct P as (Px & Ar). destruct (IHx (sub o 0) h M (good_sub _ _ G) O H Px) as (h1 & E1 & O1 & (f & L & B & R & Sc) & S1). rewrite E1. cbn [bind fst snd].
    destruct (sumout_ok (ncard bn) (sub o 1) f _ rv R (proj2 (Sc rv) Ar)) as (f' & Em & R' & Sc' & B').
    pose proof (write_tracks base (fun f => sumout_var (sub o 1) f rv) h1 (leftmost x) M f O1 L (fun f' => out_var_bn _ _ _ _ _ _)) as T. cbv beta in T. rewrite Em in T.
    change (fsumout (sub o 1) h1 (leftmost x) rv) with (fwrite (fun f => sumout_var (sub o 1) f rv) h1 (leftmost x)).
    destruct (fwrite (fun f => sumout_var (sub o 1) f rv) h1 (leftmost x)) as [h2|]; [|contradiction]. cbn [tracks] in T. destruct T as (O2 & L2 & S2). cbn [bind].
    exists h2. split; [reflexivity|]. split; [exact O2|]. split.
    + exists f'. split; [exact L2|]. split; [congruence|]. split; [exact R'|]. intros v. rewrite Sc', (remove1_wf _ f rv v (proj1 R)), Sc. reflexivity.
    + now apply (same_trans h h1).
  - destruct P as (Px & Ar). destruct (IHx (sub o 0) h M (good_sub _ _ G) O H Px) as (h1 & E1 & O1 & (f & L & B & R & Sc) & S1). rewrite E1. cbn [bind fst snd].
    destruct (maxout_ok (ncard bn) f _ rv R (proj2 (Sc rv) Ar)) as (f' & Em & R' & Sc' & B').
    pose proof (write_tracks base (fun f => maxout_var f rv) h1 (leftmost x) M f O1 L (fun f' => out_var_bn _ _ _ _ _ _)) as T. cbv beta in T. rewrite Em in T.
    unfold fmaxout. destruct (fwrite (fun f => maxout_var f rv) h1 (leftmost x)) as [h2|]; [|contradiction]. cbn [tracks] in T. destruct T as (O2 & L2 & S2). cbn [bind].
    exists h2. split; [reflexivity|]. split; [exact O2|]. split.
    + exists f'. split; [exact L2|]. split; [congruence|]. split; [exact R'|]. intros v. rewrite Sc', (remove1_wf _ f rv v (proj1 R)), Sc. reflexivity.
    + now apply (same_trans h h1).
Qed.

Lemma new_factors_at bn : forall vs h h1 l, new_factors h bn vs = Ok (h1, l) -> l = seq (length (h_obj h)) (length vs).
Proof.
  induction vs as [|v r IH]; intros h h1 l E; cbn [new_factors] in E; [injection E as _ <-; reflexivity|]. destruct (factor_init bn v) as [f|]; [|discriminate]. cbn [bind] in E. cbn zeta in E.
  destruct (new_factors (fst (falloc h f)) bn r) as [[h2 l2]|] eqn:E2; [|discriminate]. cbn [bind fst snd] in E. injection E as _ <-. apply IH in E2. subst l2. unfold falloc. cbn [fst snd h_obj length seq]. rewrite app_length. cbn [length]. now rewrite Nat.add_1_r.
Qed.
(** Factor(bn, v) for v in vs, then an expression in which every one of these objects occurs at most once: the value is the
    mathematical one, it is the object of the leftmost variable that holds it, all other objects are untouched *)
Theorem C122_expression : forall o h bn vs, good o -> wfnet bn -> incl vs (bn_V bn) ->
  exists h1, new_factors h bn vs = Ok (h1, seq (length (h_obj h)) (length vs)) /\
    forall e, let node := fun a => nth (a - length (h_obj h)) vs (NInt 0) in let sc := fun a => node a :: nparents bn (node a) in
      NoDup (vars e) -> incl (vars e) (seq (length (h_obj h)) (length vs)) -> proper bn sc e ->
      exists h2 f, feval o h1 e = Ok (h2, leftmost e) /\ fload h2 (leftmost e) = Ok f /\
        repr (ncard bn) f (mean bn (fun a b => getq (cond_prob bn (node a) b)) e) /\ (forall v, In v (f_scope f) <-> about sc e v) /\
        (forall a g, fload h a = Ok g -> fload h2 a = Ok g) /\
        (forall a, In a (seq (length (h_obj h)) (length vs)) -> ~ In a (vars e) -> fload h2 a = fload h1 a).
Proof.
  intros o h bn vs G W I.
  assert (X : exists fs, mapM (factor_init bn) vs = Ok fs /\ Forall2 (fun v f => factor_init bn v = Ok f) vs fs).
  { clear G. induction vs as [|v r IH]; [exists []; split; [reflexivity|constructor]|]. destruct (init_ok bn v W (I v (or_introl eq_refl))) as (f & E & _). destruct IH as (fs & E2 & F2); [intros y Hy; apply I; now right|].
    exists (f :: fs). cbn [mapM]. rewrite E, E2. split; [reflexivity|now constructor]. }
  destruct X as (fs & Em & F). pose proof (new_factors_tracks h bn vs h [] (own_nil h)) as T. rewrite Em in T. destruct (new_factors h bn vs) as [[h1 l]|] eqn:En; [|contradiction]. cbn [tracks fst snd] in T. destruct T as (O & L & Old).
  rewrite app_nil_r in O. pose proof (new_factors_at _ _ _ _ _ En) as El. exists h1. split; [now rewrite El|]. intros e node sc ND IN P. rewrite <- El in IN.
  set (M := filter (fun a => negb (existsb (Nat.eqb a) (vars e))) l).
  assert (InM : forall a, In a M <-> In a l /\ ~ In a (vars e)).
  { intros a. unfold M. rewrite filter_In, negb_true_iff. split; intros [A B]; (split; [assumption|]).
    - intros C. assert (existsb (Nat.eqb a) (vars e) = true); [|congruence]. apply existsb_exists. exists a. split; [assumption|apply Nat.eqb_refl].
    - destruct (existsb (Nat.eqb a) (vars e)) eqn:C; [|reflexivity]. apply existsb_exists in C as (b & Hb & Eb). apply Nat.eqb_eq in Eb. subst b. contradiction. }
  assert (NDl : NoDup l) by (rewrite El; apply seq_NoDup).
  assert (O' : own h h1 (vars e ++ M)).
  { eapply own_sub; [| |exact O].
    - apply NoDup_app_intro; [assumption|unfold M; now apply NoDup_filter|]. intros a Ha Hm. apply InM in Hm. tauto.
    - intros a Ha. apply in_app_or in Ha as [Ha|Ha]; [now apply IN|now apply InM in Ha]. }
  assert (H : forall a, In a (vars e) -> holds_at bn h1 a (fun b => getq (cond_prob bn (node a) b)) (fun v => In v (sc a))).
  { intros a Ha. apply IN in Ha. unfold node, sc. rewrite El in Ha. apply in_seq in Ha.
    assert (Q : forall k v f, nth_error vs k = Some v -> nth_error fs k = Some f -> factor_init bn v = Ok f /\ fload h1 (length (h_obj h) + k) = Ok f).
    { rewrite El in L. clear -F L. revert L. generalize (length (h_obj h)). induction F as [|v f vs fs E _ IH]; intros n L k w g Ew Eg; [destruct k; discriminate|]. cbn [length seq] in L. inversion L; subst.
      destruct k as [|k]; cbn [nth_error] in *; [injection Ew as <-; injection Eg as <-; rewrite Nat.add_0_r; auto|]. rewrite <- Nat.add_succ_comm. now apply (IH (S n)). }
    set (k := a - length (h_obj h)). assert (Lk : k < length vs) by (unfold k; lia). assert (Ek : a = length (h_obj h) + k) by (unfold k; lia).
    assert (Ev : nth_error vs k = Some (nth k vs (NInt 0))) by (now apply nth_error_nth').
    assert (Lf : length fs = length vs) by (clear -F; induction F; cbn; congruence).
    destruct (nth_error fs k) as [f|] eqn:Ef; [|apply nth_error_None in Ef; lia]. destruct (Q k _ f Ev Ef) as [E1 E2]. rewrite <- Ek in E2. fold (node a) in E1 |- *.
    destruct (init_ok bn (node a) W) as (f' & E' & Sc & _ & B & _ & _ & R). { apply I. unfold node. now apply nth_In. }
    unfold node in E1. fold k in E1. unfold node in E'. fold k in E'. rewrite E1 in E'. injection E' as <-. exists f. split; [exact E2|]. split; [exact B|]. split; [exact R|]. intros v. rewrite Sc. reflexivity. }
  destruct (feval_ok bn h _ sc e o h1 M G O' H P) as (h2 & E2 & O2 & (f & L2 & B2 & R2 & S2) & Same). exists h2, f. split; [exact E2|]. split; [exact L2|]. split; [exact R2|]. split; [exact S2|]. split.
  - intros a g Ea. apply (keeps_load h h2); [apply O2|exact Ea].
  - intros a Ha Na. apply Same. apply InM. rewrite El. auto.
Qed.
Print Assumptions C122_expression.

(** using an object twice: (f / x) * (f / y) is the square of the sum over both variables *)
Theorem C122_reuse_refuted : forall o h bn a f phi x y, good o -> live h [a] -> fload h a = Ok f -> f_bn f = bn -> repr (ncard bn) f phi ->
  In x (f_scope f) -> In y (f_scope f) -> x <> y ->
  exists h' f', feval o h (Times (Over (At a) x) (Over (At a) y)) = Ok (h', a) /\ fload h' a = Ok f' /\
    repr (ncard bn) f' (fun b => let s := sum_values (ncard bn) y (sum_values (ncard bn) x phi) b in (s * s)%Qc) /\
    forall v, In v (f_scope f') <-> In v (f_scope f) /\ v <> x /\ v <> y.
Proof.
  intros o h bn a f phi x y G Lv E B R Hx Hy Nxy. cbn [feval].
  destruct (fsumout_ok (ncard bn) (sub (sub o 0) 1) h a [] f phi x Lv E R Hx) as (h1 & f1 & E1 & L1 & F1 & R1 & S1 & B1 & _). cbn [bind fst snd]. rewrite E1. cbn [bind fst snd].
  assert (Hy1 : In y (f_scope f1)) by (rewrite S1; apply (remove1_wf _ f x y (proj1 R)); auto).
  destruct (fsumout_ok (ncard bn) (sub (sub o 1) 1) h1 a [] f1 _ y L1 F1 R1 Hy1) as (h2 & f2 & E2 & L2 & F2 & R2 & S2 & B2 & _). rewrite E2. cbn [bind fst snd].
  destruct (fmul_big_ok (ncard bn) (sub o 2) h2 a a [] f2 f2 _ _ (good_sub _ _ G) L2 F2 F2 R2 R2 (le_n _)) as (h3 & f3 & E3 & L3 & F3 & R3 & S3 & _). rewrite E3. cbn [bind].
  exists h3, f3. split; [reflexivity|]. split; [exact F3|]. split; [exact R3|]. intros v. rewrite S3, S2, (remove1_wf _ f1 y v (proj1 R1)), S1, (remove1_wf _ f x v (proj1 R)). tauto.
Qed.
Print Assumptions C122_reuse_refuted.

(** the right operand survives, as an independent object, when it is not the wider one *)
Theorem C122_argument_survives : forall cd o h s t l fs ft phi psi, good o -> live h (s :: t :: l) -> fload h s = Ok fs -> fload h t = Ok ft -> repr cd fs phi -> repr cd ft psi ->
  length (f_scope ft) <= length (f_scope fs) ->
  exists h' fs', fmul o h s t = Ok h' /\ live h' (s :: t :: l) /\ fload h' s = Ok fs' /\ repr cd fs' (fun a => phi a * psi a)%Qc /\ fload h' t = Ok ft /\ forall a, In a l -> fload h' a = fload h a.
Proof.
  intros cd o h s t l fs ft phi psi G Lv Es Et Rs Rt W. destruct (fmul_big_ok cd o h s t (t :: l) fs ft phi psi G Lv Es Et Rs Rt W) as (h' & fs' & E & L & F & R & _ & _ & S & _).
  exists h', fs'. split; [exact E|]. split; [exact L|]. split; [exact F|]. split; [exact R|]. split; [rewrite S by (now left); exact Et|]. intros a Ha. apply S. now right.
Qed.
Print Assumptions C122_argument_survives.

(** f * g with g wider, then f / x: the two share their dict of cardinalities, so g loses x from it although its scope and
    table still have it, and g / x, g // x and g - (x, val) raise KeyError *)
Theorem C122_alias_refuted : forall cd o o' h s t l fs ft phi psi x, good o -> live h (s :: t :: l) -> fload h s = Ok fs -> fload h t = Ok ft -> repr cd fs phi -> repr cd ft psi ->
  length (f_scope fs) < length (f_scope ft) -> In x (f_scope ft) ->
  exists h1 h2 ft', fmul o h s t = Ok h1 /\ fsumout o' h1 s x = Ok h2 /\ fload h2 t = Ok ft' /\ f_scope ft' = f_scope ft /\ f_cpt ft' = f_cpt ft /\ ~ In x (dkeys (f_card ft')) /\
    forall o'', fsumout o'' h2 t x = Raise KeyError /\ fmaxout h2 t x = Raise KeyError /\ forall v, freduce o'' h2 t x v = Raise KeyError.
Proof.
  intros cd o o' h s t l fs ft phi psi x G Lv Es Et Rs Rt W Hx.
  pose proof (lv_nodup _ _ Lv) as ND. inversion ND as [|? ? N1 ND1]; subst. assert (Nst : s <> t) by (intros ->; apply N1; now left).
  destruct (lv_obj _ _ Lv s (or_introl eq_refl)) as (os & Eos & Ws). destruct (lv_obj _ _ Lv t (or_intror (or_introl eq_refl))) as (ot & Eot & Wt).
  destruct (fmul_ok cd o h s t l fs ft phi psi G Lv Es Et Rs Rt) as (h1 & f1 & E1 & L1 & F1 & R1 & S1 & B1 & _ & Len1 & Ob1).
  assert (Hx1 : In x (f_scope f1)) by (apply S1; now right).
  destruct (fsumout_ok cd o' h1 s l f1 _ x L1 F1 R1 Hx1) as (h2 & f2 & E2 & L2 & F2 & R2 & S2 & B2 & _ & Len2 & Ob2 & Same2 & _).
  exists h1, h2.
  (* the state after the product *)
  pose proof E1 as E0. unfold fmul in E1. rewrite Es, Et in E1. cbn [bind] in E1. destruct (multiply_factor o fs ft) as [[p p']|] eqn:Em; [|discriminate]. cbn [bind fst] in E1. rewrite (cell_Some _ _ _ Eos), (cell_Some _ _ _ Eot) in E1. cbn [bind] in E1.
  assert (Sp : self_is_phi1 fs ft = false) by (unfold self_is_phi1; apply Nat.leb_gt; assumption). rewrite Sp in E1. injection E1 as E1.
  assert (Ls : s < length (h_obj h)) by (apply nth_error_Some; congruence).
  assert (Eos1 : nth_error (h_obj h1) s = Some (mkO (o_bn os) (o_var os) (length (h_scope h)) (o_card ot) (length (h_stride h)) (f_cpt p))) by (rewrite <- E1; cbn [h_obj]; now apply nth_error_upd_same).
  assert (Eot1 : nth_error (h_obj h1) t = Some ot) by (rewrite <- E1; cbn [h_obj]; rewrite nth_error_upd_other; assumption).
  assert (Lc : o_card ot < length (h_card h)) by apply Wt.
  (* the state after f / x *)
  pose proof E2 as E2'. unfold fsumout in E2'. rewrite F1 in E2'. cbn [bind] in E2'. destruct (sumout_var o' f1 x) as [q|] eqn:Eq; [|discriminate]. cbn [bind] in E2'. rewrite (cell_Some _ _ _ Eos1) in E2'. cbn [bind o_scope o_card o_stride] in E2'. injection E2' as E2'.
  assert (Eot2 : nth_error (h_obj h2) t = Some ot) by (rewrite <- E2'; cbn [h_obj]; rewrite nth_error_upd_other; assumption).
  assert (C2 : nth_error (h_card h2) (o_card ot) = Some (f_card q)) by (rewrite <- E2'; cbn [h_card]; apply nth_error_upd_same; rewrite <- E1; cbn [h_card]; now rewrite upd_nth_length).
  assert (Sc2 : nth_error (h_scope h2) (o_scope ot) = nth_error (h_scope h) (o_scope ot)).
  { rewrite <- E2'. cbn [h_scope]. rewrite nth_error_upd_other by (pose proof Wt as (W1 & _); lia). rewrite <- E1. cbn [h_scope]. apply nth_error_app1. apply Wt. }
  assert (St2 : nth_error (h_stride h2) (o_stride ot) = nth_error (h_stride h) (o_stride ot)).
  { rewrite <- E2'. cbn [h_stride]. rewrite nth_error_upd_other by (pose proof Wt as (_ & _ & W1); lia). rewrite <- E1. cbn [h_stride]. apply nth_error_app1. apply Wt. }
  destruct (fload_obj h t ot Eot Wt) as (sc & c & st & X1 & X2 & X3 & X4). rewrite X4 in Et. injection Et as <-.
  assert (F2t : fload h2 t = Ok (mkFactor (o_bn ot) (o_var ot) sc (f_card q) st (o_cpt ot))).
  { unfold fload, cell. rewrite Eot2. cbn [bind]. rewrite Sc2, X1. cbn [bind]. rewrite C2. cbn [bind]. rewrite St2, X3. reflexivity. }
  assert (Nx : ~ In x (dkeys (f_card q))).
  { destruct (sumout_ok cd o' f1 _ x R1 Hx1) as (q' & Eq' & R' & S' & _). rewrite Eq in Eq'. injection Eq' as <-. intros X. apply (Permutation_in _ (wf_ckeys _ _ (proj1 R'))) in X. rewrite S' in X. apply (remove1_wf _ f1 x x (proj1 R1)) in X. tauto. }
  eexists. split; [exact E0|]. split; [exact E2|]. split; [exact F2t|]. split; [reflexivity|]. split; [reflexivity|]. split; [exact Nx|].
  intros o''. split; [|split].
  - unfold fsumout. rewrite F2t. cbn [bind]. now rewrite sumout_keyerror by exact Nx.
  - unfold fmaxout, fwrite. rewrite F2t. cbn [bind]. now rewrite maxout_keyerror by exact Nx.
  - intros v. unfold freduce, fwrite. rewrite F2t. cbn [bind]. unfold reduce_factor, getitem. cbn [f_card]. apply dget_None in Nx. now rewrite Nx.
Qed.
Print Assumptions C122_alias_refuted.

(** ** C123: variable elimination on objects *)
(** marginal_ve_e computed on Factor objects that are edited in place and share dicts: the same vector, or the same exception, as
    on values; the objects that existed before are untouched *)
Theorem C123_marginal : forall o h bn target ev,
  match marginal_ve_e o bn target ev with
  | Ok v => exists h', h_marginal_ve_e o h bn target ev = Ok (h', v) /\ forall a f, fload h a = Ok f -> fload h' a = Ok f
  | Raise e => h_marginal_ve_e o h bn target ev = Raise e
  end.
Proof.
  intros o h bn target ev. pose proof (marginal_tracks o h bn target ev) as T. destruct (h_marginal_ve_e o h bn target ev) as [[h' v']|e], (marginal_ve_e o bn target ev) as [v|e']; cbn [tracks] in T; try contradiction; [|congruence].
  cbn [fst snd] in T. destruct T as [<- K]. exists h'. split; [reflexivity|]. intros a f. now apply keeps_load.
Qed.
Print Assumptions C123_marginal.
Theorem C123_map : forall o h bn ev,
  match ve_map o bn ev with
  | Ok m => exists h', h_ve_map o h bn ev = Ok (h', m) /\ forall a f, fload h a = Ok f -> fload h' a = Ok f
  | Raise e => h_ve_map o h bn ev = Raise e
  end.
Proof.
  intros o h bn ev. unfold ve_map, h_ve_map. pose proof (map_run_tracks o h bn ev) as T. destruct (h_map_run o h bn ev) as [[[h' z] m']|e], (map_run o bn ev) as [[w m]|e']; cbn [tracks] in T; try contradiction; [|cbn; congruence].
  cbn [fst snd bind] in *. destruct T as (<- & _ & K). exists h'. split; [reflexivity|]. intros a f. now apply keeps_load.
Qed.
Print Assumptions C123_map.
Theorem C123_map_prob : forall o h bn ev,
  match ve_map_prob o bn ev with
  | Ok m => exists h', h_ve_map_prob o h bn ev = Ok (h', m) /\ forall a f, fload h a = Ok f -> fload h' a = Ok f
  | Raise e => h_ve_map_prob o h bn ev = Raise e
  end.
Proof.
  intros o h bn ev. unfold ve_map_prob, h_ve_map_prob. pose proof (map_run_tracks o h bn ev) as T. destruct (h_map_run o h bn ev) as [[[h' z] m']|e], (map_run o bn ev) as [[w m]|e']; cbn [tracks] in T; try contradiction; [|cbn; congruence].
  cbn [fst snd bind] in *. destruct T as (<- & L & K). pose proof (consolidate_tracks h' _ _ L) as C. destruct (hconsolidate (hz_phi z)) as [a|e], (consolidate (fz_phi w)) as [f|e']; cbn [tracks] in C; try contradiction; [|cbn; congruence].
  cbn [bind]. rewrite C. cbn [bind]. destruct (nget (f_cpt f) 0) as [x|]; cbn [bind]; [|reflexivity]. exists h'. split; [reflexivity|]. intros b g. now apply keeps_load.
Qed.
Print Assumptions C123_map_prob.

(** the heap after running on the three node network holds shared dicts, and the answer is still right *)
Example C123_nonvacuous : exists h' v, h_marginal_ve_e id_oracle no_heap ex3 exC [] = Ok (h', v) /\ length v = 2 /\ length (h_obj h') = 3 /\ exists h2 m, h_ve_map id_oracle h' ex3 [] = Ok (h2, m) /\ length m = 3.
Proof. do 2 eexists. split; [vm_compute; reflexivity|]. split; [reflexivity|]. split; [reflexivity|]. do 2 eexists. split; [vm_compute; reflexivity|reflexivity]. Qed.

Definition ex3_factors : res (fheap * list nat) := new_factors no_heap ex3 [exA; exB; exC].
(** (P(B|A) * P(A)) / A on three objects *)
Example C122_nonvacuous : exists h1, ex3_factors = Ok (h1, [0; 1; 2]) /\
  (let sc := fun a => nth a [exA; exB; exC] (NInt 0) :: nparents ex3 (nth a [exA; exB; exC] (NInt 0)) in proper ex3 sc (Over (Times (At 1) (At 0)) exA)) /\
  exists h2 f, feval id_oracle h1 (Over (Times (At 1) (At 0)) exA) = Ok (h2, 1) /\ fload h2 1 = Ok f /\ f_scope f = [exB] /\ fload h2 2 = fload h1 2.
Proof.
  eexists. split; [vm_compute; reflexivity|]. split; [cbn; tauto|]. do 2 eexists. split; [vm_compute; reflexivity|]. split; [vm_compute; reflexivity|]. split; [vm_compute; reflexivity|]. vm_compute. reflexivity.
Qed.
(** P(A) * P(B|A), then P(A) / A: the object of P(B|A) is broken *)
Example C122_alias_nonvacuous : exists h1 h2 h3, ex3_factors = Ok (h1, [0; 1; 2]) /\ feval id_oracle h1 (Over (Times (At 0) (At 1)) exA) = Ok (h2, 0) /\
  feval id_oracle h2 (Over (At 1) exA) = Raise KeyError /\ feval id_oracle h1 (Over (At 1) exA) = Ok (h3, 1).
Proof. do 3 eexists. split; [vm_compute; reflexivity|]. split; [vm_compute; reflexivity|]. split; [vm_compute; reflexivity|]. vm_compute. reflexivity. Qed.
