(** FloatMap.v -- max-product elimination in floating point: the assignment returned by
    ve_map is nearly optimal. *)
From Verif Require Import Py Num BayesNet Factor SpecFactor Radix SumOver FactorMul FactorOut FactorMore FactorLaws Rounding Factorization SpecInference VE VEShape VETotal VEMap Float SpecFloat FloatFacts FloatMain CliqueMain.
Open Scope nat_scope.

Definition round_table (rnd : Qc -> Qc) (f : factor) : factor :=
  mkFactor (f_bn f) (f_var f) (f_scope f) (f_card f) (f_stride f) (map rnd (f_cpt f)).

Lemma fl_mul_loop_map rnd sc1 sc2 card1 card2 st1 st2 c1 c2 rvs n : forall asg j k,
  fl_mul_loop rnd sc1 sc2 card1 card2 st1 st2 c1 c2 rvs n asg j k =
  (do l <- mul_loop sc1 sc2 card1 card2 st1 st2 c1 c2 rvs n asg j k ;; Ok (map rnd l)).
Proof.
  induction n as [|n IH]; intros asg j k; cbn [mul_loop fl_mul_loop]; [reflexivity|].
  destruct (pyget c1 j); cbn [bind]; [|reflexivity]. destruct (pyget c2 k); cbn [bind]; [|reflexivity].
  destruct (bump _ _ _ _ _ _ _ _ _ _) as [[[a' j'] k']|]; cbn [bind]; [|reflexivity]. rewrite IH.
  destruct (mul_loop _ _ _ _ _ _ _ _ _ _ _ _ _); reflexivity.
Qed.
Lemma fl_mul_eq rnd o f g : fl_mul rnd o f g = (do h <- factor_mul o f g ;; Ok (round_table rnd h)).
Proof.
  unfold fl_mul, factor_mul, multiply_factor. cbv zeta. rewrite fl_mul_loop_map.
  destruct (mul_loop _ _ _ _ _ _ _ _ _ _ _ _ _); cbn [bind]; [|reflexivity]. destruct (run_strides _ _ _ _); reflexivity.
Qed.
Lemma repr_round cd rnd f phi : repr cd f phi -> repr cd (round_table rnd f) (fun a => rnd (phi a)).
Proof.
  intros [[w1 w2 w3 w4 w5 w6 w7] H]. split.
  - constructor; cbn [round_table f_scope f_card f_stride f_cpt]; auto. now rewrite map_length.
  - intros a V. specialize (H a V). unfold lookup, offset in *. cbn [round_table f_scope f_card f_stride f_cpt]. rewrite nth_error_map, H. reflexivity.
Qed.

Lemma val_scope f a b : (forall w, In w (f_scope f) -> a w = b w) -> val f a = val f b.
Proof. intros H. unfold val, lookup. now rewrite (offset_ext f a b H). Qed.

Section Unit.
Variable u : Qc.
Hypothesis Hu : (0 <= u /\ u < 1)%Qc.

(** all entries of [f] are 0 or between [L] and [M] *)
Definition bnd (L M : Qc) (f : factor) : Prop :=
  (0 < L /\ L <= 1)%Qc /\ (1 <= M)%Qc /\ Forall (fun x => x = 0%Qc \/ (L <= x /\ x <= M)%Qc) (f_cpt f).
Lemma near_diag L M x : (1 <= M)%Qc -> (x = 0%Qc \/ (L <= x /\ x <= M)%Qc) -> near u 0 L M x x.
Proof.
  intros P H. pose proof one_q. split; [tauto|]. split.
  - destruct H as [-> |H]; [qclra|tauto].
  - rewrite dn_0, up_0, Qcmult_1_r. split; apply Qcle_refl.
Qed.
Lemma bnd_frel L M f : bnd L M f -> frel u 0 L M f f.
Proof.
  intros (A & B & C). constructor; auto. revert C. generalize (f_cpt f). induction 1; constructor; auto. now apply near_diag.
Qed.
Lemma frel_bnd k L M f f' : frel u k L M f f' -> bnd (L * dn u k) (M * up u k) f'.
Proof.
  intros [a b _ _ _ _ _ F]. pose proof (dn_bounds u Hu k) as D. pose proof (up_bounds u Hu k) as U.
  split; [now apply unit_mult|]. split; [now apply one_mult|]. revert F. generalize (f_cpt f) (f_cpt f'). intros l l' F. induction F as [|x y l l' N F IH]; constructor; auto.
  destruct N as ([-> |N1] & N2 & N3 & N4).
  - left. rewrite Qcmult_0_l in *. now apply Qcle_antisym.
  - right. split.
    + apply Qcle_trans with (x * dn u k)%Qc; [|assumption]. apply Qcmult_le_compat_r; [assumption|qclra].
    + pose proof one_q. apply Qcle_trans with (x * up u k)%Qc; [assumption|]. apply Qcmult_le_compat_r; [assumption|qclra].
Qed.
Lemma bnd_val cd L M f a : bnd L M f -> wf cd f -> valid cd (f_scope f) a -> val f a = 0%Qc \/ (L <= val f a /\ val f a <= M)%Qc.
Proof.
  intros (_ & _ & F) W V. pose proof (proj2 (repr_val cd f W) a V) as H. apply nth_error_In in H. rewrite Forall_forall in F. now apply F.
Qed.
Lemma bnd_nonneg cd L M f a : bnd L M f -> wf cd f -> valid cd (f_scope f) a -> (0 <= val f a)%Qc.
Proof. intros B W V. destruct (bnd_val cd L M f a B W V) as [-> |[H _]]; [apply Qcle_refl|]. destruct B as ([B _] & _). qclra. Qed.

Inductive lb : Qc -> Qc -> list factor -> Prop :=
| lb_nil : lb 1 1 []
| lb_cons L M f L' M' fs : bnd L M f -> lb L' M' fs -> lb (L * (1 - u) * L') (M * (1 + u) * M') (f :: fs).

Lemma lb_bounds L M fs : lb L M fs -> (0 < L /\ L <= 1)%Qc /\ (1 <= M)%Qc.
Proof.
  pose proof one_q as O. induction 1 as [|L M f L' M' fs (A & B & _) H [C D]]; [split; [split; qclra|qclra]|].
  split.
  - apply unit_mult; [|assumption]. apply unit_mult; [assumption|split; qclra].
  - apply one_mult; [|assumption]. apply one_mult; [assumption|qclra].
Qed.
Lemma lb_app L1 M1 fs L2 M2 gs : lb L1 M1 fs -> lb L2 M2 gs -> lb (L1 * L2) (M1 * M2) (fs ++ gs).
Proof.
  induction 1 as [|L M f L' M' fs B H IH]; intros G; simpl; [now rewrite !Qcmult_1_l|].
  rewrite <- !(Qcmult_assoc _ L'), <- !(Qcmult_assoc _ M'). constructor; auto.
Qed.
Lemma lb_filter p L M fs : lb L M fs -> exists L1 M1 L2 M2, (L1 * L2 = L)%Qc /\ (M1 * M2 = M)%Qc /\ lb L1 M1 (filter p fs) /\ lb L2 M2 (filter (fun f => negb (p f)) fs).
Proof.
  induction 1 as [|L M f L' M' fs B H (L1 & M1 & L2 & M2 & E1 & E2 & G1 & G2)].
  - exists 1%Qc, 1%Qc, 1%Qc, 1%Qc. split; [ring|]. split; [ring|]. split; constructor.
  - cbn [filter]. subst. destruct (p f); cbn [negb].
    + exists (L * (1 - u) * L1)%Qc, (M * (1 + u) * M1)%Qc, L2, M2. split; [ring|]. split; [ring|]. split; [now constructor|assumption].
    + exists L1, M1, (L * (1 - u) * L2)%Qc, (M * (1 + u) * M2)%Qc. split; [ring|]. split; [ring|]. split; [assumption|now constructor].
Qed.
Lemma lb_nn cd bn L M fs : lb L M fs -> fine cd bn fs -> nn cd fs.
Proof.
  induction 1 as [|L M f L' M' fs B H IH]; intros F g a Hg V; [destruct Hg|].
  destruct Hg as [<-|Hg]; [apply (bnd_nonneg cd L M); auto; now apply F; left|]. apply IH; auto. intros h Hh. apply F. now right.
Qed.

Lemma mul_all_fl cd bn rnd L M fs : lb L M fs -> forall o psi Lp Mp, good o -> wf cd psi -> f_bn psi = bn -> fine cd bn fs -> bnd Lp Mp psi ->
  accurate rnd u (Lp * L) (Mp * M) ->
  exists h, fl_mul_all rnd o psi fs = Ok h /\ wf cd h /\ f_bn h = bn /\
    (forall w, In w (f_scope h) <-> In w (f_scope psi) \/ in_scopes fs w) /\ bnd (Lp * L) (Mp * M) h /\
    (forall a, valid cd (f_scope h) a ->
       (val psi a * prodval fs a * dn u (length fs) <= val h a /\ val h a <= val psi a * prodval fs a * up u (length fs))%Qc).
Proof.
  pose proof one_q as O. induction 1 as [|Lg Mg g L M r Bg H IH]; intros o psi Lp Mp Go W B F Bp A.
  - exists psi. split; [reflexivity|]. split; [assumption|]. split; [assumption|]. split.
    { intros w. split; [auto|]. intros [H|(f & [] & _)]; assumption. }
    split; [now rewrite !Qcmult_1_r|]. intros a V. cbn [length]. rewrite dn_0, up_0. unfold prodval. simpl. rewrite !Qcmult_1_r. split; apply Qcle_refl.
  - destruct (F g (or_introl eq_refl)) as [Wg Bbg]. cbn [fl_mul_all].
    destruct (mul_ok cd (sub o 0) psi g (val psi) (val g) (good_sub _ 0 Go) (repr_val _ _ W) (repr_val _ _ Wg)) as (h1 & E1 & R1 & S1 & B1).
    destruct (lb_bounds _ _ _ H) as [Lb Mb]. pose proof Bp as (bp1 & bp2 & _). pose proof Bg as (bg1 & bg2 & _).
    destruct (unit_mult Lp Lg bp1 bg1) as [q1 q2]. pose proof (one_mult Mp Mg bp2 bg2) as q3.
    assert (U1 : (0 < 1 - u /\ 1 - u <= 1)%Qc) by (split; qclra). assert (U2 : (1 <= 1 + u)%Qc) by qclra.
    assert (A0 : accurate rnd u (Lp * Lg) (Mp * Mg)).
    { intros z [Z|[Z1 Z2]]; apply A; [now left|right]. split.
      - apply Qcle_trans with (Lp * Lg)%Qc; [|assumption]. replace (Lp * (Lg * (1 - u) * L))%Qc with (Lp * Lg * ((1 - u) * L))%Qc by ring.
        apply shrink; [qclra|]. now apply unit_mult.
      - apply Qcle_trans with (Mp * Mg)%Qc; [assumption|]. replace (Mp * (Mg * (1 + u) * M))%Qc with (Mp * Mg * ((1 + u) * M))%Qc by ring.
        apply grow; [qclra|]. now apply one_mult. }
    assert (S : safe u rnd (0 + 0) (Lp * Lg) (Mp * Mg)) by (unfold safe; now rewrite dn_0, up_0, !Qcmult_1_r).
    pose proof (mul_sim u Hu rnd (sub o 0) 0 Lp Mp 0 Lg Mg psi g psi g (bnd_frel _ _ _ Bp) (bnd_frel _ _ _ Bg) S) as MS.
    rewrite fl_mul_eq, E1 in *. cbn [bind rres] in *. apply frel_bnd in MS. change (Datatypes.S (0 + 0)) with 1 in MS.
    replace (Lp * Lg * dn u 1)%Qc with (Lp * (Lg * (1 - u)))%Qc in MS by (unfold dn; simpl; ring).
    replace (Mp * Mg * up u 1)%Qc with (Mp * (Mg * (1 + u)))%Qc in MS by (unfold up; simpl; ring).
    pose proof (repr_round cd rnd h1 _ R1) as RR.
    destruct (IH (sub o 1) (round_table rnd h1) (Lp * (Lg * (1 - u)))%Qc (Mp * (Mg * (1 + u)))%Qc (good_sub _ 1 Go) (proj1 RR) (eq_trans B1 B)) as (h & E & Wh & Bh & Sh & Ch & Vh).
    { intros f Hf. apply F. now right. } { exact MS. }
    { replace (Lp * (Lg * (1 - u)) * L)%Qc with (Lp * (Lg * (1 - u) * L))%Qc by ring. replace (Mp * (Mg * (1 + u)) * M)%Qc with (Mp * (Mg * (1 + u) * M))%Qc by ring. assumption. }
    exists h. split; [assumption|]. split; [assumption|]. split; [assumption|]. split; [|split].
    + intros w. rewrite Sh. cbn [round_table f_scope]. rewrite S1. unfold in_scopes. split.
      * intros [[K|K]|(f & Hf & Hw)]; [auto|right; exists g; simpl; auto|right; exists f; simpl; auto].
      * intros [K|(f & [->|Hf] & Hw)]; [auto|auto|right; eauto].
    + replace (Lp * (Lg * (1 - u) * L))%Qc with (Lp * (Lg * (1 - u)) * L)%Qc by ring. replace (Mp * (Mg * (1 + u) * M))%Qc with (Mp * (Mg * (1 + u)) * M)%Qc by ring. assumption.
    + intros a V. destruct (Vh a V) as [V1 V2].
      assert (Vp : valid cd (f_scope psi) a) by (intros w Hw; apply V, Sh; left; cbn; apply S1; auto).
      assert (Vg : valid cd (f_scope g) a) by (intros w Hw; apply V, Sh; left; cbn; apply S1; auto).
      assert (V0 : valid cd (f_scope (round_table rnd h1)) a) by (intros w Hw; apply V, Sh; auto).
      rewrite <- (repr_to_val cd _ _ RR a V0) in V1, V2.
      assert (Np : (0 <= prodval r a)%Qc).
      { apply (nn_prod cd). { apply (lb_nn cd bn _ _ _ H). intros f Hf. apply F. now right. } intros w Hw. apply V, Sh. auto. }
      pose proof (bnd_nonneg cd _ _ _ a Bp W Vp) as N1. pose proof (bnd_nonneg cd _ _ _ a Bg Wg Vg) as N2.
      assert (AA : (val psi a * val g a * (1 - u) <= rnd (val psi a * val g a) /\ rnd (val psi a * val g a) <= val psi a * val g a * (1 + u))%Qc).
      { apply A0. destruct (bnd_val cd _ _ _ a Bp W Vp) as [-> |[x1 x2]]; [left; ring|]. destruct (bnd_val cd _ _ _ a Bg Wg Vg) as [-> |[y1 y2]]; [left; ring|].
        right. split; apply le_mult; auto; qclra. }
      cbn [length]. rewrite dn_S, up_S. change (prodval (g :: r) a) with (val g a * prodval r a)%Qc.
      pose proof (dn_bounds u Hu (length r)) as D. pose proof (up_bounds u Hu (length r)) as Up.
      revert V1 V2 Np N1 N2 AA D Up. generalize (dn u (length r)) (up u (length r)) (prodval r a) (val psi a) (val g a) (val h a). intros d p q x y z V1 V2 Np N1 N2 [A1 A2] D Up.
      assert (Pd : (0 <= q * d)%Qc) by (apply Qcmult_nonneg; qclra). assert (Pp : (0 <= q * p)%Qc) by (apply Qcmult_nonneg; qclra). split.
      * apply Qcle_trans with (rnd (x * y) * q * d)%Qc; [|assumption].
        replace (x * (y * q) * ((1 - u) * d))%Qc with (x * y * (1 - u) * (q * d))%Qc by ring. rewrite <- (Qcmult_assoc (rnd (x * y)%Qc)). now apply Qcmult_le_compat_r.
      * apply Qcle_trans with (rnd (x * y) * q * p)%Qc; [assumption|].
        replace (x * (y * q) * ((1 + u) * p))%Qc with (x * y * (1 + u) * (q * p))%Qc by ring. rewrite <- (Qcmult_assoc (rnd (x * y)%Qc)). now apply Qcmult_le_compat_r.
Qed.

(** maximum over a variable keeps the bounds *)
Lemma max_cells_in (P : Qc -> Prop) (cpt : list Qc) (k s c : nat) : P 0%Qc -> Forall P cpt -> rres (fun x y => x = y /\ P x) (max_cells cpt k s c) (max_cells cpt k s c).
Proof.
  intros P0 F. unfold max_cells.
  assert (G : forall l acc, P (snd acc) -> rres (fun x y => x = y /\ P (snd x))
     (foldM (fun acc c => do x <- nget cpt (k + s * c) ;; if qltb (fst acc) x then Ok (x, x) else Ok acc) l acc)
     (foldM (fun acc c => do x <- nget cpt (k + s * c) ;; if qltb (fst acc) x then Ok (x, x) else Ok acc) l acc)).
  { induction l as [|c0 l IH]; intros acc Pa; cbn [foldM]; [simpl; auto|].
    unfold nget. destruct (nth_error cpt (k + s * c0)) as [x|] eqn:E; cbn [bind]; [|reflexivity].
    destruct (qltb (fst acc) x); cbn [bind]; apply IH; [|assumption]. simpl. apply nth_error_In in E. rewrite Forall_forall in F. now apply F. }
  specialize (G (seq 0 c) (0%Qc, 0%Qc) P0). destruct (foldM _ _ _) as [p|]; cbn [bind rres] in *; tauto.
Qed.
Lemma maxout_bnd L M f v f' : bnd L M f -> maxout_var f v = Ok f' -> bnd L M f'.
Proof.
  intros (A & B & C) E. split; [assumption|]. split; [assumption|]. unfold maxout_var, out_var in E.
  destruct (getitem (f_card f) v) as [c|]; cbn [bind] in E; [|discriminate]. destruct (c =? 0); [discriminate|].
  destruct (getitem (f_stride f) v) as [s|]; cbn [bind] in E; [|discriminate]. destruct (lower_cards f s) as [p|]; cbn [bind] in E; [|discriminate].
  pose proof (out_loop_sim (fun x y => x = y /\ (x = 0%Qc \/ (L <= x /\ x <= M)%Qc)) max_cells max_cells (f_cpt f) (f_cpt f) p s c) as G.
  specialize (G (fun k => max_cells_in _ (f_cpt f) k s c (or_introl eq_refl) C) (length (f_cpt f) / c) 0).
  destruct (out_loop max_cells (f_cpt f) p s c (length (f_cpt f) / c) 0) as [l|]; cbn [bind rres] in *; [|discriminate].
  destruct (delitem (f_card f) v); cbn [bind] in E; [|discriminate]. destruct (list_remove (f_scope f) v); cbn [bind] in E; [|discriminate].
  inversion E; subst. cbn [f_cpt]. clear - G. revert G. generalize l at 2. intros l' G. induction G as [|x y l l' [_ H] G IH]; constructor; auto.
Qed.

Lemma max_elim_fl cd bn rnd o z rv L M : good o -> fine cd bn (fz_phi z) -> lb L M (fz_phi z) -> accurate rnd u L M -> in_scopes (fz_phi z) rv ->
  exists psi psi' q, fl_max_elim rnd o z rv =
      Ok (mkFz (fz_bn z) (irrelevant_factors rv (fz_phi z) ++ [psi']) (dset (fz_map z) rv psi) (fz_asg z)) /\
    let fs' := irrelevant_factors rv (fz_phi z) ++ [psi'] in
    fine cd bn fs' /\ lb L M fs' /\ q + length fs' = length (fz_phi z) /\
    (forall w, in_scopes fs' w <-> in_scopes (fz_phi z) w /\ w <> rv) /\
    wf cd psi /\ f_bn psi = bn /\ (forall a, valid cd (f_scope psi) a -> (0 <= val psi a)%Qc) /\
    (forall w, In w (f_scope psi) <-> in_scopes (relevant_factors rv (fz_phi z)) w) /\
    (forall a, valid cd (f_scope psi) a -> (prodval (relevant_factors rv (fz_phi z)) a * dn u q <= val psi a /\ val psi a <= prodval (relevant_factors rv (fz_phi z)) a * up u q)%Qc) /\
    (forall a, vscope cd fs' a -> prodval fs' a = (prodval (irrelevant_factors rv (fz_phi z)) a * max_values cd rv (val psi) a)%Qc) /\
    (forall w, In w (f_scope psi') <-> in_scopes (relevant_factors rv (fz_phi z)) w /\ w <> rv).
Proof.
  intros Go F HB HA I. pose proof one_q as O.
  destruct (lb_filter (fun f => mem rv (f_scope f)) L M _ HB) as (L1 & M1 & L2 & M2 & EL & EM & G1 & G2).
  fold (relevant_factors rv (fz_phi z)) in G1. fold (irrelevant_factors rv (fz_phi z)) in G2.
  assert (LEN : length (relevant_factors rv (fz_phi z)) + length (irrelevant_factors rv (fz_phi z)) = length (fz_phi z)).
  { unfold relevant_factors, irrelevant_factors. clear. induction (fz_phi z) as [|f r IH]; simpl; [reflexivity|]. destruct (mem rv (f_scope f)); simpl; lia. }
  unfold fl_max_elim, fl_product_relevant. pose proof I as (f0 & Hf0 & Hrv).
  assert (F' : fine cd bn (relevant_factors rv (fz_phi z))) by (intros f Hf; apply In_relevant in Hf; now apply F).
  assert (If : In f0 (relevant_factors rv (fz_phi z))) by now apply In_relevant.
  destruct (relevant_factors rv (fz_phi z)) as [|psi0 r] eqn:ER; [destruct If|].
  inversion G1 as [|Lp Mp f L' M' fs Bp Br e1 e2 e3]. subst f fs.
  destruct (F' psi0 (or_introl eq_refl)) as [Wp Bbp].
  destruct (lb_bounds _ _ _ Br) as [Lb Mb]. pose proof Bp as (bp1 & bp2 & _). destruct (lb_bounds _ _ _ G2) as [Lb2 Mb2].
  assert (U1 : (0 < 1 - u /\ 1 - u <= 1)%Qc) by (split; qclra). assert (U2 : (1 <= 1 + u)%Qc) by qclra.
  destruct (unit_mult Lp L' bp1 Lb) as [q1 q2]. pose proof (one_mult Mp M' bp2 Mb) as q3.
  assert (A0 : accurate rnd u (Lp * L') (Mp * M')).
  { intros x [Z|[Z1 Z2]]; apply HA; [now left|right]. rewrite <- EL, <- EM, <- e1, <- e2. split.
    - apply Qcle_trans with (Lp * L')%Qc; [|assumption]. replace (Lp * (1 - u) * L' * L2)%Qc with (Lp * L' * ((1 - u) * L2))%Qc by ring. apply shrink; [qclra|now apply unit_mult].
    - apply Qcle_trans with (Mp * M')%Qc; [assumption|]. replace (Mp * (1 + u) * M' * M2)%Qc with (Mp * M' * ((1 + u) * M2))%Qc by ring. apply grow; [qclra|now apply one_mult]. }
  destruct (mul_all_fl cd bn rnd L' M' r Br (sub o 0) psi0 Lp Mp (good_sub _ 0 Go) Wp Bbp) as (h & E & Wh & Bh & Sh & Ch & Vh); auto.
  { intros f Hf. apply F'. now right. }
  rewrite E. cbn [bind].
  assert (Sh' : forall w, In w (f_scope h) <-> in_scopes (psi0 :: r) w).
  { intros w. rewrite Sh. unfold in_scopes. split.
    - intros [K|(f & Hf & Hw)]; [exists psi0|exists f]; simpl; auto.
    - intros (f & [->|Hf] & Hw); [auto|right; eauto]. }
  assert (Hh : In rv (f_scope h)) by (apply Sh'; exists f0; auto).
  destruct (maxout_ok cd h _ rv (repr_val _ _ Wh) Hh) as (psi' & E' & R' & S' & B'). rewrite E'. cbn [bind].
  exists h, psi', (length r). split; [reflexivity|]. cbv zeta. assert (ND : NoDup (f_scope h)) by apply Wh.
  split; [|split; [|split; [|split; [|split; [assumption|split; [assumption|split; [|split; [assumption|split; [|split]]]]]]]]].
  - intros f Hf. apply in_app_or in Hf as [Hf|[<-|[]]].
    + apply In_irrelevant in Hf. now apply F.
    + split; [apply R'|congruence].
  - pose proof (maxout_bnd _ _ _ _ _ Ch E') as Cb.
    assert (LL : lb (L2 * (Lp * L' * (1 - u) * 1)) (M2 * (Mp * M' * (1 + u) * 1)) (irrelevant_factors rv (fz_phi z) ++ [psi'])).
    { apply lb_app; [assumption|]. constructor; [assumption|constructor]. }
    replace (L2 * (Lp * L' * (1 - u) * 1))%Qc with L in LL by (rewrite <- EL, <- e1; ring).
    replace (M2 * (Mp * M' * (1 + u) * 1))%Qc with M in LL by (rewrite <- EM, <- e2; ring). assumption.
  - rewrite app_length. simpl in *. lia.
  - apply (elim_scopes rv (fz_phi z) h psi'); [now rewrite ER|assumption|assumption].
  - intros a V. now apply (bnd_nonneg cd _ _ _ a Ch Wh V).
  - intros a V. exact (Vh a V).
  - intros a V. rewrite prodval_app. f_equal. unfold prodval at 1. cbn [map qprod fold_right].
    rewrite <- (repr_to_val cd psi' _ R' a).
    2:{ intros w Hw. apply V. apply in_scopes_app. right. exists psi'. simpl. auto. }
    ring.
  - intros w. rewrite S', In_remove1, Sh' by assumption. rewrite <- ER. reflexivity.
Qed.

Lemma map_elim_fl bn rnd L M : wfnet bn -> accurate rnd u L M -> forall order o z, good o -> fine (ncard bn) bn (fz_phi z) -> lb L M (fz_phi z) ->
  NoDup order -> incl order (bn_V bn) -> (forall w, in_scopes (fz_phi z) w <-> In w order) ->
  (forall w, In w order -> ~ In w (dkeys (fz_map z))) ->
  exists z' items q, elim_all (fl_max_elim rnd) o z order = Ok z' /\ fz_map z' = fz_map z ++ items /\ fz_asg z' = fz_asg z /\
    dkeys items = order /\ fine (ncard bn) bn (fz_phi z') /\ (forall w, ~ in_scopes (fz_phi z') w) /\
    q + length (fz_phi z') = length (fz_phi z) /\
    (forall b, valid (ncard bn) order b -> (prodval (fz_phi z) b * dn u q <= prodval (fz_phi z') b)%Qc) /\
    forall o2 asg0, exists asg', traceback o2 bn items asg0 = Ok asg' /\
      (forall k, ~ In k order -> dget asg' k = dget asg0 k) /\
      (forall v, In v order -> exists x i, dget asg' v = Some x /\ val_index bn v x = Some i) /\
      (prodval (fz_phi z') (asg_of bn asg') <= prodval (fz_phi z) (asg_of bn asg') * up u q)%Qc.
Proof.
  intros W HA order. induction order as [|v r IH]; intros o z Go F HB ND Io S Nk.
  - exists z, [], 0. simpl. rewrite app_nil_r. split; [reflexivity|]. split; [reflexivity|]. split; [reflexivity|]. split; [reflexivity|].
    split; [assumption|]. split; [intros w H; now apply S in H|]. split; [reflexivity|].
    split; [intros b _; rewrite dn_0, Qcmult_1_r; apply Qcle_refl|].
    intros o2 asg0. exists asg0. split; [reflexivity|]. split; [reflexivity|]. split; [intros v []|]. rewrite up_0, Qcmult_1_r. apply Qcle_refl.
  - inversion ND as [|? ? Hn Hr]; subst.
    assert (Iv : in_scopes (fz_phi z) v) by (apply S; now left).
    destruct (max_elim_fl (ncard bn) bn rnd (sub o 0) z v L M (good_sub _ 0 Go) F HB HA Iv) as (psi & psi' & q1 & E & F1 & HB1 & Len & S1 & Wp & Bp & Np & Sp & Vp & P1 & _).
    set (z1 := mkFz (fz_bn z) (irrelevant_factors v (fz_phi z) ++ [psi']) (dset (fz_map z) v psi) (fz_asg z)) in *.
    assert (S1' : forall w, in_scopes (fz_phi z1) w <-> In w r).
    { intros w. unfold z1. cbn [fz_phi]. rewrite S1, S. simpl. intuition congruence. }
    assert (NV : ~ In v (dkeys (fz_map z))) by (apply Nk; now left).
    destruct (IH (sub o 1) z1 (good_sub _ 1 Go) F1 HB1 Hr) as (z' & items & q2 & E' & M' & A' & K' & F' & S' & Len' & Lo' & T').
    { intros w Hw. apply Io. now right. } { assumption. }
    { intros w Hw. unfold z1. cbn [fz_map]. rewrite In_dkeys_dset. intros [->|H]; [contradiction|]. apply (Nk w); [now right|assumption]. }
    exists z', ((v, psi) :: items), (q1 + q2). cbn [elim_all]. rewrite E. cbn [bind]. split; [assumption|].
    split. { rewrite M'. unfold z1. cbn [fz_map]. rewrite dset_app_new by assumption. now rewrite <- app_assoc. }
    split; [assumption|]. split; [unfold dkeys in *; cbn [map fst]; now rewrite K'|]. split; [assumption|]. split; [assumption|].
    split. { unfold z1 in Len'. cbn [fz_phi] in Len'. lia. }
    set (RR := prodval (relevant_factors v (fz_phi z))) in *.
    assert (Vv : In v (bn_V bn)) by (apply Io; now left).
    assert (Pv : 0 < ncard bn v) by (apply (valid_zero bn W v Vv)).
    assert (Sc : forall b, valid (ncard bn) (v :: r) b -> valid (ncard bn) (f_scope psi) b).
    { intros b Vb w Hw. apply Vb, S. apply Sp in Hw. now apply relevant_scope in Hw. }
    assert (NNf : nn (ncard bn) (fz_phi z)) by now apply (lb_nn (ncard bn) bn L M).
    assert (Ni : forall b, valid (ncard bn) r b -> (0 <= prodval (irrelevant_factors v (fz_phi z)) b)%Qc).
    { intros b Vb. apply (nn_prod (ncard bn)); [intros f a Hf; apply In_irrelevant in Hf; now apply NNf|].
      intros w Hw. apply irrelevant_scope in Hw as [Hw Ne]. apply Vb. apply S in Hw as [<-|Hw]; [contradiction|assumption]. }
    split.
    { intros b Vb. assert (Vr : valid (ncard bn) r b) by (intros w Hw; apply Vb; now right).
      specialize (Lo' b Vr). eapply Qcle_trans; [|exact Lo']. rewrite dn_add, Qcmult_assoc. apply Qcmult_le_compat_r; [|pose proof (dn_bounds u Hu q2); qclra].
      unfold z1. cbn [fz_phi]. rewrite P1 by (intros w Hw; apply S1' in Hw; now apply Vr). rewrite (prodval_split v (fz_phi z) b). fold RR.
      destruct (Vp b (Sc b Vb)) as [V1 _]. specialize (Ni b Vr). fold RR in V1.
      assert (Mx : (val psi b <= max_values (ncard bn) v (val psi) b)%Qc).
      { assert (val psi b = val psi (upd b v (b v))) as -> by (apply val_scope; intros w _; symmetry; apply upd_id).
        apply (max_values_spec (ncard bn) v (val psi) b Pv); [|apply Vb; now left].
        intros y Hy. apply Np, Sc. intros w Hw. destruct (name_eqb_spec w v) as [->|Ne]; [now rewrite upd_same|].
        rewrite upd_other by assumption. now apply Vb. }
      revert V1 Ni Mx. generalize (RR b) (val psi b) (prodval (irrelevant_factors v (fz_phi z)) b) (dn u q1) (max_values (ncard bn) v (val psi) b). intros. qcnra. }
    intros o2 asg0. destruct (T' (sub o2 0) asg0) as (asg' & ET & Tout & Tin & Teq).
    set (al := asg_of bn asg') in *.
    assert (Val : valid (ncard bn) r al).
    { intros w Hw. destruct (Tin w Hw) as (x & i & Hx & Hi). unfold al, asg_of. rewrite Hx, Hi.
      unfold val_index, nvalues in Hi. unfold ncard. destruct (dget (bn_F bn) w); [now apply index_of_lt in Hi|discriminate]. }
    destruct (reduce_later_ok bn asg' r (sub o2 1) psi _ W (repr_val _ _ Wp) Bp Hr Tin) as (f' & Ef & Rf & Bf & Sf).
    { intros w Hw. apply Io. now right. }
    assert (Hvp : In v (f_scope psi)).
    { apply Sp. destruct Iv as (f & Hf & Hw). exists f. split; [now apply In_relevant|assumption]. }
    assert (Sf' : forall w, In w (f_scope f') <-> w = v).
    { intros w. rewrite Sf. split.
      - intros [H1 H2]. apply Sp, relevant_scope, S in H1 as [->|H1]; [reflexivity|contradiction].
      - intros ->. auto. }
    assert (Cpt : f_cpt f' = map (fun x => val psi (upd al v x)) (seq 0 (ncard bn v))).
    { rewrite (single_cpt (ncard bn) f' v (proj1 Rf) Sf'). apply map_ext_in. intros x Hx. apply in_seq in Hx.
      assert (V1 : valid (ncard bn) (f_scope f') (upd (fun _ => 0) v x)).
      { intros w Hw. apply Sf' in Hw as ->. rewrite upd_same. lia. }
      rewrite <- (repr_to_val _ f' _ Rf _ V1).
      apply val_scope. intros w Hw. apply Sp, relevant_scope, S in Hw.
      unfold override. fold al. destruct (mem_spec w r) as [Mm|Mm].
      - rewrite upd_other; [reflexivity|congruence].
      - destruct Hw as [->|Hw]; [now rewrite !upd_same|contradiction]. }
    assert (NE : f_cpt f' <> []).
    { rewrite Cpt. destruct (ncard bn v); [lia|discriminate]. }
    destruct (argmax_spec _ NE) as (i & m & Ea & Em & Emax).
    assert (Li : i < ncard bn v).
    { rewrite Cpt in Em. assert (Lx : i < length (map (fun x => val psi (upd al v x)) (seq 0 (ncard bn v)))) by (apply nth_error_Some; congruence).
      now rewrite map_length, seq_length in Lx. }
    assert (nth_map : forall x, x < ncard bn v -> nth_error (f_cpt f') x = Some (val psi (upd al v x))).
    { intros x Hx. rewrite Cpt. rewrite nth_error_map. rewrite (nth_error_nth' _ 0) by (now rewrite seq_length).
      rewrite seq_nth by assumption. reflexivity. }
    assert (Em' : m = val psi (upd al v i)) by (rewrite (nth_map i Li) in Em; congruence).
    destruct (wn_F _ W v Vv) as [d Hd]. destruct (wn_vals _ W v Vv) as [NDvals _].
    unfold nvalues in NDvals. rewrite Hd in NDvals.
    assert (exists x, nth_error (f_values d) i = Some x) as [x Hx].
    { destruct (nth_error (f_values d) i) eqn:En; [eauto|]. apply nth_error_None in En. unfold ncard in Li. rewrite Hd in Li. lia. }
    exists (dset asg' v x). cbn [traceback]. rewrite ET. cbn [bind]. rewrite K'. rewrite Ef. cbn [bind].
    unfold bn_values, getitem. rewrite Hd. cbn [bind]. rewrite Ea. cbn [bind]. unfold nget. rewrite Hx. cbn [bind].
    split; [reflexivity|].
    assert (Iix : index_of x (f_values d) = Some i) by now apply index_of_nth.
    assert (Vix : val_index bn v x = Some i) by (unfold val_index, nvalues; now rewrite Hd).
    assert (Al2 : forall w, asg_of bn (dset asg' v x) w = upd al v i w).
    { intros w. unfold asg_of, al, upd, asg_of. rewrite dget_dset. destruct (name_eqb_spec w v) as [->|Ne]; [now rewrite Vix|reflexivity]. }
    split; [|split].
    + intros k Hk. rewrite dget_dset. destruct (name_eqb_spec k v) as [->|Ne]; [exfalso; apply Hk; now left|]. apply Tout. intros H. apply Hk. now right.
    + intros w Hw. rewrite dget_dset. destruct (name_eqb_spec w v) as [->|Ne]; [eauto|]. destruct Hw as [Hw|Hw]; [congruence|]. now apply Tin.
    + assert (Vup : forall y, y < ncard bn v -> valid (ncard bn) (v :: r) (upd al v y)).
      { intros y Hy w Hw. destruct (name_eqb_spec w v) as [->|Ne]; [now rewrite upd_same|]. rewrite upd_other by assumption.
        destruct Hw as [Hw|Hw]; [congruence|now apply Val]. }
      assert (Hmax : max_values (ncard bn) v (val psi) al = val psi (upd al v i)).
      { apply max_values_const.
        - apply Np, Sc, Vup, Li.
        - intros y Hy. rewrite <- Em'. apply (Emax y). now apply nth_map.
        - exists i. auto. }
      rewrite (prodval_ext (fz_phi z) (asg_of bn (dset asg' v x)) (upd al v i) Al2).
      rewrite (prodval_scope (fz_phi z') _ al) by (intros w Hw; now apply S' in Hw).
      eapply Qcle_trans; [exact Teq|]. rewrite up_add, Qcmult_assoc. apply Qcmult_le_compat_r; [|pose proof (up_bounds u Hu q2); pose proof one_q; qclra].
      unfold z1. cbn [fz_phi]. rewrite P1 by (intros w Hw; apply S1' in Hw; now apply Val).
      rewrite (prodval_split v (fz_phi z)), irrelevant_upd. fold RR. rewrite Hmax.
      destruct (Vp (upd al v i) (Sc _ (Vup i Li))) as [_ V2]. specialize (Ni al Val). fold RR in V2.
      revert V2 Ni. generalize (RR (upd al v i)) (val psi (upd al v i)) (prodval (irrelevant_factors v (fz_phi z)) al) (up u q1). intros. qcnra.
Qed.
End Unit.
