(** Properties_Real3.v -- theorems C104, C105: entropy, over the reals.  Specification: SpecReal.v, SpecData.v. *)
From Coq Require Import Reals.
From Verif Require Import Py Num Data SpecLearn SpecConstraint SpecData DataUtils DataFacts HistFacts MiFacts SpecReal MiReal RealFacts RealTable RealMi RealSym RealScore RealEnt Properties_Data Properties_Data2.
From Coq Require Import Lra Lia.
Open Scope R_scope.

(** ** C104 *)
(** for one integer column, whatever its codes: entropy and mutual_information agree, and the answer is nan or the entropy
    of the column rounded to four decimals.  It is not nan for codes a..a+k-1 or at most two levels. *)
Theorem C104_entropy : forall t x L, table_ok t -> t_rows t <> [] -> coded t x -> column_levels t x L -> exists r,
  entropy ent_score t [x] = Ok r /\ mutual_information mi_score t [x] = Ok r /\
  (r = NaN \/ exists q, r = Fin q /\ Rabs (qr q - plugin_entropy t x L) <= / 20000) /\
  0 <= plugin_entropy t x L <= ln (INR (length L)) /\
  ((exists ak, consecutive t x ak) \/ (length L <= 2)%nat -> r <> NaN).
Proof.
  intros t x L W NE C CL. pose proof CL as (i & -> & ND & HL). destruct (ent1_cases t i L W NE C CL) as (h & Eh & Len & M & HN & HF). set (l := ints t (NInt i)) in *.
  assert (S : select t [NInt i] = Ok [l]) by (apply (select_ok t [NInt i] W); intros v [<-|[]]; exact C).
  exists (num_map round4 (ent1 h)). split; [unfold entropy; rewrite S; cbn [bind]; unfold entropy_cols; cbn [map]; rewrite Eh; reflexivity|].
  split; [unfold mutual_information; rewrite S; cbn [bind map]; rewrite Eh; reflexivity|].
  assert (D : (exists x y, In x l /\ In y l /\ x <> y /\ bin_of (nmin_list l) (nmax_list l) (nunique l) x = bin_of (nmin_list l) (nmax_list l) (nunique l) y) \/ (forall x y, In x l -> In y l -> bin_of (nmin_list l) (nmax_list l) (nunique l) x = bin_of (nmin_list l) (nmax_list l) (nunique l) y -> x = y)).
  { set (b := bin_of (nmin_list l) (nmax_list l) (nunique l)). clear. assert (Q : forall m, (exists x y, In x l /\ In y m /\ x <> y /\ b x = b y) \/ (forall x y, In x l -> In y m -> b x = b y -> x = y)).
    { induction m as [|y m IH]; [right; intros x y _ []|]. destruct IH as [(u & v & Hu & Hv & E)|IH]; [left; exists u, v; split; [exact Hu|split; [now right|exact E]]|].
      assert (R : forall k, (exists x, In x k /\ x <> y /\ b x = b y) \/ (forall x, In x k -> b x = b y -> x = y)).
      { induction k as [|u k IHk]; [right; intros x []|]. destruct IHk as [(v & Hv & E)|IHk]; [left; exists v; split; [now right|exact E]|]. destruct (Nat.eq_dec (b u) (b y)) as [E|E]; [destruct (Nat.eq_dec u y) as [->|N]|].
        - right. intros x [<-|Hx] Q; [reflexivity|now apply IHk].
        - left. exists u. split; [now left|split; assumption].
        - right. intros x [<-|Hx] Q; [contradiction|now apply IHk]. }
      destruct (R l) as [(u & Hu & E)|H]; [left; exists u, y; split; [exact Hu|split; [now left|exact E]]|]. right. intros u v Hu [<-|Hv] E; [now apply H|now apply IH]. }
    apply Q. }
  split; [|split; [now apply entropy_bounds|]].
  - destruct D as [D|D]; [left; now rewrite HN|right]. rewrite HF by exact D. eexists. split; [reflexivity|]. apply round4_spec.
  - intros K. destruct D as [(u & v & Hu & Hv & N & E)|D]; [exfalso|rewrite HF by exact D; discriminate]. destruct K as [[ak K]|K].
    + pose proof (consecutive_ints t (NInt i) ak W K) as H. fold l in H. rewrite (bin_consecutive _ _ _ _ H Hu), (bin_consecutive _ _ _ _ H Hv) in E. apply H in Hu, Hv. lia.
    + assert (NEl : l <> []) by (intros Z; rewrite Z in Hu; destruct Hu). assert (Two : forall w, In w l -> w = u \/ w = v).
      { intros w Hw. destruct (Nat.eq_dec w u) as [|Nu]; [now left|]. destruct (Nat.eq_dec w v) as [|Nv]; [now right|]. exfalso.
        assert (I : (3 <= length L)%nat). { change 3%nat with (length [NInt u; NInt v; NInt w]). apply NoDup_incl_length; [repeat constructor; simpl; intuition congruence|]. intros z [<-|[<-|[<-|[]]]]; now apply M. } lia. }
      assert (Kl : nunique l = 2%nat). { assert (2 <= length L)%nat by (change 2%nat with (length [NInt u; NInt v]); apply NoDup_incl_length; [repeat constructor; simpl; intuition congruence|]; intros z [<-|[<-|[]]]; now apply M). lia. }
      rewrite Kl in E. pose proof (nmin_le l u Hu). pose proof (nmin_le l v Hv). pose proof (nmax_ge l u Hu). pose proof (nmax_ge l v Hv). pose proof (Two _ (nmin_in l NEl)) as Tm. pose proof (Two _ (nmax_in l NEl)) as TM.
      set (lo := nmin_list l) in *. set (hi := nmax_list l) in *. unfold bin_of in E. destruct (Nat.eqb_spec lo hi) as [Q|Q]; [lia|].
      assert (A : ((lo - lo) * 2 / (hi - lo) = 0)%nat) by (rewrite Nat.sub_diag; apply Nat.div_0_l; lia). assert (B : ((hi - lo) * 2 / (hi - lo) = 2)%nat) by (rewrite Nat.mul_comm; apply Nat.div_mul; lia).
      assert (O : (u = lo /\ v = hi) \/ (u = hi /\ v = lo)) by lia. destruct O as [[-> ->]|[-> ->]]; rewrite A, B in E; cbn in E; discriminate.
Qed.
Print Assumptions C104_entropy.
(** it is nan as soon as the two smallest codes differ by 1 and the spread exceeds the number of levels, or the two
    largest differ by 1 and the spread is at least the number of levels *)
Theorem C104_nan : forall t x L lo hi, table_ok t -> t_rows t <> [] -> coded t x -> column_levels t x L ->
  In (NInt lo) L -> In (NInt hi) L -> (forall u, In (NInt u) L -> (lo <= u <= hi)%nat) ->
  (In (NInt (lo + 1)) L /\ (length L < hi - lo)%nat) \/ (In (NInt (hi - 1)) L /\ (1 < length L <= hi - lo)%nat) ->
  entropy ent_score t [x] = Ok NaN /\ mutual_information mi_score t [x] = Ok NaN.
Proof.
  intros t x L lo hi W NE C CL Hlo Hhi B K. pose proof CL as (i & -> & ND & HL). destruct (ent1_cases t i L W NE C CL) as (h & Eh & Len & M & HN & _). set (l := ints t (NInt i)) in *.
  assert (S : select t [NInt i] = Ok [l]) by (apply (select_ok t [NInt i] W); intros v [<-|[]]; exact C).
  assert (Elo : nmin_list l = lo). { apply M in Hlo. pose proof (nmin_le l lo Hlo). assert (In (nmin_list l) l) by (apply nmin_in; intros Z; rewrite Z in Hlo; destruct Hlo). apply M in H0. specialize (B _ H0). lia. }
  assert (Ehi : nmax_list l = hi). { apply M in Hhi. pose proof (nmax_ge l hi Hhi). assert (In (nmax_list l) l) by (apply nmax_in; intros Z; rewrite Z in Hhi; destruct Hhi). apply M in H0. specialize (B _ H0). lia. }
  assert (E1 : ent1 h = NaN).
  { apply HN. rewrite Elo, Ehi, <- Len. destruct K as [[I K]|[I K]].
    - exists lo, (lo + 1)%nat. split; [now apply M|]. split; [now apply M|]. split; [lia|]. unfold bin_of. destruct (Nat.eqb_spec lo hi); [lia|]. replace (lo - lo)%nat with 0%nat by lia. replace (lo + 1 - lo)%nat with 1%nat by lia.
      rewrite Nat.mul_0_l, Nat.mul_1_l. rewrite !Nat.div_small by lia. reflexivity.
    - exists (hi - 1)%nat, hi. split; [now apply M|]. split; [now apply M|]. split; [lia|]. unfold bin_of. destruct (Nat.eqb_spec lo hi); [lia|]. set (k := length L) in *. set (d := (hi - lo)%nat) in *. replace (hi - 1 - lo)%nat with (d - 1)%nat by (unfold d; lia).
      assert (A : (k - 1 <= (d - 1) * k / d)%nat) by (apply Nat.div_le_lower_bound; nia). assert (A' : (k - 1 <= d * k / d)%nat) by (apply Nat.div_le_lower_bound; nia). lia. }
  split; [unfold entropy; rewrite S; cbn [bind]; unfold entropy_cols; cbn [map]; rewrite Eh; cbn [bind ent_score]; now rewrite E1|].
  unfold mutual_information; rewrite S; cbn [bind map]; rewrite Eh; cbn [bind mi_score]; now rewrite E1.
Qed.
Print Assumptions C104_nan.
(** the codes 0, 2, 3 *)
Definition exGap023 : table := mkT 1 [[NInt 0]; [NInt 2]; [NInt 3]; [NInt 2]].
Example C104_nonvacuous : table_ok exGap023 /\ t_rows exGap023 <> [] /\ coded exGap023 (NInt 0) /\ column_levels exGap023 (NInt 0) [NInt 0; NInt 2; NInt 3] /\
  (In (NInt (3 - 1)) [NInt 0; NInt 2; NInt 3] /\ (1 < length [NInt 0; NInt 2; NInt 3] <= 3 - 0)%nat) /\ coded exBits (NInt 0) /\ column_levels exBits (NInt 0) [NInt 0; NInt 1].
Proof.
  assert (R : forall r x, cell exGap023 r 0 = Some x -> x = NInt 0 \/ x = NInt 2 \/ x = NInt 3).
  { intros r x H. destruct r as [|[|[|[|r]]]]; cbn in H; try (injection H as <-; tauto). unfold cell in H. cbn in H. destruct r; discriminate. }
  split; [intros r [<-|[<-|[<-|[<-|[]]]]]; reflexivity|]. split; [discriminate|]. split.
  { exists 0%nat. split; [reflexivity|]. split; [cbn; lia|]. intros r x H. destruct (R r x H) as [->|[->| ->]]; eauto. }
  split. { exists 0%nat. split; [reflexivity|]. split; [repeat constructor; simpl; intuition congruence|]. intros u. split; [intros [<-|[<-|[<-|[]]]]; [exists 0%nat|exists 1%nat|exists 2%nat]; reflexivity|intros [r H]; destruct (R r u H) as [->|[->| ->]]; simpl; tauto]. }
  split; [split; [simpl; tauto|cbn; lia]|]. pose proof (exBits_consecutive 0%nat ltac:(lia)) as Cb. split; [now apply (consecutive_coded _ _ _ Cb)|]. destruct Cb as (i & Ei & _ & H). injection Ei as <-. exists 0%nat. split; [reflexivity|].
  split; [repeat constructor; simpl; intuition congruence|]. intros u. rewrite H. cbn [fst snd]. split; [intros [<-|[<-|[]]]; eexists; (split; [reflexivity|lia])|intros (n & -> & Hn); destruct n as [|[|n]]; simpl; try tauto; lia].
Qed.

(** ** C105 *)
Lemma ent2_freq t x y ax ay : table_ok t -> t_rows t <> [] -> consecutive t x ax -> consecutive t y ay -> ent2 (snd ax) (snd ay) (contingency t [x; y] [ax; ay]) = smoothed_cond_entropy eps t x y ax ay.
Proof.
  intros W NE Cx Cy. unfold ent2, smoothed_cond_entropy. cbn zeta. rewrite (hsum_contingency2 t x y ax ay) by assumption.
  assert (E : forall i j, (i < snd ax)%nat -> (j < snd ay)%nat -> at2 (snd ay) (contingency t [x; y] [ax; ay]) i j / INR (length (t_rows t)) = freq t [(x, lvl ax i); (y, lvl ay j)]).
  { intros i j Hi Hj. unfold at2, freq. now rewrite nth_contingency2. }
  apply rsum_ext. intros i Hi. apply rsum_ext. intros j Hj. rewrite E by assumption. rewrite (rsum_ext _ _ (fun i => freq t ([] ++ (x, lvl ax i) :: [(y, lvl ay j)]))) by (intros; now apply E). now rewrite freq_sum.
Qed.
Lemma cond_term p q : 0 <= p <= q -> q <= 1 -> 0 <= (p + eps) * ln ((q + eps) / (p + eps)) /\ Rabs ((p + eps) * ln ((q + eps) / (p + eps)) - p * ln (q / p)) <= 18 * eps.
Proof.
  intros Hp Hq. pose proof eps_pos as He. assert (L : 0 <= ln ((q + eps) / (p + eps)) <= 17).
  { split; [rewrite ln_div by lra; assert (ln (p + eps) <= ln (q + eps)) by (apply ln_le; lra); lra|]. pose proof (abs_le_inv _ _ (ln_ratio_bound q p ltac:(lra) ltac:(lra))). lra. }
  split; [nra|]. destruct (Req_EM_T p 0) as [-> |D].
  - rewrite Rmult_0_l, Rplus_0_l, Rminus_0_r in *. apply Rabs_le. nra.
  - assert (P : 0 < p) by lra. assert (E : (p + eps) * ln ((q + eps) / (p + eps)) - p * ln (q / p) = p * ln (1 + eps / q) - p * ln (1 + eps / p) + eps * ln ((q + eps) / (p + eps))).
    { replace (1 + eps / p) with ((p + eps) / p) by (field; lra). replace (1 + eps / q) with ((q + eps) / q) by (field; lra). rewrite !ln_div by lra. ring. }
    rewrite E. assert (B : forall r, p <= r -> 0 <= p * ln (1 + eps / r) <= eps).
    { intros r Hr. assert (0 < eps / r) by (apply div_pos; lra). split; [apply Rmult_le_pos; [lra|]; rewrite <- ln_1; apply ln_le; lra|].
      apply Rle_trans with (p * (eps / r)); [apply Rmult_le_compat_l; [lra|]; pose proof (ln_le_sub (1 + eps / r)); lra|]. replace (p * (eps / r)) with (eps * (p / r)) by (field; lra). rewrite <- (Rmult_1_r eps) at 2. apply Rmult_le_compat_l; [lra|].
      apply (Rmult_le_reg_r r); [lra|]. unfold Rdiv. rewrite Rmult_assoc, Rinv_l by lra. lra. }
    pose proof (B p ltac:(lra)). pose proof (B q ltac:(lra)). assert (0 <= eps * ln ((q + eps) / (p + eps)) <= 17 * eps) by nra. apply Rabs_le. lra.
Qed.
(** two columns: the conditional entropy of the first given the second; the number is never negative *)
Theorem C105_conditional_entropy : forall t x y ax ay, table_ok t -> t_rows t <> [] -> consecutive t x ax -> consecutive t y ay ->
  let s := smoothed_cond_entropy (/ 10 ^ 7) t x y ax ay in
  exists r, entropy ent_score t [x; y] = Ok (Fin r) /\ Rabs (qr r - s) <= / 20000 /\ 0 <= s /\
    Rabs (s - plugin_cond_entropy t x y ax ay) <= / 10 ^ 7 * (INR (snd ax) * INR (snd ay) * 18).
Proof.
  intros t x y ax ay W NE Cx Cy. assert (Ee : / 10 ^ 7 = eps) by (unfold eps; f_equal; lra). cbn zeta. rewrite Ee. exists (round4 (smoothed_cond_entropy eps t x y ax ay)).
  assert (F : Forall2 (consecutive t) [x; y] [ax; ay]) by (constructor; [exact Cx|constructor; [exact Cy|constructor]]).
  split. { destruct (hist_contingency t [x; y] [ax; ay] W NE F) as [U H]. unfold entropy. rewrite (select_ok t [x; y] W) by (intros v [<-|[<-|[]]]; [now apply (consecutive_coded _ _ ax)|now apply (consecutive_coded _ _ ay)]). cbn [bind]. unfold entropy_cols. cbn [map] in U, H |- *. rewrite U, H. cbn [bind ent_score]. now rewrite ent2_freq. }
  split; [apply round4_spec|].
  assert (T : forall i j, let p := freq t [(x, lvl ax i); (y, lvl ay j)] in let q := freq t [(y, lvl ay j)] in 0 <= (p + eps) * ln ((q + eps) / (p + eps)) /\ Rabs ((p + eps) * ln ((q + eps) / (p + eps)) - p * ln (q / p)) <= 18 * eps).
  { intros i j. cbn zeta. apply cond_term; [split; [apply freq_nonneg|now apply freq_sub]|now apply freq_one]. }
  unfold smoothed_cond_entropy, plugin_cond_entropy. cbn zeta. split; [apply rsum_nonneg; intros i _; apply rsum_nonneg; intros j _; apply (T i j)|].
  rewrite <- rsum_minus. eapply Rle_trans; [apply rsum_abs|]. replace (eps * (INR (snd ax) * INR (snd ay) * 18)) with (INR (snd ax) * (INR (snd ay) * (18 * eps))) by ring. rewrite <- rsum_const. apply rsum_le. intros i _.
  rewrite <- rsum_minus. eapply Rle_trans; [apply rsum_abs|]. rewrite <- rsum_const. apply rsum_le. intros j _. apply (T i j).
Qed.
Print Assumptions C105_conditional_entropy.
Lemma round4_small x : Rabs x < / 20000 -> round4 x = 0%Qc.
Proof.
  intros H. assert (E : round_int (x * 10000) = 0%Z).
  { pose proof (round_int_spec (x * 10000)) as B. apply abs_le_inv in B. apply Rabs_def2 in H. assert (IZR (-1) < IZR (round_int (x * 10000)) < IZR 1) by (cbn; lra). destruct H0 as [A C]. apply lt_IZR in A, C. lia. }
  unfold round4. rewrite E. apply Qc_is_canon. reflexivity.
Qed.
(** three 0/1 columns (each with a 1): entropy and conditional mutual information are always 0, whatever the data *)
Theorem C105_three_columns : forall t x y z, table_ok t -> t_rows t <> [] -> (forall v, In v [x; y; z] -> binary t v /\ has_one t v) ->
  entropy ent_score t [x; y; z] = Ok (Fin 0%Qc) /\ conditional_mi cmi_score t [x; y; z] = Ok (Fin 0%Qc).
Proof.
  intros t x y z W NE B. destruct (C87_conditional_constant _ cmi_score t x y z W NE B) as [E1 _]. destruct (C87_conditional_constant _ ent_score t x y z W NE B) as [_ E2]. rewrite E1, E2. pose proof (N_pos t NE) as HN.
  assert (One : at3 1 1 [length (t_rows t)] 0 0 0 / INR (hsum [length (t_rows t)]) = 1) by (unfold at3, hsum; cbn; rewrite Nat.add_0_r; field; lra).
  assert (R1 : forall f, rsum 1 f = f 0%nat) by (intros f; unfold rsum; cbn; lra). pose proof eps_pos as He. split; unfold ent_score, cmi_score; apply f_equal, f_equal, round4_small.
  - unfold ent3. cbn zeta. rewrite !R1, One. unfold Rabs. destruct (Rcase_abs _); lra.
  - unfold mi3. cbn zeta. rewrite !R1, One. assert (U : eps <= / 1000) by (unfold eps; lra). assert (U' : eps < / 100000) by (unfold eps; lra). generalize dependent eps. intros e Hpos U U'.
    set (w := / (1 + e)). assert (Hw : w * (1 + e) = 1) by (unfold w; field; lra). assert (Lw : 0 < w <= 1) by (split; [apply Rinv_0_lt_compat; lra|nra]). assert (Lw' : 1 - e <= w) by nra.
    unfold Rdiv at 2 3 4. rewrite !Rmult_1_l. fold w. assert (Q : ln ((w + e) / (w * w + e)) <= (w + e) / (w * w + e) - 1) by (apply ln_le_sub, div_pos; nra). assert (P : w * w + e <= w + e) by nra.
    assert (P' : 0 <= ln ((w + e) / (w * w + e))) by (rewrite ln_div by nra; assert (ln (w * w + e) <= ln (w + e)) by (apply ln_le; nra); lra).
    assert (D : (w + e) / (w * w + e) - 1 <= 2 * e). { replace ((w + e) / (w * w + e) - 1) with ((w * (1 - w)) / (w * w + e)) by (field; nra). apply (Rmult_le_reg_r (w * w + e)); [nra|]. unfold Rdiv. rewrite Rmult_assoc, Rinv_l by nra. nra. }
    rewrite Rabs_pos_eq; nra.
Qed.
Print Assumptions C105_three_columns.
(** three columns coded 1..a, 1..b, 1..c: entropy is the conditional entropy of the first given the others, and the conditional
    mutual information is the number on which the conditional test is based (C98_conditional) *)
Lemma hsum_contingency3 t x y z ax ay az : table_ok t -> t_rows t <> [] -> consecutive t x ax -> consecutive t y ay -> consecutive t z az ->
  hsum (contingency t [x; y; z] [ax; ay; az]) = length (t_rows t).
Proof.
  intros W NE Cx Cy Cz. apply INR_eq. unfold contingency. cbn [map]. rewrite hsum_tuples. pose proof (N_pos t NE) as HN.
  rewrite (rsum_ext _ _ (fun i => INR (length (t_rows t)) * rsum (snd ay) (fun j => freq t [(x, lvl ax i); (y, lvl ay j)]))).
  - rewrite rsum_scal. rewrite (sum_xy t x y ax ay) by assumption. lra.
  - intros i Hi. rewrite hsum_tuples. rewrite <- rsum_scal. apply rsum_ext. intros j Hj. rewrite hsum_tuples.
    pose proof (freq_sum t z az [(x, lvl ax i); (y, lvl ay j)] [] W Cz) as Ez. cbn [app] in Ez. rewrite <- Ez. rewrite <- rsum_scal. apply rsum_ext. intros k Hk.
    unfold freq. cbn [tuples map hsum fold_right app]. rewrite Nat.add_0_r. cbn [combine map fst snd]. unfold lvl. field. lra.
Qed.
Lemma xlnx_near p : 0 <= p <= 1 -> Rabs ((p + eps) * ln (p + eps) - p * ln p) <= 17 * eps.
Proof.
  intros Hp. pose proof eps_pos as He. assert (L : - 17 <= ln (p + eps) <= eps).
  { split; [|pose proof (ln_le_sub (p + eps)); lra]. assert (B : - 17 <= ln ((0 + eps) / (1 + eps))) by (pose proof (abs_le_inv _ _ (ln_ratio_bound 0 1 ltac:(lra) ltac:(lra))); lra).
    rewrite ln_div in B by lra. assert (0 <= ln (1 + eps)) by (rewrite <- ln_1; apply ln_le; lra). assert (ln (0 + eps) <= ln (p + eps)) by (apply ln_le; lra). lra. }
  assert (U : eps <= 1) by (unfold eps; lra). destruct (Req_EM_T p 0) as [-> |D].
  - rewrite Rmult_0_l, Rplus_0_l, Rminus_0_r in *. apply Rabs_le. nra.
  - assert (P : 0 < p) by lra. assert (E : (p + eps) * ln (p + eps) - p * ln p = p * ln (1 + eps / p) + eps * ln (p + eps)).
    { replace (1 + eps / p) with ((p + eps) / p) by (field; lra). rewrite ln_div by lra. ring. }
    assert (0 < eps / p) by (apply div_pos; lra). assert (B : 0 <= p * ln (1 + eps / p) <= eps).
    { split; [apply Rmult_le_pos; [lra|]; rewrite <- ln_1; apply ln_le; lra|]. apply Rle_trans with (p * (eps / p)); [apply Rmult_le_compat_l; [lra|]; pose proof (ln_le_sub (1 + eps / p)); lra|]. right. field. lra. }
    rewrite E. assert (- (17 * eps) <= eps * ln (p + eps) <= eps) by nra. apply Rabs_le. lra.
Qed.
Lemma xlnq p q : 0 <= p <= q -> p * ln (q / p) = p * ln q - p * ln p.
Proof. intros H. destruct (Req_EM_T p 0) as [-> |D]; [lra|]. rewrite ln_div by lra. ring. Qed.
Theorem C105_three_from_one : forall t x y z a b c, table_ok t -> t_rows t <> [] -> consecutive t x (1, a)%nat -> consecutive t y (1, b)%nat -> consecutive t z (1, c)%nat ->
  let ax := (1, a)%nat in let ay := (1, b)%nat in let az := (1, c)%nat in
  (exists r, entropy ent_score t [x; y; z] = Ok (Fin r) /\
     Rabs (qr r - plugin_cond_entropy3 t x y z ax ay az) <= / 20000 + / 10 ^ 7 * (17 * (INR a * INR b * INR c + INR b * INR c))) /\
  exists r, conditional_mi cmi_score t [x; y; z] = Ok (Fin r) /\ mi_test mi_rounded t [x; y; z] = Ok r /\ Rabs (qr r - smoothed_cmi (/ 10 ^ 7) t x y z ax ay az) <= / 20000.
Proof.
  intros t x y z a b c W NE Cx Cy Cz ax ay az. assert (Ee : / 10 ^ 7 = eps) by (unfold eps; f_equal; lra). pose proof eps_pos as He. split.
  - destruct (C87_coded_from_one _ ent_score t x y z a b c W NE Cx Cy Cz) as [_ E]. rewrite E. cbn [ent_score]. eexists. split; [reflexivity|].
    set (s := ent3 a b c (contingency t [x; y; z] [(1%nat, a); (1%nat, b); (1%nat, c)])).
    assert (B : Rabs (s - plugin_cond_entropy3 t x y z ax ay az) <= eps * (17 * (INR a * INR b * INR c + INR b * INR c))).
    { set (P := fun i j k => freq t [(x, lvl ax i); (y, lvl ay j); (z, lvl az k)]). set (Q := fun j k => freq t [(y, lvl ay j); (z, lvl az k)]).
      assert (HQ : forall j k, rsum a (fun i => P i j k) = Q j k) by (intros j k; exact (freq_sum t x ax [] [(y, lvl ay j); (z, lvl az k)] W Cx)).
      assert (Es : s = - rsum a (fun i => rsum b (fun j => rsum c (fun k => (P i j k + eps) * ln (P i j k + eps)))) + rsum b (fun j => rsum c (fun k => (Q j k + eps) * ln (Q j k + eps)))).
      { unfold s, ent3. cbn zeta. rewrite (hsum_contingency3 t x y z (1%nat, a) (1%nat, b) (1%nat, c)) by assumption.
        assert (HP : forall i j k, (i < a)%nat -> (j < b)%nat -> (k < c)%nat -> at3 b c (contingency t [x; y; z] [(1%nat, a); (1%nat, b); (1%nat, c)]) i j k / INR (length (t_rows t)) = P i j k).
        { intros i j k Hi Hj Hk. unfold at3, P, freq. f_equal. f_equal. exact (nth_contingency3 t x y z ax ay az i j k Hi Hj Hk). }
        f_equal; [f_equal; apply rsum_ext; intros i Hi; apply rsum_ext; intros j Hj; apply rsum_ext; intros k Hk; now rewrite HP|].
        apply rsum_ext. intros j Hj. apply rsum_ext. intros k Hk. rewrite <- HQ. rewrite (rsum_ext a _ (fun i => P i j k)) by (intros i Hi; now apply HP). reflexivity. }
      assert (Ep : plugin_cond_entropy3 t x y z ax ay az = - rsum a (fun i => rsum b (fun j => rsum c (fun k => P i j k * ln (P i j k)))) + rsum b (fun j => rsum c (fun k => Q j k * ln (Q j k)))).
      { unfold plugin_cond_entropy3. cbn zeta. cbn [snd ax ay az]. change (snd ax) with a. change (snd ay) with b. change (snd az) with c.
        rewrite (rsum_ext a _ (fun i => rsum b (fun j => rsum c (fun k => P i j k * ln (Q j k))) - rsum b (fun j => rsum c (fun k => P i j k * ln (P i j k))))).
        - rewrite rsum_minus. rewrite rsum_swap. rewrite (rsum_ext b _ (fun j => rsum c (fun k => Q j k * ln (Q j k)))); [lra|]. intros j _. rewrite rsum_swap. apply rsum_ext. intros k _. now rewrite rsum_scal_r, HQ.
        - intros i _. rewrite <- rsum_minus. apply rsum_ext. intros j _. rewrite <- rsum_minus. apply rsum_ext. intros k _. apply xlnq. split; [apply freq_nonneg|now apply freq_sub]. }
      assert (T3 : Rabs (rsum a (fun i => rsum b (fun j => rsum c (fun k => (P i j k + eps) * ln (P i j k + eps)))) - rsum a (fun i => rsum b (fun j => rsum c (fun k => P i j k * ln (P i j k))))) <= INR a * (INR b * (INR c * (17 * eps)))).
      { rewrite <- rsum_minus. eapply Rle_trans; [apply rsum_abs|]. rewrite <- rsum_const. apply rsum_le. intros i _. rewrite <- rsum_minus. eapply Rle_trans; [apply rsum_abs|]. rewrite <- rsum_const. apply rsum_le. intros j _.
        rewrite <- rsum_minus. eapply Rle_trans; [apply rsum_abs|]. rewrite <- rsum_const. apply rsum_le. intros k _. apply xlnx_near. split; [apply freq_nonneg|now apply freq_one]. }
      assert (T2 : Rabs (rsum b (fun j => rsum c (fun k => (Q j k + eps) * ln (Q j k + eps))) - rsum b (fun j => rsum c (fun k => Q j k * ln (Q j k)))) <= INR b * (INR c * (17 * eps))).
      { rewrite <- rsum_minus. eapply Rle_trans; [apply rsum_abs|]. rewrite <- rsum_const. apply rsum_le. intros j _.
        rewrite <- rsum_minus. eapply Rle_trans; [apply rsum_abs|]. rewrite <- rsum_const. apply rsum_le. intros k _. apply xlnx_near. split; [apply freq_nonneg|now apply freq_one]. }
      rewrite Es, Ep. apply abs_le_inv in T3, T2. apply Rabs_le. lra. }
    pose proof (round4_spec s) as R4. rewrite Ee. apply abs_le_inv in B, R4. apply Rabs_le. lra.
  - destruct (C87_coded_from_one _ cmi_score t x y z a b c W NE Cx Cy Cz) as [E _]. rewrite E. cbn [cmi_score]. eexists. split; [reflexivity|].
    rewrite (hsum_contingency3 t x y z (1%nat, a) (1%nat, b) (1%nat, c)) by assumption.
    pose proof (mi3_freq t x y z ax ay az W NE Cx Cy Cz) as M. cbn [snd ax ay az] in M. change (snd ax) with a in M. change (snd ay) with b in M. change (snd az) with c in M. fold ax ay az. rewrite M.
    split; [|rewrite Ee; apply round4_spec].
    assert (F : Forall2 (consecutive t) [x; y; z] [ax; ay; az]) by (constructor; [exact Cx|constructor; [exact Cy|constructor; [exact Cz|constructor]]]).
    rewrite (C53_mi_test _ mi_rounded t [x; y; z] [ax; ay; az] W NE F) by (cbn; lia). unfold mi_rounded. cbn [map mi_number]. change (snd ax) with a. change (snd ay) with b. change (snd az) with c. now rewrite M.
Qed.
Print Assumptions C105_three_from_one.
(** with one or two columns the flag conditional=True changes nothing: the same number, or the same exception *)
Theorem C105_flag_two : forall t x y,
  conditional_mi cmi_score t [x] = mutual_information mi_score t [x] /\ conditional_mi cmi_score t [x; y] = mutual_information mi_score t [x; y].
Proof.
  intros t x y. unfold conditional_mi, mutual_information. split.
  - destruct (select t [x]) as [cs|] eqn:Es; cbn [bind]; [|reflexivity]. apply mapM_len in Es. destruct cs as [|c [|]]; try discriminate. cbn [map]. destruct (hist _ _ _); reflexivity.
  - destruct (select t [x; y]) as [cs|] eqn:Es; cbn [bind]; [|reflexivity]. apply mapM_len in Es. destruct cs as [|c [|d [|]]]; try discriminate. cbn [map]. destruct (hist _ _ _); reflexivity.
Qed.
Print Assumptions C105_flag_two.
Example C105_nonvacuous : table_ok exXor /\ t_rows exXor <> [] /\ (forall v, In v [NInt 0; NInt 1; NInt 2] -> binary exXor v /\ has_one exXor v) /\ consecutive exBits (NInt 0) (0, 2)%nat /\ consecutive exBits (NInt 1) (0, 2)%nat.
Proof.
  destruct C87_nonvacuous as (B & _). split; [apply exXor_ok|]. split; [discriminate|]. split; [intros v Hv; apply B; simpl in *; tauto|]. split; apply exBits_consecutive; lia.
Qed.
(** three columns with the codes 1 and 2 *)
Definition exCodes12 : table := mkT 3 [[NInt 1; NInt 1; NInt 1]; [NInt 2; NInt 2; NInt 1]; [NInt 1; NInt 1; NInt 2]; [NInt 2; NInt 1; NInt 2]].
Example C105_three_from_one_nonvacuous : table_ok exCodes12 /\ t_rows exCodes12 <> [] /\ forall i, (i < 3)%nat -> consecutive exCodes12 (NInt i) (1, 2)%nat.
Proof.
  split; [intros r [<-|[<-|[<-|[<-|[]]]]]; reflexivity|]. split; [discriminate|]. intros i Hi. exists i. split; [reflexivity|]. split; [exact Hi|]. cbn [fst snd]. intros x. split.
  - intros [r H]. unfold cell in H. destruct r as [|[|[|[|r]]]]; cbn in H; try (destruct r; discriminate); destruct i as [|[|[|]]]; try lia; cbn in H; injection H as <-; eexists; (split; [reflexivity|lia]).
  - intros (n & -> & Hn). assert (n = 1 \/ n = 2)%nat as [-> | ->] by lia; destruct i as [|[|[|]]]; try lia; [exists 0%nat|exists 0%nat|exists 0%nat|exists 1%nat|exists 1%nat|exists 2%nat]; reflexivity.
Qed.
