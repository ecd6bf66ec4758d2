(** Properties_Fast.v -- theorems C108: fast_iamb and lambda_iamb. *)
From Verif Require Import Py Num BayesNet Graph Data ParamLearn StructScore SpecConstraint SpecData Constraint DataUtils DataFacts ConstraintFacts StructFacts FastIamb FastFacts DiscFacts Properties_Data.
Open Scope nat_scope.

(** no call of fast_iamb returns *)
Theorem C108_never : forall fuel o test w t k sel r, fast_iamb fuel o test w t k sel <> Ok r.
Proof.
  intros fuel o test w t k sel r. unfold fast_iamb. destruct (value_dict t); [|discriminate]. cbn [bind]. destruct (replace_strings w t) as [dv|]; [|discriminate]. cbn [bind]. destruct (unique_bins (fst dv)); [|discriminate]. cbn [bind].
  destruct sel as [|v|l0]; [destruct (fi_blankets _ _ _ _ _ _ _ _)|destruct (fi_blankets _ _ _ _ _ _ _ _)|]; discriminate.
Qed.
Print Assumptions C108_never.
Definition width_ok (w : option nat) : Prop := match w with None => True | Some k => 0 < k end.
Lemma card_ok w t : table_ok t -> t_rows t <> [] -> width_ok w -> exists t' vd bins, replace_strings w t = Ok (t', vd) /\ unique_bins t' = Ok bins /\ length bins = t_ncols t /\
  forall v, In v (columns (t_ncols t)) -> exists c i, v = NInt i /\ i < t_ncols t /\ dget (combine (columns (t_ncols t)) bins) v = Some c /\ 1 <= c /\ forall vs, (forall x, occurs t i x -> In x vs) -> c <= length vs.
Proof.
  intros W NE Hw. destruct (replace_strings_ok w t W Hw) as (t' & E & Nc & Lr & W' & Cells). destruct (C51_unique_bins t' W') as (bins & Eb & Lb & B). exists t'; eexists; exists bins. split; [exact E|]. split; [exact Eb|]. rewrite Nc in *. split; [exact Lb|].
  intros v Hv. unfold columns in Hv. apply in_map_iff in Hv as (i & <- & Hi). apply in_seq in Hi. destruct (B i ltac:(lia)) as (vs' & Ev & ND & Oc). exists (length vs'), i. split; [reflexivity|]. split; [lia|]. split; [|split].
  - assert (Z : forall (l : list nat) s k, k < length l -> dget (combine (map NInt (seq s (length l))) l) (NInt (s + k)) = nth_error l k).
    { induction l as [|x l IH]; intros s k Hk; [cbn in Hk; lia|]. cbn [length seq map combine dget]. destruct k as [|k].
      - rewrite Nat.add_0_r. now destruct (name_eqb_spec (NInt s) (NInt s)).
      - destruct (name_eqb_spec (NInt (s + S k)) (NInt s)) as [Q|Q]; [injection Q; lia|]. replace (s + S k) with (S s + k) by lia. cbn [nth_error]. apply IH. cbn in Hk. lia. }
    unfold columns. rewrite <- Lb. specialize (Z bins 0 i ltac:(lia)). cbn [plus] in Z. rewrite Z. exact Ev.
  - destruct (t_rows t') as [|row rs] eqn:Er; [destruct (t_rows t); [congruence|discriminate]|]. assert (Hrow : length row = t_ncols t') by (apply W'; rewrite Er; now left). destruct (nth_error row i) as [x|] eqn:Ex; [|apply nth_error_None in Ex; lia].
    assert (In x vs') by (apply Oc; exists 0; unfold cell; now rewrite Er). destruct vs'; [contradiction|cbn; lia].
  - intros vs Hvs. set (f := fun k => match put_code w k with Ok c => NInt c | Raise _ => NInt 0 end). 
    assert (Inc : incl vs' (map f (seq 0 (length (colvals t i))))).
    { intros x Hx. apply Oc in Hx as (r & Hr). assert (R : exists x0, cell t r i = Some x0).
      { unfold cell in *. destruct (nth_error (t_rows t') r) as [row|] eqn:E1; [|discriminate]. assert (L : r < length (t_rows t)) by (rewrite <- Lr; apply nth_error_Some; congruence). destruct (nth_error (t_rows t) r) as [row0|] eqn:E2; [|apply nth_error_None in E2; lia]. apply nth_error_In in E2. specialize (W row0 E2). destruct (nth_error row0 i) eqn:E3; [eauto|]. apply nth_error_None in E3. lia. }
      destruct R as (x0 & R). destruct (Cells r i x0 ltac:(lia) R) as (k & c & K1 & K2 & K3). rewrite Hr in K3. injection K3 as ->. apply in_map_iff. exists k. split; [unfold f; now rewrite K2|]. apply in_seq. assert (k < length (colvals t i)) by (apply nth_error_Some; congruence). lia. }
    apply NoDup_incl_length in Inc; [|exact ND]. rewrite map_length, seq_length in Inc. apply Nat.le_trans with (1 := Inc). apply NoDup_incl_length; [unfold colvals; destruct (column t i); [apply NoDup_np_unique|constructor]|]. intros x Hx. apply Hvs. apply In_colvals; [exact W|lia|exact Hx].
Qed.
Definition target (sel : selection) (n : nat) (T : name) : Prop := match sel with SelNone => 2 <= n /\ T = NInt 0 | SelOne v => T = v | SelList _ => False end.
Lemma run_first fuel o test w t k sel T e : table_ok t -> t_rows t <> [] -> width_ok w -> In T (columns (t_ncols t)) -> target sel (t_ncols t) T ->
  (forall bins vd t' o', o' = sub o 0 -> replace_strings w t = Ok (t', vd) -> unique_bins t' = Ok bins ->
     (do s <- fi_screen test T (length (ask (sub o' 0) (set_diff (columns (t_ncols t)) [T]))) (ask (sub o' 0) (set_diff (columns (t_ncols t)) [T])) (ask (sub o' 0) (set_diff (columns (t_ncols t)) [T])) ;;
      fi_loop fuel (sub o' 1) test (length (t_rows t)) (combine (columns (t_ncols t)) bins) k (t_ncols t) T s []) = Raise e) ->
  fast_iamb fuel o test w t k sel = Raise e.
Proof.
  intros W NE Hw HT TG H. unfold fast_iamb. destruct (value_dict_ok t W) as (vd0 & -> & _). cbn [bind]. destruct (card_ok w t W NE Hw) as (t' & vd & bins & E & Eb & _). rewrite E. cbn [bind fst]. rewrite Eb. cbn [bind].
  specialize (H bins vd t' (sub o 0) eq_refl E Eb).
  assert (Gt : getitem (edgeless (t_ncols t)) T = Ok []). { unfold getitem, edgeless. unfold columns in HT. apply in_map_iff in HT as (i & <- & Hi). apply in_seq in Hi. rewrite (dget_vd (fun _ => []) (t_ncols t) i) by lia. reflexivity. }
  assert (Fold : forall rest, foldM (fun Mb iT => let T := snd iT in let o' := sub o (fst iT) in let s0 := ask (sub o' 0) (set_diff (columns (t_ncols t)) [T]) in do s <- fi_screen test T (length s0) s0 s0 ;; do m0 <- getitem Mb T ;; do m <- fi_loop fuel (sub o' 1) test (length (t_rows t)) (combine (columns (t_ncols t)) bins) k (t_ncols t) T s m0 ;; Ok (dset Mb T m)) ((0, T) :: rest) (edgeless (t_ncols t)) = Raise e).
  { intros rest. cbn [foldM fst snd]. cbn zeta. destruct (fi_screen test T _ _ _) as [s|e']; cbn [bind] in H |- *; [|congruence]. rewrite Gt. cbn [bind]. rewrite H. reflexivity. }
  destruct sel as [|v|l]; cbn in TG; [| |contradiction].
  - destruct TG as [L ->]. unfold fi_blankets. assert (Ec : exists rest, enum (columns (t_ncols t)) = (0, NInt 0) :: rest) by (destruct (t_ncols t) as [|m]; [lia|]; unfold enum, columns; rewrite map_length, seq_length; cbn; eexists; reflexivity). destruct Ec as (rest & ->). rewrite Fold. reflexivity.
  - subst v. unfold fi_blankets. change (enum [T]) with [(0, T)]. rewrite Fold. reflexivity.
Qed.
(** a list of targets is refused, whatever the data say: the test is never consulted *)
Theorem C108_list : forall fuel o test w t k l, table_ok t -> t_rows t <> [] -> width_ok w -> fast_iamb fuel o test w t k (SelList l) = Raise AssertionError.
Proof.
  intros fuel o test w t k l W NE Hw. unfold fast_iamb. destruct (value_dict_ok t W) as (vd0 & -> & _). cbn [bind].
  destruct (card_ok w t W NE Hw) as (t' & vd & bins & E & Eb & _). rewrite E. cbn [bind fst]. rewrite Eb. reflexivity.
Qed.
Print Assumptions C108_list.
(** if the test does not reject independence of some column and the (first) target, the set is changed while it is iterated *)
Theorem C108_runtime : forall fuel o test w t k sel T A p, good o -> answers test -> table_ok t -> t_rows t <> [] -> width_ok w -> In T (columns (t_ncols t)) -> target sel (t_ncols t) T ->
  In A (columns (t_ncols t)) -> A <> T -> test [A; T] = Ok p -> p_lt p alpha05 = false -> fast_iamb fuel o test w t k sel = Raise RuntimeErr.
Proof.
  intros fuel o test w t k sel T A p G An W NE Hw HT TG HA NA Ep P. apply (run_first fuel o test w t k sel T); try assumption. intros bins vd t' o' -> E Eb.
  set (s0 := ask (sub (sub o 0) 0) (set_diff (columns (t_ncols t)) [T])). assert (Ps : Permutation s0 (set_diff (columns (t_ncols t)) [T])) by apply G.
  assert (IA : In A s0) by (apply (Permutation_in _ (Permutation_sym Ps)); apply In_set_diff; cbn; intuition congruence).
  assert (ND : NoDup s0) by (apply (Permutation_NoDup (Permutation_sym Ps)); apply NoDup_set_diff).
  enough (Z : fi_screen test T (length s0) s0 s0 = Raise RuntimeErr) by (rewrite Z; reflexivity).
  assert (Small : forall l cur, length cur <> length s0 -> fi_screen test T (length s0) l cur = Raise RuntimeErr) by (intros l cur N; destruct l; cbn [fi_screen]; (destruct (Nat.eqb_spec (length cur) (length s0)); [contradiction|reflexivity])).
  assert (Gen : forall l, In A l -> incl l s0 -> fi_screen test T (length s0) l s0 = Raise RuntimeErr); [|apply Gen; [exact IA|intros x; auto]].
  induction l as [|B l IH]; intros Hl Il; [destruct Hl|]. cbn [fi_screen]. rewrite Nat.eqb_refl. cbn [negb]. unfold are_independent.
  assert (IB : In B s0) by (apply Il; now left). pose proof (length_remove1 B s0 IB) as LB.
  destruct (name_eq_dec B A) as [-> |NB].
  - rewrite Ep. cbn [bind]. rewrite P. apply Small. lia.
  - destruct (An [B; T]) as (q & Eq). rewrite Eq. cbn [bind]. destruct (p_lt q alpha05); [|apply Small; lia]. apply IH; [destruct Hl; [contradiction|assumption]|intros x Hx; apply Il; now right].
Qed.
Print Assumptions C108_runtime.
(** if the test rejects independence always, and the data has at least k rows for each value of each column, the call never ends *)
Theorem C108_diverges : forall fuel o test w t k sel T, good o -> table_ok t -> t_rows t <> [] -> width_ok w -> 2 <= t_ncols t -> In T (columns (t_ncols t)) -> target sel (t_ncols t) T ->
  (forall cols, NoDup cols -> incl cols (columns (t_ncols t)) -> 2 <= length cols -> exists p, test cols = Ok p /\ p_lt p alpha05 = true) ->
  (forall i, i < t_ncols t -> exists vs, (forall x, occurs t i x -> In x vs) /\ k * length vs <= length (t_rows t)) ->
  fast_iamb fuel o test w t (nQc k) sel = Raise OutOfFuel.
Proof.
  intros fuel o test w t k sel T G W NE Hw Hn HT TG Low En. apply (run_first fuel o test w t (nQc k) sel T); try assumption. intros bins vd t' o' -> E Eb.
  destruct (card_ok w t W NE Hw) as (t2 & vd2 & bins2 & E2 & Eb2 & _ & Card). rewrite E in E2. injection E2 as <- <-. rewrite Eb in Eb2. injection Eb2 as <-.
  set (s0 := ask (sub (sub o 0) 0) (set_diff (columns (t_ncols t)) [T])). assert (Ps : Permutation s0 (set_diff (columns (t_ncols t)) [T])) by apply G.
  assert (Is : forall x, In x s0 <-> In x (columns (t_ncols t)) /\ x <> T). { intros x. split; [intros K; apply (Permutation_in _ Ps) in K; apply In_set_diff in K; cbn in K; intuition congruence|intros K; apply (Permutation_in _ (Permutation_sym Ps)); apply In_set_diff; cbn; intuition congruence]. }
  rewrite (screen_low test (t_ncols t) T Low HT s0 s0); [|intros x Hx; now apply Is in Hx|intros K; apply Is in K; tauto]. cbn [bind].
  apply loop_low; try assumption.
  - intros p l. apply G.
  - intros v Hv. destruct (Card v Hv) as (c & i & _ & _ & D & P & _). eauto.
  - intros v c Hv D. destruct (Card v Hv) as (c' & i & -> & Hi & D' & P & Up). rewrite D in D'. injection D' as <-. destruct (En i Hi) as (vs & V1 & V2). specialize (Up vs V1). rewrite <- nQc_mult. apply nQc_le. nia.
  - intros Z. assert (Ex : exists x, In x (columns (t_ncols t)) /\ x <> T). { assert (I0 : In (NInt 0) (columns (t_ncols t)) /\ In (NInt 1) (columns (t_ncols t))) by (unfold columns; split; apply in_map, in_seq; lia). destruct (name_eq_dec (NInt 0) T) as [<-|N0]; [exists (NInt 1); split; [tauto|congruence]|exists (NInt 0); tauto]. }
    destruct Ex as (x & H1 & H2). assert (In x s0) by now apply Is. rewrite Z in *. contradiction.
  - rewrite app_nil_r. apply (Permutation_NoDup (Permutation_sym Ps)). apply NoDup_set_diff.
  - rewrite app_nil_r. intros x Hx. now apply Is in Hx.
  - rewrite app_nil_r. intros Hx. apply Is in Hx. tauto.
Qed.
Print Assumptions C108_diverges.
(** if the test rejects independence always and the data has too few rows for k, the blankets are found at once (they are empty) and the
    call fails after them: NameError for the whole network, TypeError for one target *)
Theorem C108_too_little_data : forall fuel o test w t k, good o -> table_ok t -> t_rows t <> [] -> width_ok w -> 0 < fuel ->
  (forall cols, NoDup cols -> incl cols (columns (t_ncols t)) -> 2 <= length cols -> exists p, test cols = Ok p /\ p_lt p alpha05 = true) ->
  (forall i, i < t_ncols t -> exists vs, (forall x, occurs t i x -> In x vs) /\ length (t_rows t) * length vs < k) ->
  fast_iamb fuel o test w t (nQc k) SelNone = Raise NameError /\
  (forall T, In T (columns (t_ncols t)) -> fast_iamb fuel o test w t (nQc k) (SelOne T) = Raise TypeError).
Proof.
  intros fuel o test w t k G W NE Hw Hf Low En. unfold fast_iamb. destruct (value_dict_ok t W) as (vd0 & -> & _). cbn [bind].
  destruct (card_ok w t W NE Hw) as (t' & vd & bins & E & Eb & _ & Card). rewrite E. cbn [bind fst]. rewrite Eb. cbn [bind].
  set (n := t_ncols t) in *. set (card := combine (columns n) bins) in *. set (N := length (t_rows t)) in *.
  assert (Few : forall T x, In T (columns n) -> In x (columns n) -> fi_enough N card (nQc k) T x [] = Ok false).
  { intros T x HT Hx. unfold fi_enough. destruct (Card x Hx) as (cx & ix & _ & _ & Dx & Px & _). destruct (Card T HT) as (ct & it & _ & Hit & Dt & Pt & Up).
    unfold getitem. rewrite Dx, Dt. cbn [bind]. destruct (Nat.eqb_spec cx 0) as [Z|_]; [lia|]. cbn [mapM bind fold_right]. apply f_equal. apply negb_false_iff.
    destruct (qltb_spec (nQc N / nQc cx * nQc ct * nQc 1%nat)%Qc (nQc k)) as [Q|Q]; [reflexivity|exfalso; apply Q; clear Q].
    destruct (En it Hit) as (vs & V1 & V2). specialize (Up vs V1). rewrite nQc_1, Qcmult_1_r.
    assert (Hc : (0 < nQc cx)%Qc) by (apply nQc_pos; lia). assert (Hc1 : (1 <= nQc cx)%Qc) by (rewrite <- nQc_1; apply nQc_le; lia).
    assert (E1 : (nQc N / nQc cx * nQc cx = nQc N)%Qc) by (field; intros Z; rewrite Z in Hc; discriminate).
    assert (Lt : (nQc N * nQc ct < nQc k)%Qc). { rewrite <- nQc_mult. apply Qcle_lt_trans with (nQc (N * length vs)); [apply nQc_le; nia|]. apply nQc_lt. lia. }
    apply Qcle_lt_trans with (nQc N * nQc ct)%Qc; [|exact Lt]. apply Qcmult_le_compat_r; [|apply nQc_nonneg].
    pose proof (nQc_nonneg N) as PN. revert E1 PN Hc Hc1. generalize (nQc N / nQc cx)%Qc. generalize (nQc cx) (nQc N). intros c m q E1 PN Hc Hc1.
    destruct (Qclt_le_dec m q) as [B|B]; [exfalso|exact B]. assert (X : (1 * q <= c * q)%Qc) by (apply Qcmult_le_compat_r; qclra). rewrite Qcmult_1_l, Qcmult_comm, E1 in X. qclra. }
  assert (One : forall o' T, good o' -> In T (columns n) ->
    (do s <- fi_screen test T (length (ask (sub o' 0) (set_diff (columns n) [T]))) (ask (sub o' 0) (set_diff (columns n) [T])) (ask (sub o' 0) (set_diff (columns n) [T])) ;;
     fi_loop fuel (sub o' 1) test N card (nQc k) n T s []) = Ok []).
  { intros o' T G' HT. set (s0 := ask (sub o' 0) (set_diff (columns n) [T])). assert (Ps : Permutation s0 (set_diff (columns n) [T])) by apply G'.
    assert (Is : forall x, In x s0 <-> In x (columns n) /\ x <> T). { intros x. split; [intros K; apply (Permutation_in _ Ps) in K; apply In_set_diff in K; cbn in K; intuition congruence|intros K; apply (Permutation_in _ (Permutation_sym Ps)); apply In_set_diff; cbn; intuition congruence]. }
    rewrite (screen_low test n T Low HT s0 s0); [|intros x Hx; now apply Is in Hx|intros K; apply Is in K; tauto]. cbn [bind].
    clearbody s0. clear Ps. destruct s0 as [|x0 s1]; [destruct fuel; reflexivity|]. destruct fuel as [|f]; [lia|]. cbn [fi_loop].
    assert (Ms : exists ps, mapM (fun s => test [s; T]) (x0 :: s1) = Ok ps).
    { assert (Z : forall l, (forall x, In x l -> In x (columns n) /\ x <> T) -> exists ps, mapM (fun s => test [s; T]) l = Ok ps); [|apply Z; intros x Hx; now apply Is].
      induction l as [|x l IH]; intros Hl; [eexists; reflexivity|]. destruct (Hl x (or_introl eq_refl)) as [H1 H2].
      destruct (Low [x; T]) as (p & Ep & _); [constructor; [intros [K|[]]; congruence|constructor; [intros []|constructor]]|intros y [<-|[<-|[]]]; assumption|cbn; lia|].
      destruct IH as (ps & Eps); [intros y Hy; apply Hl; now right|]. cbn [mapM]. rewrite Ep. cbn [bind]. rewrite Eps. eexists; reflexivity. }
    destruct Ms as (ps & ->). cbn [bind].
    assert (Pa : Permutation (ask (sub (sub (sub o' 1) f) 0) (x0 :: s1)) (x0 :: s1)) by apply (good_sub (sub o' 1) f (good_sub o' 1 G')).
    destruct (ask (sub (sub (sub o' 1) f) 0) (x0 :: s1)) as [|x l]; [apply Permutation_nil in Pa; discriminate|].
    cbn [fi_grow]. rewrite Few; [|exact HT|apply Is; apply (Permutation_in _ Pa); now left]. cbn [bind fst snd length fi_shrink nth_error andb negb]. reflexivity. }
  assert (All : forall l i0 Mb, (forall x, In x l -> In x (columns n)) -> (forall x, In x (columns n) -> getitem Mb x = Ok []) ->
    exists Mb', foldM (fun Mb iT => let T := snd iT in let o' := sub o (fst iT) in let s0 := ask (sub o' 0) (set_diff (columns n) [T]) in do s <- fi_screen test T (length s0) s0 s0 ;; do m0 <- getitem Mb T ;; do m <- fi_loop fuel (sub o' 1) test N card (nQc k) n T s m0 ;; Ok (dset Mb T m)) (combine (seq i0 (length l)) l) Mb = Ok Mb').
  { induction l as [|T l IH]; intros i0 Mb Hl Hm; [eexists; reflexivity|]. cbn [length seq combine foldM fst snd]. cbn zeta.
    assert (HT : In T (columns n)) by (apply Hl; now left). specialize (One (sub o i0) T (good_sub o i0 G) HT).
    destruct (fi_screen test T _ _ _) as [s|e]; cbn [bind] in One |- *; [|discriminate]. rewrite (Hm T HT). cbn [bind]. rewrite One. cbn [bind].
    apply IH; [intros x Hx; apply Hl; now right|]. intros x Hx. unfold getitem. rewrite dget_dset. destruct (name_eqb x T); [reflexivity|]. now apply Hm. }
  assert (G0 : forall x, In x (columns n) -> getitem (edgeless n) x = Ok []).
  { intros x Hx. unfold getitem, edgeless. unfold columns in Hx. apply in_map_iff in Hx as (i & <- & Hi). apply in_seq in Hi. rewrite (dget_vd (fun _ => []) n i) by lia. reflexivity. }
  split.
  - destruct (All (columns n) 0 (edgeless n)) as (Mb' & F); [auto|exact G0|].
    assert (F' : fi_blankets fuel o test N card (nQc k) n (columns n) = Ok Mb') by exact F. rewrite F'. reflexivity.
  - intros T HT. destruct (All [T] 0 (edgeless n)) as (Mb' & F); [intros x [<-|[]]; exact HT|exact G0|].
    assert (F' : fi_blankets fuel o test N card (nQc k) n [T] = Ok Mb') by exact F. rewrite F'. reflexivity.
Qed.
Print Assumptions C108_too_little_data.
Example C108_nonvacuous_little : (forall i, i < t_ncols exBits -> exists vs, (forall x, occurs exBits i x -> In x vs) /\ length (t_rows exBits) * length vs < 20) /\
  fast_iamb 5 rev_oracle (fun _ => Ok (Some 0%Qc)) None exBits (nQc 20) SelNone = Raise NameError.
Proof.
  split; [|vm_compute; reflexivity].
  intros i Hi. exists [NInt 0; NInt 1]. split; [|cbn; lia]. intros x (r & Hr). destruct (exBits_binary i Hi) as (j & E & _ & B). injection E as <-. destruct (B r x Hr) as [-> | ->]; cbn; tauto.
Qed.
(** lambda_iamb does not return either; if the entropy of the target's column is defined it raises TypeError *)
Theorem C108_lambda : forall ent t sel, (forall r, lambda_iamb ent t sel <> Ok r) /\
  (forall T h, target sel (t_ncols t) T -> In T (columns (t_ncols t)) -> ent [T] = Ok h -> lambda_iamb ent t sel = Raise TypeError).
Proof.
  intros ent t sel. split.
  - intros r. unfold lambda_iamb. destruct sel as [|v|l]; [destruct (columns (t_ncols t)) as [|T l]; [discriminate|]| |discriminate];
    (destruct (getitem (edgeless (t_ncols t)) _); [|discriminate]; cbn [bind]; destruct (ent _); discriminate).
  - intros T h TG HT E. assert (Gt : getitem (edgeless (t_ncols t)) T = Ok []). { unfold getitem, edgeless. unfold columns in HT. apply in_map_iff in HT as (i & <- & Hi). apply in_seq in Hi. rewrite (dget_vd (fun _ => []) (t_ncols t) i) by lia. reflexivity. }
    unfold lambda_iamb. destruct sel as [|v|l]; cbn in TG; [|subst v; rewrite Gt; cbn [bind]; now rewrite E|contradiction]. destruct TG as [L ->]. assert (C : exists l, columns (t_ncols t) = NInt 0 :: l) by (destruct (t_ncols t); [lia|]; eexists; reflexivity). destruct C as (l & ->). rewrite Gt. cbn [bind]. now rewrite E.
Qed.
Print Assumptions C108_lambda.
(** with a list of targets the argument is rejected; on data without columns resolve_markov_blanket, which is not imported, is reached *)
Theorem C108_lambda_errors : forall ent t, (forall l, lambda_iamb ent t (SelList l) = Raise AssertionError) /\
  (t_ncols t = 0 -> lambda_iamb ent t SelNone = Raise NameError) /\
  (forall v, ~ In v (columns (t_ncols t)) -> lambda_iamb ent t (SelOne v) = Raise KeyError).
Proof.
  intros ent t. split; [reflexivity|]. split; [intros E; unfold lambda_iamb; rewrite E; reflexivity|]. intros v Nv. unfold lambda_iamb.
  destruct (getitem (edgeless (t_ncols t)) v) as [m|e] eqn:E; unfold getitem in E.
  - exfalso. apply Nv. destruct (dget (edgeless (t_ncols t)) v) eqn:D; [|discriminate]. apply dget_Some_In in D. now rewrite edgeless_keys in D.
  - destruct (dget (edgeless (t_ncols t)) v); [discriminate|]. injection E as <-. reflexivity.
Qed.
Print Assumptions C108_lambda_errors.
Example C108_nonvacuous_diverges : good id_oracle /\ table_ok exBits /\ t_rows exBits <> [] /\ 2 <= t_ncols exBits /\ In (NInt 0) (columns (t_ncols exBits)) /\ target SelNone (t_ncols exBits) (NInt 0) /\
  (forall i, i < t_ncols exBits -> exists vs, (forall x, occurs exBits i x -> In x vs) /\ 2 * length vs <= length (t_rows exBits)) /\
  fast_iamb 5 id_oracle (fun _ => Ok (Some 0%Qc)) None exBits (nQc 2) SelNone = Raise OutOfFuel.
Proof.
  split; [apply good_id|]. split; [apply exBits_ok|]. split; [discriminate|]. split; [cbn; lia|]. split; [now left|]. split; [split; [cbn; lia|reflexivity]|]. split; [|vm_compute; reflexivity].
  intros i Hi. exists [NInt 0; NInt 1]. split; [|cbn; lia]. intros x (r & Hr). destruct (exBits_binary i Hi) as (j & E & _ & B). injection E as <-. destruct (B r x Hr) as [-> | ->]; cbn; tauto.
Qed.
Example C108_nonvacuous_runtime : answers (fun _ => Ok (Some (Q2Qc (1 # 2)))) /\ p_lt (Some (Q2Qc (1 # 2))) alpha05 = false /\ fast_iamb 5 rev_oracle (fun _ => Ok (Some (Q2Qc (1 # 2)))) None exBits (nQc 2) (SelOne (NInt 1)) = Raise RuntimeErr.
Proof. split; [intros cols; eauto|]. split; vm_compute; reflexivity. Qed.
