(** RealScore.v -- facts about the scores of InfoReal.v. *)
From Verif Require Import Py Num SpecFactor SpecInference SpecGraph BayesNet Graph Radix SumOver GraphFacts GraphNet SpecReal MiReal RealFacts StructScore InfoReal.
From Coq Require Import Reals Lra Lia Qreals.
Open Scope R_scope.

Lemma qr_plus p q : qr (p + q)%Qc = qr p + qr q.
Proof. unfold qr. change (this (p + q)%Qc) with (Qred (this p + this q)%Q). rewrite (Qreals.Qeq_eqR _ _ (Qred_correct _)). apply Q2R_plus. Qed.
Lemma qr_nQc n : qr (nQc n) = INR n.
Proof. unfold nQc. rewrite qr_Q2Qc. unfold Q2R. cbn. rewrite <- INR_IZR_INZ. lra. Qed.
Lemma qr_0 : qr 0%Qc = 0.
Proof. rewrite <- nQc_0, qr_nQc. reflexivity. Qed.
Lemma qr_1 : qr 1%Qc = 1.
Proof. rewrite <- nQc_1, qr_nQc. reflexivity. Qed.
Lemma qr_qsum l : qr (qsum l) = fold_right Rplus 0 (map qr l).
Proof. induction l as [|x l IH]; [exact qr_0|]. cbn [qsum fold_right map]. rewrite qr_plus. f_equal. exact IH. Qed.

Lemma map_nth_seq {A} (d : A) l : map (fun i => nth i l d) (seq 0 (length l)) = l.
Proof.
  induction l as [|x l IH]; [reflexivity|]. cbn [length seq map]. f_equal. rewrite <- seq_shift, map_map. cbn [nth]. exact IH.
Qed.
Lemma qsum_one {A} (f : A -> Qc) l : (forall x, In x l -> f x = 1%Qc) -> qsum (map f l) = nQc (length l).
Proof.
  induction l as [|x l IH]; intros H; [symmetry; exact nQc_0|]. cbn [map length]. rewrite nQc_S. rewrite <- IH by (intros; apply H; now right).
  rewrite <- (H x) by (now left). reflexivity.
Qed.
Lemma ncard_pos bn v : wfnet bn -> In v (bn_V bn) -> (0 < ncard bn v)%nat.
Proof.
  intros W Hv. destruct (wn_vals _ W v Hv) as [_ N]. unfold ncard, nvalues in *. destruct (dget (bn_F bn) v); [|congruence].
  destruct (f_values f); [congruence|simpl; lia].
Qed.
(** the entries of a table add up to the number of parent configurations *)
Lemma cpt_total bn v : wfnet bn -> normalised bn -> In v (bn_V bn) -> qsum (ncpt bn v) = nQc (size (ncard bn) (nparents bn v)).
Proof.
  intros W Nm Hv. rewrite <- (map_nth_seq 0%Qc (ncpt bn v)) at 1. rewrite (wn_cpt _ W v Hv). cbn [map]. change (nprod (ncard bn v :: map (ncard bn) (nparents bn v))) with (ncard bn v * size (ncard bn) (nparents bn v))%nat.
  rewrite qsum_regroup, qsum_swap. rewrite qsum_one; [now rewrite seq_length|].
  intros j Hj. apply in_seq in Hj. pose proof (wn_scope _ W v Hv) as NDs. inversion NDs as [|? ? Nv NDp]; subst.
  destruct (digits_ok (ncard bn) (nparents bn v) j NDp ltac:(lia)) as [Vd Rd]. set (a := fun w => if mem w (nparents bn v) then digits (ncard bn) (nparents bn v) j w else 0%nat).
  assert (Va : valid (ncard bn) (bn_V bn) a).
  { intros w Hw. unfold a. destruct (mem w (nparents bn v)) eqn:E; [apply Vd; now apply mem_In|now apply ncard_pos]. }
  rewrite <- (Nm v a Hv Va). apply qsum_map_ext. intros x Hx. apply in_seq in Hx. unfold cond_prob. cbn [radix]. rewrite upd_same.
  assert (E : radix (ncard bn) (nparents bn v) (upd a v x) = j).
  { transitivity (radix (ncard bn) (nparents bn v) (digits (ncard bn) (nparents bn v) j)); [|exact Rd]. apply radix_ext. intros w Hw. rewrite upd_other by (intros ->; contradiction). unfold a. apply mem_In in Hw. now rewrite Hw. }
  rewrite E. set (i := (x + ncard bn v * j)%nat). assert (L : (i < length (ncpt bn v))%nat).
  { rewrite (wn_cpt _ W v Hv). cbn [map]. change (nprod (ncard bn v :: map (ncard bn) (nparents bn v))) with (ncard bn v * size (ncard bn) (nparents bn v))%nat. unfold i. nia. }
  destruct (nth_error (ncpt bn v) i) eqn:En; [|apply nth_error_None in En; lia]. cbn [getq]. now apply nth_error_nth.
Qed.

Lemma rfold_app l m : fold_right Rplus 0 (l ++ m) = fold_right Rplus 0 l + fold_right Rplus 0 m.
Proof. induction l as [|x l IH]; cbn [app fold_right]; lra. Qed.
Lemma rfold_concat {A} (g : A -> list R) l : fold_right Rplus 0 (concat (map g l)) = fold_right Rplus 0 (map (fun v => fold_right Rplus 0 (g v)) l).
Proof. induction l as [|x l IH]; [reflexivity|]. cbn [map concat fold_right]. rewrite rfold_app. lra. Qed.
Lemma rfold_le {A} (f g : A -> R) l : (forall x, In x l -> f x <= g x) -> fold_right Rplus 0 (map f l) <= fold_right Rplus 0 (map g l).
Proof. induction l as [|x l IH]; intros H; cbn [map fold_right]; [lra|]. specialize (IH (fun y Hy => H y (or_intror Hy))). specialize (H x (or_introl eq_refl)). lra. Qed.
Lemma rfold_eq {A} (f g : A -> R) l : (forall x, In x l -> f x <= g x) -> fold_right Rplus 0 (map f l) = fold_right Rplus 0 (map g l) -> forall x, In x l -> f x = g x.
Proof.
  induction l as [|x l IH]; intros H E y Hy; [destruct Hy|]. cbn [map fold_right] in E.
  pose proof (rfold_le f g l (fun y Hy => H y (or_intror Hy))). pose proof (H x (or_introl eq_refl)).
  destruct Hy as [->|Hy]; [lra|]. apply IH; [intros; apply H; now right|lra|exact Hy].
Qed.
Lemma rfold_plus {A} (f g : A -> R) l : fold_right Rplus 0 (map (fun x => f x + g x) l) = fold_right Rplus 0 (map f l) + fold_right Rplus 0 (map g l).
Proof. induction l as [|x l IH]; cbn [map fold_right]; lra. Qed.
Lemma rfold_const {A} c (l : list A) : fold_right Rplus 0 (map (fun _ => c) l) = INR (length l) * c.
Proof. induction l as [|x l IH]; [cbn; lra|]. cbn [map fold_right length]. rewrite S_INR. lra. Qed.
Lemma rfold_scal {A} c (f : A -> R) l : fold_right Rplus 0 (map (fun x => c * f x) l) = c * fold_right Rplus 0 (map f l).
Proof. induction l as [|x l IH]; cbn [map fold_right]; lra. Qed.
Lemma rfold_ext {A} (f g : A -> R) l : (forall x, In x l -> f x = g x) -> fold_right Rplus 0 (map f l) = fold_right Rplus 0 (map g l).
Proof. intros H. f_equal. now apply map_ext_in. Qed.

Lemma ln_tangent x c : 0 < x -> 0 < c -> ln x <= ln c + (x - c) / c /\ (ln x = ln c + (x - c) / c -> x = c).
Proof.
  intros Hx Hc. assert (D : 0 < x / c) by (apply div_pos; assumption). assert (E : (x - c) / c = x / c - 1) by (field; lra). rewrite E.
  assert (L : ln (x / c) = ln x - ln c) by (apply ln_div; assumption). split.
  - pose proof (ln_le_sub _ D). lra.
  - intros Q. destruct (Req_dec (x / c) 1) as [U|U].
    + apply (f_equal (fun r => r * c)) in U. unfold Rdiv in U. rewrite Rmult_assoc, Rinv_l in U by lra. lra.
    + pose proof (ln_lt_sub _ D U). lra.
Qed.
(** a list of k non-negative numbers with total k * u: the sum of ln (n (x + e)) is largest when all are u *)
Lemma ln_list_max n e u l : 0 < n -> 0 < e -> 0 <= u -> (forall x, In x l -> 0 <= x) -> fold_right Rplus 0 l = INR (length l) * u ->
  let s := fold_right Rplus 0 (map (fun x => ln (n * (x + e))) l) in
  s <= INR (length l) * ln (n * (u + e)) /\ (s = INR (length l) * ln (n * (u + e)) <-> forall x, In x l -> x = u).
Proof.
  intros Hn He Hu Nn T. cbn zeta. set (c := n * (u + e)). assert (Hc : 0 < c) by (unfold c; nra).
  set (g := fun x => ln c + (n * (x + e) - c) / c).
  assert (P : forall x, In x l -> ln (n * (x + e)) <= g x). { intros x Hx. specialize (Nn x Hx). apply ln_tangent; [nra|exact Hc]. }
  assert (G : fold_right Rplus 0 (map g l) = INR (length l) * ln c).
  { unfold g. rewrite rfold_plus, rfold_const. rewrite (rfold_ext _ (fun x => n / c * x + (- (n * u / c))) l). 2:{ intros x _. unfold c. field. split; [|lra]. nra. }
    rewrite rfold_plus, rfold_scal, rfold_const, map_id, T. field. lra. }
  rewrite <- G. split; [now apply rfold_le|]. split.
  - intros E x Hx. specialize (Nn x Hx). pose proof (rfold_eq _ _ l P E x Hx) as Q. unfold g in Q. apply ln_tangent in Q; [|nra|exact Hc]. unfold c in Q. apply Rmult_eq_reg_l in Q; lra.
  - intros H. apply rfold_ext. intros x Hx. rewrite (H x Hx). unfold g. fold c. unfold Rminus. rewrite Rplus_opp_r. unfold Rdiv. lra.
Qed.

Lemma num_params_ok bn : wfnet bn -> bn_num_params bn = Ok (length (concat (map (ncpt bn) (bn_V bn)))).
Proof.
  intros W. unfold bn_num_params. rewrite (foldM_count _ (fun v => length (ncpt bn v))); [|intros n v Hv; now rewrite (bn_cpt_ok bn v W Hv)].
  f_equal. cbn. induction (bn_V bn) as [|v l IH]; [reflexivity|]. cbn [map concat]. rewrite app_length. cbn [nsum fold_right] in *. now rewrite <- IH.
Qed.
Lemma flat_ok bn : wfnet bn -> flat_cpt bn = Ok (concat (map (ncpt bn) (bn_V bn))).
Proof. intros W. unfold flat_cpt. rewrite (mapM_ok _ (ncpt bn)); [reflexivity|]. intros v Hv. now apply bn_cpt_ok. Qed.

(** the score as a function of the number of rows: K ln n + C *)
Lemma ll_affine n l : 0 < n -> (forall q, In q l -> (0 <= q)%Qc) ->
  fold_right Rplus 0 (map (fun q => ln (n * (qr q + eps))) l) = INR (length l) * ln n + fold_right Rplus 0 (map (fun q => ln (qr q + eps)) l).
Proof.
  intros Hn P. rewrite <- rfold_const with (l := l), <- rfold_plus. apply rfold_ext. intros q Hq. specialize (P q Hq). apply qr_le in P. rewrite qr_0 in P.
  pose proof eps_pos. apply ln_mult; lra.
Qed.
(** K < K': for n large enough K ln n + C < K' ln n + C' *)
Lemma affine_wins (K K' : nat) C C' : (K < K')%nat -> exists N0, forall n, (N0 <= n)%nat -> INR K * ln (INR n) + C < INR K' * ln (INR n) + C'.
Proof.
  intros H. destruct (archimed (exp (Rmax 0 (C - C') + 1))) as [HN _]. set (z := up (exp (Rmax 0 (C - C') + 1))) in *. assert (Hz : (0 <= z)%Z) by (apply le_IZR; pose proof (exp_pos (Rmax 0 (C - C') + 1)); lra). rewrite <- (Z2Nat.id z Hz), <- INR_IZR_INZ in HN. exists (Z.to_nat z). intros n Hn. apply le_INR in Hn.
  assert (L : Rmax 0 (C - C') + 1 <= ln (INR n)). { rewrite <- (ln_exp (Rmax 0 (C - C') + 1)). apply ln_le; [apply exp_pos|lra]. }
  assert (D : INR K + 1 <= INR K'). { rewrite <- S_INR. apply le_INR. lia. }
  pose proof (Rmax_l 0 (C - C')). pose proof (Rmax_r 0 (C - C')). assert (0 <= ln (INR n)) by lra. nra.
Qed.
