(** Properties_Real2.v -- theorems C102, C103: information scores and parameter distances, over the reals.
    Specification: SpecFactor.v, SpecGraph.v, SpecInference.v, SpecReal.v and the definitions below. *)
From Coq Require Import Reals String.
From Verif Require Import Py Num SpecFactor SpecInference SpecGraph BayesNet Graph GraphFacts GraphNet Examples GraphCheck SpecReal MiReal RealFacts StructScore InfoReal RealScore ParamReal Properties_Graph Properties_Inference.
From Coq Require Import Lra Lia.
Open Scope R_scope.

(** all table entries of the network, in the order of nodes() *)
Definition entries (bn : bayesnet) : list Qc := concat (map (ncpt bn) (bn_V bn)).
Definition total (l : list R) : R := fold_right Rplus 0 l.
(** ** C102 *)
(** the three scores: f(N) multiplies the number of entries; the f(N) of BIC is the logarithm of the number of edges,
    so it does not depend on the number of rows *)
Theorem C102_scores : forall bn n, wfnet bn -> graph_ok bn -> exists ll m,
  log_likelihood bn n = Ok ll /\ ll = total (map (fun q => ln (INR n * (qr q + / 10 ^ 7))) (entries bn)) /\ bn_num_edges bn = Ok m /\
  BIC bn n = Ok (ll - INR (length (entries bn)) * (ln (INR (Nat.max m 1)) / 2)) /\ MDL bn n = BIC bn n /\
  AIC bn n = Ok (ll - INR (length (entries bn)) * 1) /\ ((m <= 1)%nat -> BIC bn n = Ok ll).
Proof.
  intros bn n W G. assert (Ee : / 10 ^ 7 = eps) by (unfold eps; f_equal; lra). rewrite Ee. eexists _, _. unfold MDL, BIC, AIC, log_likelihood. rewrite (flat_ok bn W), (num_params_ok bn W), (bn_num_edges_ok bn G). cbn [bind]. fold (entries bn).
  split; [reflexivity|]. split; [reflexivity|]. split; [reflexivity|]. split; [apply f_equal; lra|]. split; [reflexivity|]. split; [apply f_equal; lra|].
  intros L. rewrite (Nat.max_r _ 1 L). cbn [INR]. rewrite ln_1. apply f_equal. lra.
Qed.
Print Assumptions C102_scores.
(** letter case is ignored, and every other name means BIC *)
Definition same_letter (a b : Ascii.ascii) : Prop :=
  a = b \/ exists k, (65 <= k <= 90)%nat /\ b = Ascii.ascii_of_nat k /\ a = Ascii.ascii_of_nat (k + 32).
Fixpoint same_word (s t : string) : Prop :=
  match s, t with
  | EmptyString, EmptyString => True
  | String a r, String b q => same_letter a b /\ same_word r q
  | _, _ => False
  end.
Lemma upper_cons a r : upper (String a r) = String (let n := Ascii.nat_of_ascii a in if ((97 <=? n) && (n <=? 122))%bool%nat then Ascii.ascii_of_nat (n - 32) else a) (upper r).
Proof. reflexivity. Qed.
Lemma upper_letter a b : (65 <= Ascii.nat_of_ascii b <= 90)%nat -> (let n := Ascii.nat_of_ascii a in if ((97 <=? n) && (n <=? 122))%bool%nat then Ascii.ascii_of_nat (n - 32) else a) = b <-> same_letter a b.
Proof.
  intros B. cbn zeta. unfold same_letter. destruct (Nat.leb_spec 97 (Ascii.nat_of_ascii a)) as [L|L]; [destruct (Nat.leb_spec (Ascii.nat_of_ascii a) 122) as [U|U]|]; cbn [andb].
  - split.
    + intros <-. right. exists (Ascii.nat_of_ascii a - 32)%nat. split; [lia|]. split; [reflexivity|]. replace (Ascii.nat_of_ascii a - 32 + 32)%nat with (Ascii.nat_of_ascii a) by lia. now rewrite Ascii.ascii_nat_embedding.
    + intros [->|(k & Hk & -> & Ea)]; [lia|]. rewrite Ea, Ascii.nat_ascii_embedding by lia. f_equal. lia.
  - split; [intros ->; lia|]. intros [->|(k & Hk & -> & Ea)]; [reflexivity|]. rewrite Ea, Ascii.nat_ascii_embedding in U by lia. lia.
  - split; [now left|]. intros [->|(k & Hk & -> & Ea)]; [reflexivity|]. rewrite Ea, Ascii.nat_ascii_embedding in L by lia. lia.
Qed.
Fixpoint capitals (t : string) : Prop := match t with EmptyString => True | String b q => (65 <= Ascii.nat_of_ascii b <= 90)%nat /\ capitals q end.
Lemma upper_word t : capitals t -> forall s, upper s = t <-> same_word s t.
Proof.
  induction t as [|b q IH]; intros C [|a r]; cbn [same_word]; try (split; [discriminate|intros []]); [split; auto|].
  destruct C as [Cb Cq]. rewrite upper_cons. rewrite <- (IH Cq r). rewrite <- (upper_letter a b Cb). split; [intros E; injection E; auto|intros [-> ->]; reflexivity].
Qed.
Theorem C102_metric : forall bn n m,
  (same_word m "LL" -> info_score bn n m = log_likelihood bn n) /\ (same_word m "AIC" -> info_score bn n m = AIC bn n) /\
  (~ same_word m "LL" -> ~ same_word m "AIC" -> info_score bn n m = BIC bn n).
Proof.
  intros bn n m. unfold info_score. assert (E : forall t, capitals t -> String.eqb (upper m) t = true <-> same_word m t).
  { intros t C. rewrite String.eqb_eq. now apply upper_word. }
  assert (C1 : capitals "LL") by (cbn; lia). assert (C2 : capitals "AIC") by (cbn; lia). split; [|split].
  - intros H. apply E in H; [|exact C1]. now rewrite H.
  - intros H. apply (upper_word _ C2) in H. rewrite H. reflexivity.
  - intros A B. rewrite <- E in A, B by assumption. apply Bool.not_true_is_false in A, B. rewrite A, B. now destruct (String.eqb (upper m) "BIC").
Qed.
Print Assumptions C102_metric.
(** among all parameters of a structure the uniform ones, which ignore the data, have the largest score *)
Theorem C102_uniform_is_best : forall bn n, wfnet bn -> nonneg_net bn -> normalised bn -> (1 <= n)%nat -> exists ll,
  log_likelihood bn n = Ok ll /\
  ll <= total (map (fun v => INR (length (ncpt bn v)) * ln (INR n * (/ INR (ncard bn v) + / 10 ^ 7))) (bn_V bn)) /\
  (ll = total (map (fun v => INR (length (ncpt bn v)) * ln (INR n * (/ INR (ncard bn v) + / 10 ^ 7))) (bn_V bn)) <->
   forall v q, In v (bn_V bn) -> In q (ncpt bn v) -> qr q = / INR (ncard bn v)).
Proof.
  intros bn n W NN Nm Hn. assert (Ee : / 10 ^ 7 = eps) by (unfold eps; f_equal; lra). rewrite Ee. apply le_INR in Hn. cbn [INR] in Hn.
  unfold log_likelihood. rewrite (flat_ok bn W). cbn [bind]. eexists. split; [reflexivity|]. rewrite concat_map, map_map, rfold_concat. unfold total.
  assert (P : forall v, In v (bn_V bn) -> let s := fold_right Rplus 0 (map (fun q => ln (INR n * (qr q + eps))) (ncpt bn v)) in
    s <= INR (length (ncpt bn v)) * ln (INR n * (/ INR (ncard bn v) + eps)) /\
    (s = INR (length (ncpt bn v)) * ln (INR n * (/ INR (ncard bn v) + eps)) <-> forall q, In q (ncpt bn v) -> qr q = / INR (ncard bn v))).
  { intros v Hv. pose proof (ncard_pos bn v W Hv) as Pc. apply lt_INR in Pc. cbn [INR] in Pc. cbn zeta.
    destruct (ln_list_max (INR n) eps (/ INR (ncard bn v)) (map qr (ncpt bn v))) as [A B]; [lra|exact eps_pos|apply Rlt_le, Rinv_0_lt_compat; exact Pc|..].
    - intros x Hx. apply in_map_iff in Hx as (q & <- & Hq). specialize (NN v q Hv Hq). apply qr_le in NN. now rewrite qr_0 in NN.
    - rewrite <- qr_qsum, (cpt_total bn v W Nm Hv), qr_nQc, map_length, (wn_cpt _ W v Hv). cbn [map]. change (nprod (ncard bn v :: map (ncard bn) (nparents bn v))) with (ncard bn v * Radix.size (ncard bn) (nparents bn v))%nat.
      rewrite mult_INR. field. lra.
    - rewrite map_length, map_map in A, B. split; [exact A|]. rewrite B. split.
      + intros H q Hq. apply H. now apply in_map.
      + intros H x Hx. apply in_map_iff in Hx as (q & <- & Hq). now apply H. }
  split; [apply rfold_le; intros v Hv; apply (P v Hv)|]. split.
  - intros E v q Hv Hq. apply (P v Hv); [|exact Hq]. revert v Hv Hq E. intros v Hv _ E. exact (rfold_eq _ _ _ (fun w Hw => proj1 (P w Hw)) E v Hv).
  - intros H. apply rfold_ext. intros v Hv. apply (P v Hv). intros q Hq. now apply H.
Qed.
Print Assumptions C102_uniform_is_best.
(** with enough rows the network with more table entries has the better score, under every metric: none of the
    penalties grows with the number of rows *)
Theorem C102_larger_wins : forall b b', wfnet b -> wfnet b' -> graph_ok b -> graph_ok b' -> nonneg_net b -> nonneg_net b' ->
  (length (entries b) < length (entries b'))%nat ->
  forall metric, exists n0, forall n, (n0 <= n)%nat -> exists s s', info_score b n metric = Ok s /\ info_score b' n metric = Ok s' /\ s < s'.
Proof.
  intros b b' W W' G G' NN NN' L metric.
  assert (T : forall bn, wfnet bn -> graph_ok bn -> nonneg_net bn -> exists c, forall n, (1 <= n)%nat -> info_score bn n metric = Ok (INR (length (entries bn)) * ln (INR n) + c)).
  { intros bn Wb Gb Nb. assert (LL : forall n, (1 <= n)%nat -> log_likelihood bn n = Ok (INR (length (entries bn)) * ln (INR n) + fold_right Rplus 0 (map (fun q => ln (qr q + eps)) (entries bn)))).
    { intros n Hn. apply le_INR in Hn. cbn [INR] in Hn. unfold log_likelihood. rewrite (flat_ok bn Wb). cbn [bind]. f_equal. fold (entries bn). rewrite ll_affine; [reflexivity|lra|].
      intros q Hq. unfold entries in Hq. apply in_concat in Hq as (l & Hl & Hq). apply in_map_iff in Hl as (v & <- & Hv). now apply (Nb v q). }
    assert (B : exists c, forall n, (1 <= n)%nat -> BIC bn n = Ok (INR (length (entries bn)) * ln (INR n) + c)).
    { eexists. intros n Hn. unfold BIC. rewrite LL by exact Hn. rewrite (num_params_ok bn Wb), (bn_num_edges_ok bn Gb). cbn [bind]. unfold Rminus. rewrite Rplus_assoc. reflexivity. }
    assert (A : exists c, forall n, (1 <= n)%nat -> AIC bn n = Ok (INR (length (entries bn)) * ln (INR n) + c)).
    { eexists. intros n Hn. unfold AIC. rewrite LL by exact Hn. rewrite (flat_ok bn Wb). cbn [bind]. unfold Rminus. rewrite Rplus_assoc. reflexivity. }
    unfold info_score. destruct (String.eqb _ _); [eexists; exact LL|]. destruct (String.eqb _ _); [exact B|]. destruct (String.eqb _ _); [exact A|exact B]. }
  destruct (T b W G NN) as [c Hc]. destruct (T b' W' G' NN') as [c' Hc']. destruct (affine_wins _ _ c c' L) as [n0 H]. exists (S n0). intros n Hn.
  eexists _, _. split; [apply Hc; lia|]. split; [apply Hc'; lia|]. apply H. lia.
Qed.
Print Assumptions C102_larger_wins.
(** the same three variables without edges *)
Definition exLoose : bayesnet :=
  mkBN [exA; exB; exC] [(exA, []); (exB, []); (exC, [])]
    [(exA, mkF [] [nm "0"; nm "1"] [qq 2 5; qq 3 5]); (exB, mkF [] [nm "0"; nm "1"; nm "2"] [qq 1 5; qq 1 5; qq 3 5]); (exC, mkF [] [nm "0"; nm "1"] [qq 1 2; qq 1 2])].
Example C102_nonvacuous : wfnet ex3 /\ graph_ok ex3 /\ nonneg_net ex3 /\ normalised ex3 /\ wfnet exLoose /\ graph_ok exLoose /\ nonneg_net exLoose /\
  (length (entries exLoose) < length (entries ex3))%nat /\ same_word "aIc" "AIC" /\ ~ same_word "abc" "LL".
Proof.
  split; [exact ex3_wf|]. split; [apply ex3_graph|]. split; [apply C15_nonvacuous|]. split; [apply C15_nonvacuous|]. split; [now apply wfnetb_ok|]. split; [now apply graph_okb_ok|].
  split. { intros v x Hv Hx. cbn in Hv. destruct Hv as [<-|[<-|[<-|[]]]]; cbn in Hx; repeat (destruct Hx as [<-|Hx]; [vm_compute; discriminate|]); destruct Hx. }
  split; [vm_compute; lia|]. split; [|cbn; tauto]. cbn [same_word]. split; [right; exists 65%nat; split; [lia|split; reflexivity]|]. split; [now left|]. split; [right; exists 67%nat; split; [lia|split; reflexivity]|exact Logic.I].
Qed.

(** ** C103 *)
(** as the module stands, no distance is ever computed *)
Theorem C103_never : forall x y p alpha,
  euclidean AsIs x y = Raise NameError /\ manhattan AsIs x y = Raise NameError /\ minkowski AsIs x y p = Raise NameError /\
  kl_divergence AsIs x y = Raise NameError /\ js_divergence AsIs x y = Raise NameError /\ hellinger AsIs x y = Raise NameError /\
  hybrid_distance x y alpha = Raise NameError.
Proof. intros. split; [reflexivity|]. split; [reflexivity|]. split; [reflexivity|]. split; [reflexivity|]. split; [reflexivity|]. split; reflexivity. Qed.
Print Assumptions C103_never.
(** with the missing import it still is not, for networks with a node: comparing them raises TypeError, or they are found different *)
Theorem C103_import_is_not_enough : forall x y p, graph_ok x -> graph_ok y -> bn_V x <> [] -> exists e, (e = TypeError \/ e = AssertionError) /\
  euclidean Imported x y = Raise e /\ manhattan Imported x y = Raise e /\ minkowski Imported x y p = Raise e /\
  kl_divergence Imported x y = Raise e /\ js_divergence Imported x y = Raise e /\ hellinger Imported x y = Raise e.
Proof.
  intros x y p Gx Gy NE. assert (A : exists e, (e = TypeError \/ e = AssertionError) /\ asserts Imported x y = Raise e).
  { cbn [asserts]. destruct (same_set (bn_V x) (bn_V y)) eqn:S.
    - exists TypeError. split; [now left|]. rewrite C30_same_nodes_refuted; auto. unfold same_set in S. apply andb_prop in S as [S1 S2]. rewrite forallb_forall in S1, S2.
      intros v. split; intros Hv; [apply S1 in Hv|apply S2 in Hv]; now apply mem_In in Hv.
    - exists AssertionError. split; [now right|]. unfold are_class_equivalent. now rewrite S. }
  destruct A as (e & He & A). exists e. split; [exact He|]. unfold euclidean, manhattan, minkowski, kl_divergence, js_divergence, hellinger. rewrite A. cbn [bind].
  split; [reflexivity|]. split; [reflexivity|]. split; [reflexivity|]. split; [reflexivity|]. split; reflexivity.
Qed.
Print Assumptions C103_import_is_not_enough.

(** the difference of the i-th table entries *)
Definition gap (x y : bayesnet) (i : nat) : R := qr (nth i (entries x) 0%Qc) - qr (nth i (entries y) 0%Qc).
Lemma zip_sum {A B} (f : A -> B -> R) da db a b : length a = length b -> exists d, np_zip f a b = Ok d /\ length d = length a /\
  forall g, np_sum (map g d) = rsum (length a) (fun i => g (f (nth i a da) (nth i b db))).
Proof.
  intros L. unfold np_zip. rewrite (proj2 (Nat.eqb_eq _ _) L). eexists. split; [reflexivity|]. split; [rewrite map_length, combine_length; lia|]. intros g.
  unfold np_sum, rsum. f_equal. rewrite map_map. rewrite <- (map_nth_seq (da, db) (combine a b)) at 1. rewrite map_map, combine_length, <- L, Nat.min_id.
  apply map_ext. intros i. rewrite combine_nth by exact L. reflexivity.
Qed.
Lemma diff_ok x y : wfnet x -> wfnet y -> length (entries x) = length (entries y) -> exists d, cpt_diff x y = Ok d /\
  forall g, np_sum (map g d) = rsum (length (entries x)) (fun i => g (gap x y i)).
Proof.
  intros Wx Wy L. unfold cpt_diff. rewrite (flat_ok x Wx), (flat_ok y Wy). cbn [bind]. fold (entries x) (entries y).
  destruct (zip_sum (fun p q => qr p - qr q) 0%Qc 0%Qc _ _ L) as (d & -> & _ & H). exists d. split; [reflexivity|exact H].
Qed.
(** without assertions: "euclidean" is the Manhattan distance *)
Theorem C103_distances : forall x y, wfnet x -> wfnet y -> length (entries x) = length (entries y) ->
  let l1 := rsum (length (entries x)) (fun i => Rabs (gap x y i)) in
  let l2 := rsum (length (entries x)) (fun i => gap x y i ^ 2) in
  manhattan NoAsserts x y = Ok l1 /\ euclidean NoAsserts x y = Ok l1 /\
  (forall p, 0 < p -> exists d, minkowski NoAsserts x y p = Ok d /\ (l2 = 0 -> d = 0) /\ (0 < l2 -> d = Rpower l2 (1 / p))) /\
  minkowski NoAsserts x y 1 = Ok l2 /\ minkowski NoAsserts x y 2 = Ok (sqrt l2).
Proof.
  intros x y Wx Wy L. cbn zeta. destruct (diff_ok x y Wx Wy L) as (d & E & H).
  assert (P : 0 <= rsum (length (entries x)) (fun i => gap x y i ^ 2)) by (apply rsum_nonneg; intros i _; apply pow2_ge_0).
  unfold manhattan, euclidean, minkowski. cbn [asserts bind]. rewrite E. cbn [bind]. split; [now rewrite H|]. split.
  { f_equal. rewrite H. apply rsum_ext. intros i _. rewrite <- Rsqr_pow2. apply sqrt_Rsqr_abs. }
  rewrite H. set (s := rsum _ _) in *. split; [|split].
  - intros p Hp. eexists. split; [reflexivity|]. unfold py_pow. destruct (Req_EM_T s 0); split; intros; try lra; reflexivity.
  - f_equal. unfold py_pow. destruct (Req_EM_T s 0); [lra|]. replace (1 / 1) with 1 by lra. apply Rpower_1. lra.
  - f_equal. unfold py_pow. destruct (Req_EM_T s 0) as [Z|Z]; [rewrite Z, sqrt_0; reflexivity|]. replace (1 / 2) with (/ 2) by lra. apply Rpower_sqrt. lra.
Qed.
Print Assumptions C103_distances.
Lemma rsum_sq n f : (forall i, 0 <= f i) -> rsum n f ^ 2 = rsum n (fun i => f i ^ 2) -> forall i j, (i < j < n)%nat -> f i * f j = 0.
Proof.
  intros P. assert (B : forall n, rsum n (fun i => f i ^ 2) <= rsum n f ^ 2).
  { induction n0 as [|m IH]; [rewrite !rsum_0; lra|]. rewrite !rsum_S. pose proof (rsum_nonneg m f (fun i _ => P i)). pose proof (P m). nra. }
  induction n as [|n IH]; [intros; lia|]. rewrite !rsum_S. intros E i j H. specialize (B n). pose proof (rsum_nonneg n f (fun i _ => P i)) as N. pose proof (P n) as Pn.
  assert (M : rsum n f * f n = 0) by nra. destruct (Nat.eq_dec j n) as [->|Nj].
  - pose proof (rsum_ge_one n f i (fun i _ => P i) ltac:(lia)). pose proof (P i). assert (0 <= f i * f n) by nra. assert (f i * f n <= rsum n f * f n) by nra. lra.
  - apply IH; [nra|lia].
Qed.
Lemma rsum_single n f i : (i < n)%nat -> (forall j, (j < n)%nat -> j <> i -> f j = 0) -> rsum n f = f i.
Proof.
  induction n as [|n IH]; intros Hi H; [lia|]. rewrite rsum_S. destruct (Nat.eq_dec i n) as [->|Ni].
  - rewrite (rsum_ext n f (fun _ => 0)); [rewrite rsum_const; lra|]. intros j Hj. apply H; lia.
  - rewrite (H n) by lia. rewrite IH; [lra|lia|]. intros j Hj. apply H. lia.
Qed.
(** it is the Euclidean distance only if at most one entry differs *)
Theorem C103_euclidean_wrong : forall x y, wfnet x -> wfnet y -> length (entries x) = length (entries y) -> exists d, euclidean NoAsserts x y = Ok d /\
  (d = sqrt (rsum (length (entries x)) (fun i => gap x y i ^ 2)) <->
   forall i j, (i < j < length (entries x))%nat -> nth i (entries x) 0%Qc = nth i (entries y) 0%Qc \/ nth j (entries x) 0%Qc = nth j (entries y) 0%Qc).
Proof.
  intros x y Wx Wy L. destruct (C103_distances x y Wx Wy L) as (_ & E & _). rewrite E. eexists. split; [reflexivity|]. set (n := length (entries x)).
  assert (S : rsum n (fun i => gap x y i ^ 2) = rsum n (fun i => Rabs (gap x y i) ^ 2)) by (apply rsum_ext; intros i _; rewrite pow2_abs; reflexivity). rewrite S.
  assert (P : forall i, 0 <= Rabs (gap x y i)) by (intros; apply Rabs_pos). pose proof (rsum_nonneg n _ (fun i _ => P i)) as N1. assert (N2 : 0 <= rsum n (fun i => Rabs (gap x y i) ^ 2)) by (apply rsum_nonneg; intros; apply pow2_ge_0).
  assert (Z : forall i, Rabs (gap x y i) = 0 <-> nth i (entries x) 0%Qc = nth i (entries y) 0%Qc).
  { intros i. unfold gap. split; [intros H|intros ->; unfold Rminus; rewrite Rplus_opp_r; apply Rabs_R0].
    destruct (Req_dec (qr (nth i (entries x) 0%Qc) - qr (nth i (entries y) 0%Qc)) 0) as [D|D]; [apply qr_inj; lra|]. exfalso. exact (Rabs_no_R0 _ D H). }
  split.
  - intros D i j H. rewrite <- !Z. apply Rmult_integral. apply (rsum_sq n (fun i => Rabs (gap x y i)) P); [|exact H]. rewrite D. rewrite pow2_sqrt by exact N2. reflexivity.
  - intros H. destruct (Req_dec (rsum n (fun i => Rabs (gap x y i))) 0) as [Q|Q].
    + rewrite Q. rewrite (rsum_ext n _ (fun _ => 0)); [rewrite rsum_const, Rmult_0_r; symmetry; apply sqrt_0|]. intros i Hi. rewrite (rsum_zero n _ (fun i _ => P i) Q i Hi). lra.
    + assert (exists i, (i < n)%nat /\ Rabs (gap x y i) <> 0) as (i & Hi & Ni).
      { clear - Q. induction n as [|n IH]; [elim Q; apply rsum_0|]. rewrite rsum_S in Q. destruct (Req_dec (Rabs (gap x y n)) 0) as [D|D]; [|exists n; split; [lia|exact D]].
        destruct IH as (i & Hi & Ni); [intros R; apply Q; lra|]. exists i. split; [lia|exact Ni]. }
      assert (O : forall j, (j < n)%nat -> j <> i -> Rabs (gap x y j) = 0).
      { intros j Hj Nj. rewrite Z in Ni. apply Z. destruct (Nat.lt_ge_cases i j) as [C|C]; [destruct (H i j); [lia|contradiction|assumption]|destruct (H j i); [lia|assumption|contradiction]]. }
      rewrite (rsum_single n _ i Hi O), (rsum_single n (fun i => Rabs (gap x y i) ^ 2) i Hi); [symmetry; apply sqrt_pow2; apply P|]. intros j Hj Nj. rewrite (O j Hj Nj). lra.
Qed.
Print Assumptions C103_euclidean_wrong.
(** tables of different sizes cannot be compared *)
Theorem C103_sizes : forall x y p, wfnet x -> wfnet y -> length (entries x) <> length (entries y) -> (2 <= length (entries x))%nat -> (2 <= length (entries y))%nat ->
  euclidean NoAsserts x y = Raise ValueError /\ manhattan NoAsserts x y = Raise ValueError /\ minkowski NoAsserts x y p = Raise ValueError /\
  kl_divergence NoAsserts x y = Raise ValueError /\ js_divergence NoAsserts x y = Raise ValueError /\ hellinger NoAsserts x y = Raise ValueError.
Proof.
  intros x y p Wx Wy N Lx Ly. assert (Z : forall A (f : Qc -> Qc -> A), np_zip f (entries x) (entries y) = Raise ValueError).
  { intros A f. unfold np_zip. rewrite (proj2 (Nat.eqb_neq _ _) N). destruct (entries x) as [|a [|b r]]; cbn in Lx; try lia. destruct (entries y) as [|c [|d q]]; cbn in Ly; try lia. reflexivity. }
  unfold euclidean, manhattan, minkowski, kl_divergence, js_divergence, hellinger, cpt_diff. cbn [asserts bind]. rewrite (flat_ok x Wx), (flat_ok y Wy). cbn [bind]. fold (entries x) (entries y). rewrite !Z. cbn [bind].
  split; [reflexivity|]. split; [reflexivity|]. split; [reflexivity|]. split; [reflexivity|]. split; reflexivity.
Qed.
Print Assumptions C103_sizes.
(** the Jensen-Shannon divergence is never computed *)
Theorem C103_js : forall m x y, exists e, js_divergence m x y = Raise e.
Proof.
  intros m x y. unfold js_divergence. destruct (asserts m x y); [|now eexists]. cbn [bind]. destruct (flat_cpt x); [|now eexists]. cbn [bind]. destruct (flat_cpt y); [|now eexists]. cbn [bind].
  destruct (np_zip _ _ _); [|now eexists]. cbn [bind]. destruct m; now eexists.
Qed.
Print Assumptions C103_js.
(** without assertions and with tables of one size the array z has no flat_cpt *)
Theorem C103_js_attribute : forall x y, wfnet x -> wfnet y -> length (entries x) = length (entries y) -> js_divergence NoAsserts x y = Raise AttributeError.
Proof.
  intros x y Wx Wy L. unfold js_divergence. cbn [asserts bind]. rewrite (flat_ok x Wx), (flat_ok y Wy). cbn [bind]. fold (entries x) (entries y).
  unfold np_zip. rewrite L, Nat.eqb_refl. reflexivity.
Qed.
Print Assumptions C103_js_attribute.
(** same structure, positive normalised tables: the KL number is a divergence; a zero in the first network makes it nan *)
Definition same_shape (x y : bayesnet) : Prop :=
  bn_V x = bn_V y /\ forall v, In v (bn_V x) -> nparents x v = nparents y v /\ ncard x v = ncard y v.
Lemma shape_len x y v : wfnet x -> wfnet y -> same_shape x y -> In v (bn_V x) -> length (ncpt x v) = length (ncpt y v).
Proof.
  intros Wx Wy [V H] Hv. rewrite (wn_cpt _ Wx v Hv), (wn_cpt _ Wy v) by (now rewrite <- V). destruct (H v Hv) as [-> _]. f_equal. apply map_ext_in. intros w Hw.
  apply H. destruct Hw as [<-|Hw]; [exact Hv|]. rewrite V in *. now apply (wn_par _ Wy v Hv).
Qed.
Lemma shape_entries x y : wfnet x -> wfnet y -> same_shape x y -> length (entries x) = length (entries y).
Proof.
  intros Wx Wy S. unfold entries. assert (H : forall v, In v (bn_V x) -> length (ncpt x v) = length (ncpt y v)) by (intros; now apply shape_len). destruct S as [<- _].
  induction (bn_V x) as [|v l IH]; [reflexivity|]. cbn [map concat]. rewrite !app_length, H by (now left). f_equal. apply IH. intros w Hw. apply H. now right.
Qed.
Lemma entries_eq x y : wfnet x -> wfnet y -> same_shape x y -> entries x = entries y <-> forall v, In v (bn_V x) -> ncpt x v = ncpt y v.
Proof.
  intros Wx Wy S. unfold entries. assert (H : forall v, In v (bn_V x) -> length (ncpt x v) = length (ncpt y v)) by (intros; now apply shape_len). destruct S as [<- _].
  induction (bn_V x) as [|v l IH]; [split; [intros _ v []|reflexivity]|]. cbn [map concat]. assert (IH' := IH (fun w Hw => H w (or_intror Hw))). split.
  - intros E. assert (Ev : ncpt x v = ncpt y v).
    { apply (f_equal (firstn (length (ncpt x v)))) in E. rewrite firstn_app, Nat.sub_diag, firstn_all, firstn_O, app_nil_r in E. rewrite (H v (or_introl eq_refl)), firstn_app, Nat.sub_diag, firstn_all, firstn_O, app_nil_r in E. exact E. }
    intros w [<-|Hw]; [exact Ev|]. apply IH'; [|exact Hw]. rewrite Ev in E. now apply app_inv_head in E.
  - intros E. rewrite (E v (or_introl eq_refl)). f_equal. apply IH'. intros w Hw. apply E. now right.
Qed.
Theorem C103_kl : forall x y, wfnet x -> wfnet y -> same_shape x y -> normalised x -> normalised y ->
  (forall v q, In v (bn_V x) -> In q (ncpt x v) -> (0 < q)%Qc) -> (forall v q, In v (bn_V y) -> In q (ncpt y v) -> (0 < q)%Qc) ->
  exists k, kl_divergence NoAsserts x y = Ok (Fin k) /\ 0 <= k /\ (k = 0 <-> forall v, In v (bn_V x) -> ncpt x v = ncpt y v).
Proof.
  intros x y Wx Wy S Nx Ny Px Py. unfold kl_divergence. cbn [asserts bind]. rewrite (flat_ok x Wx), (flat_ok y Wy). cbn [bind]. fold (entries x) (entries y). pose proof (shape_entries x y Wx Wy S) as L.
  unfold np_zip. rewrite (proj2 (Nat.eqb_eq _ _) L). cbn [bind]. replace (map (fun p : Qc * Qc => (fst p, snd p)) (combine (entries x) (entries y))) with (combine (entries x) (entries y)) by (etransitivity; [symmetry; apply map_id|]; apply map_ext; intros [? ?]; reflexivity).
  assert (Pos : forall p, In p (combine (entries x) (entries y)) -> (0 < fst p)%Qc /\ (0 < snd p)%Qc).
  { intros [a b] H. split; [apply in_combine_l in H|apply in_combine_r in H]; unfold entries in H; apply in_concat in H as (l & Hl & H); apply in_map_iff in Hl as (v & <- & Hv); [now apply (Px v)|now apply (Py v)]. }
  unfold kl_terms. assert (F : forall (pr : Qc * Qc -> Qc), (forall p, In p (combine (entries x) (entries y)) -> (0 < pr p)%Qc) -> existsb (fun p => Qc_eq_bool (pr p) 0%Qc) (combine (entries x) (entries y)) = false).
  { intros pr H. apply Bool.not_true_is_false. intros E. apply existsb_exists in E as (p & Hp & E). apply Qc_eq_bool_correct in E. specialize (H p Hp). rewrite E in H. now apply Qclt_not_eq in H. }
  rewrite (F fst) by (intros p Hp; now apply Pos). rewrite (F snd) by (intros p Hp; now apply Pos). eexists. split; [reflexivity|].
  set (l := combine (entries x) (entries y)) in *.
  assert (R : forall p, In p l -> 0 < qr (fst p) /\ 0 < qr (snd p)). { intros p Hp. destruct (Pos p Hp) as [A B]. apply qr_lt in A, B. rewrite qr_0 in A, B. split; assumption. }
  assert (T : np_sum (map (fun p => qr (fst p) - qr (snd p)) l) = 0).
  { assert (Q : np_sum (map (fun p => qr (fst p) - qr (snd p)) l) = np_sum (map qr (entries x)) - np_sum (map qr (entries y))).
    { unfold l. clear - L. revert L. generalize (entries x) (entries y). induction l as [|a l IH]; intros [|b m] L; cbn in L |- *; try lia; [lra|]. unfold np_sum in IH. rewrite IH by lia. lra. }
    rewrite Q. unfold np_sum. rewrite <- !qr_qsum. assert (Eq : qsum (entries x) = qsum (entries y)); [|rewrite Eq; lra].
    destruct S as [V S]. unfold entries. rewrite <- V. assert (H : forall v, In v (bn_V x) -> qsum (ncpt x v) = qsum (ncpt y v)).
    { intros v Hv. rewrite (cpt_total x v Wx Nx Hv), (cpt_total y v Wy Ny) by (now rewrite <- V). f_equal. destruct (S v Hv) as [-> _]. unfold Radix.size. f_equal. apply map_ext_in. intros w Hw. apply S. rewrite V in *. now apply (wn_par _ Wy v Hv). }
    clear - H. induction (bn_V x) as [|v r IH]; [reflexivity|]. cbn [map concat]. rewrite !qsum_app, (H v) by (now left). f_equal. apply IH. intros w Hw. apply H. now right. }
  assert (G : forall p, In p l -> qr (fst p) - qr (snd p) <= qr (fst p) * ln (qr (fst p) / qr (snd p))). { intros p Hp. destruct (R p Hp). now apply gibbs. }
  unfold np_sum in *. split; [pose proof (rfold_le _ _ l G); lra|]. rewrite <- (entries_eq x y Wx Wy S). split.
  - intros E. assert (Q : forall p, In p l -> fst p = snd p).
    { intros p Hp. destruct (R p Hp). apply qr_inj. apply gibbs_eq; try assumption. symmetry. apply (rfold_eq _ _ l G); [|exact Hp]. etransitivity; [exact T|symmetry; exact E]. }
    unfold l in Q. clear - L Q. revert L Q. generalize (entries x) (entries y). induction l as [|a l IH]; intros [|b m] L Q; cbn in L; try lia; [reflexivity|].
    f_equal; [apply (Q (a, b)); now left|]. apply IH; [lia|]. intros p Hp. apply Q. now right.
  - intros E. etransitivity; [|exact T]. apply rfold_ext. intros p Hp. destruct (R p Hp). assert (D : fst p = snd p).
    { unfold l in Hp. rewrite E in Hp. clear - Hp. induction (entries y) as [|b m IH]; [destruct Hp|]. destruct Hp as [<-|Hp]; [reflexivity|auto]. }
    rewrite D. replace (qr (snd p) / qr (snd p)) with 1 by (field; lra). rewrite ln_1. lra.
Qed.
Print Assumptions C103_kl.
Theorem C103_kl_nan : forall x y v, wfnet x -> wfnet y -> same_shape x y -> In v (bn_V x) -> In 0%Qc (ncpt x v) -> kl_divergence NoAsserts x y = Ok NaN.
Proof.
  intros x y v Wx Wy S Hv Hz. unfold kl_divergence. cbn [asserts bind]. rewrite (flat_ok x Wx), (flat_ok y Wy). cbn [bind]. fold (entries x) (entries y). pose proof (shape_entries x y Wx Wy S) as L.
  unfold np_zip. rewrite (proj2 (Nat.eqb_eq _ _) L). cbn [bind]. unfold kl_terms. assert (I : In 0%Qc (entries x)) by (unfold entries; apply in_concat; exists (ncpt x v); split; [now apply in_map|exact Hz]).
  assert (E : existsb (fun p : Qc * Qc => Qc_eq_bool (fst p) 0%Qc) (map (fun p : Qc * Qc => (fst p, snd p)) (combine (entries x) (entries y))) = true); [|now rewrite E].
  clear - L I. revert L I. generalize (entries x) (entries y). induction l as [|a l IH]; intros [|b m] L I; cbn in L; try lia; [destruct I|]. cbn [combine map existsb fst]. destruct I as [->|I]; [reflexivity|]. rewrite IH by (auto; lia). apply Bool.orb_true_r.
Qed.
Print Assumptions C103_kl_nan.
(** hellinger: the documented formula; symmetric, and 0 exactly for equal tables *)
Theorem C103_hellinger : forall x y, wfnet x -> wfnet y -> same_shape x y -> nonneg_net x -> nonneg_net y -> exists h,
  hellinger NoAsserts x y = Ok h /\ hellinger NoAsserts y x = Ok h /\
  h = / sqrt 2 * sqrt (rsum (length (entries x)) (fun i => (sqrt (qr (nth i (entries x) 0%Qc)) - sqrt (qr (nth i (entries y) 0%Qc))) ^ 2)) /\
  0 <= h /\ (h = 0 <-> forall v, In v (bn_V x) -> ncpt x v = ncpt y v).
Proof.
  intros x y Wx Wy S Nx Ny. pose proof (shape_entries x y Wx Wy S) as L. unfold hellinger. cbn [asserts bind]. rewrite (flat_ok x Wx), (flat_ok y Wy). cbn [bind]. fold (entries x) (entries y).
  destruct (zip_sum (fun p q => sqrt (qr p) - sqrt (qr q)) 0%Qc 0%Qc _ _ L) as (d & -> & _ & H). destruct (zip_sum (fun p q => sqrt (qr p) - sqrt (qr q)) 0%Qc 0%Qc _ _ (eq_sym L)) as (d' & -> & _ & H'). cbn [bind]. rewrite H, H'.
  set (s := rsum (length (entries x)) (fun i => (sqrt (qr (nth i (entries x) 0%Qc)) - sqrt (qr (nth i (entries y) 0%Qc))) ^ 2)). exists (/ sqrt 2 * sqrt s).
  assert (P2 : 0 < / sqrt 2) by (apply Rinv_0_lt_compat, sqrt_lt_R0; lra). pose proof (sqrt_pos s) as Ps. unfold Rdiv. rewrite !Rmult_1_l.
  split; [reflexivity|]. split; [do 3 f_equal; rewrite <- L; apply rsum_ext; intros i _; ring|]. split; [reflexivity|]. split; [nra|]. rewrite <- (entries_eq x y Wx Wy S).
  assert (S0 : forall i, (i < length (entries x))%nat -> 0 <= (sqrt (qr (nth i (entries x) 0%Qc)) - sqrt (qr (nth i (entries y) 0%Qc))) ^ 2) by (intros; apply pow2_ge_0).
  assert (NNx : forall bn q, nonneg_net bn -> In q (entries bn) -> 0 <= qr q). { intros bn q N Hq. unfold entries in Hq. apply in_concat in Hq as (l & Hl & Hq). apply in_map_iff in Hl as (v & <- & Hv). specialize (N v q Hv Hq). apply qr_le in N. now rewrite qr_0 in N. }
  split.
  - intros E. assert (Es : sqrt s = 0) by nra. apply sqrt_eq_0 in Es; [|now apply rsum_nonneg]. apply (nth_ext _ _ 0%Qc 0%Qc L). intros i Hi. pose proof (rsum_zero _ _ S0 Es i Hi) as Q. cbn beta in Q. apply qr_inj, sqrt_inj.
    + apply (NNx x); [exact Nx|]. now apply nth_In.
    + apply (NNx y); [exact Ny|]. apply nth_In. lia.
    + assert (sqrt (qr (nth i (entries x) 0%Qc)) - sqrt (qr (nth i (entries y) 0%Qc)) = 0) by (apply Rsqr_0_uniq; rewrite Rsqr_pow2; exact Q). lra.
  - intros E. assert (Z : s = 0). { unfold s. rewrite (rsum_ext _ _ (fun _ => 0)); [rewrite rsum_const; lra|]. intros i _. rewrite E. unfold Rminus. rewrite Rplus_opp_r. ring. } rewrite Z, sqrt_0. lra.
Qed.
Print Assumptions C103_hellinger.
(** the same network with its nodes listed in another order is at a positive distance *)
Definition exPair (v : list name) : bayesnet := mkBN v [(exA, []); (exB, [])] [(exA, mkF [] [nm "0"; nm "1"] [qq 1 5; qq 4 5]); (exB, mkF [] [nm "0"; nm "1"] [qq 1 2; qq 1 2])].
Theorem C103_node_order_refuted : let x := exPair [exA; exB] in let y := exPair [exB; exA] in
  wfnet x /\ wfnet y /\ (forall a, joint x a = joint y a) /\ exists d, manhattan NoAsserts x y = Ok d /\ 1 < d.
Proof.
  cbn zeta. split; [now apply wfnetb_ok|]. split; [now apply wfnetb_ok|]. split.
  { intros a. unfold joint. cbn [bn_V exPair map qprod fold_right]. assert (E : forall v, cond_prob (exPair [exB; exA]) v a = cond_prob (exPair [exA; exB]) v a) by reflexivity. rewrite !E. ring. }
  destruct (C103_distances (exPair [exA; exB]) (exPair [exB; exA])) as (M & _); [now apply wfnetb_ok|now apply wfnetb_ok|reflexivity|]. cbn zeta in M. rewrite M. eexists. split; [reflexivity|].
  change (length (entries (exPair [exA; exB]))) with 4%nat. unfold rsum. cbn [seq map fold_right]. unfold gap.
  change (entries (exPair [exA; exB])) with [qq 1 5; qq 4 5; qq 1 2; qq 1 2]. change (entries (exPair [exB; exA])) with [qq 1 2; qq 1 2; qq 1 5; qq 4 5]. cbn [nth]. unfold qq. rewrite !qr_frac.
  repeat (unfold Rabs at 1; destruct (Rcase_abs _)); lra.
Qed.
Print Assumptions C103_node_order_refuted.
Definition exFlat : bayesnet := mkBN [exA; exB] [(exA, []); (exB, [])] [(exA, mkF [] [nm "0"; nm "1"] [qq 1 2; qq 1 2]); (exB, mkF [] [nm "0"; nm "1"] [qq 1 3; qq 2 3])].
Lemma pair_norm bn : bn = exPair [exA; exB] \/ bn = exFlat -> wfnet bn /\ normalised bn /\ forall v q, In v (bn_V bn) -> In q (ncpt bn v) -> (0 < q)%Qc.
Proof.
  intros H. split; [destruct H as [-> | ->]; now apply wfnetb_ok|]. split.
  - intros v a Hv _. destruct H as [-> | ->]; destruct Hv as [<-|[<-|[]]]; unfold cond_prob; cbn [radix]; apply Qc_is_canon; vm_compute; reflexivity.
  - intros v q Hv Hq. destruct H as [-> | ->]; destruct Hv as [<-|[<-|[]]]; cbn in Hq; repeat (destruct Hq as [<-|Hq]; [vm_compute; reflexivity|]); destruct Hq.
Qed.
Example C103_nonvacuous : let x := exPair [exA; exB] in let y := exFlat in wfnet x /\ wfnet y /\ graph_ok x /\ graph_ok y /\ same_shape x y /\ normalised x /\ normalised y /\
  (forall v q, In v (bn_V x) -> In q (ncpt x v) -> (0 < q)%Qc) /\ (forall v q, In v (bn_V y) -> In q (ncpt y v) -> (0 < q)%Qc) /\ length (entries x) = length (entries y) /\ length (entries x) <> length (entries ex3).
Proof.
  cbn zeta. destruct (pair_norm (exPair [exA; exB]) (or_introl eq_refl)) as (W & N & P). destruct (pair_norm exFlat (or_intror eq_refl)) as (W' & N' & P').
  split; [exact W|]. split; [exact W'|]. split; [now apply graph_okb_ok|]. split; [now apply graph_okb_ok|]. split; [split; [reflexivity|intros v [<-|[<-|[]]]; split; reflexivity]|].
  split; [exact N|]. split; [exact N'|]. split; [exact P|]. split; [exact P'|]. split; [reflexivity|discriminate].
Qed.
