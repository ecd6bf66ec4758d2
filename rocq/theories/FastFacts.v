(** FastFacts.v -- lemmas for C108. *)
From Verif Require Import Py Num BayesNet Graph Data ParamLearn StructScore SpecConstraint SpecData Constraint DataUtils DataFacts ConstraintFacts StructFacts FastIamb.
Open Scope nat_scope.

Section Low.
  Variables (test : ptest) (o : oracle) (n : nat) (T : name).
  Hypothesis G : good o.
  Hypothesis Low : forall cols, NoDup cols -> incl cols (columns n) -> 2 <= length cols -> exists p, test cols = Ok p /\ p_lt p alpha05 = true.
  Hypothesis HT : In T (columns n).
  Lemma indep_low cols : NoDup cols -> incl cols (columns n) -> 2 <= length cols -> are_independent test alpha05 cols = Ok true.
  Proof. intros N I L. destruct (Low cols N I L) as (p & E & P). unfold are_independent. rewrite E. cbn [bind]. now rewrite P. Qed.
  Lemma screen_low l : forall cur, incl l (columns n) -> ~ In T l -> fi_screen test T (length cur) l cur = Ok cur.
  Proof.
    induction l as [|A l IH]; intros cur I N; cbn [fi_screen]; rewrite Nat.eqb_refl; cbn [negb]; [reflexivity|].
    rewrite indep_low; [cbn [bind]; apply IH; [intros x Hx; apply I; now right|intros K; apply N; now right]|constructor; [intros [->|[]]; apply N; now left|constructor; [intros []|constructor]]|intros x [<-|[<-|[]]]; [apply I; now left|exact HT]|cbn; lia].
  Qed.
  Lemma shrink_low o' : good o' -> forall fuel pos Mb b, NoDup Mb -> incl Mb (columns n) -> ~ In T Mb -> length Mb - pos < fuel ->
    exists M' b', fi_shrink fuel o' test T pos Mb b = Ok (M', b') /\ NoDup M' /\ incl M' Mb /\ (b = true \/ pos < length Mb -> b' = true) /\
      match nth_error Mb pos with Some A => ~ In A M' | None => M' = Mb /\ b' = b end.
  Proof.
    intros Go. induction fuel as [|f IH]; intros pos Mb b N I NT L; [lia|]. cbn [fi_shrink]. destruct (nth_error Mb pos) as [A|] eqn:E.
    - assert (HA : In A Mb) by now apply nth_error_In in E. assert (Lp : pos < length Mb) by (apply nth_error_Some; congruence). rewrite indep_low.
      + cbn [bind]. unfold list_remove. rewrite (proj2 (mem_In A Mb) HA). cbn [bind]. pose proof (length_remove1 A Mb HA) as Lr.
        destruct (IH (S pos) (remove1 A Mb) true) as (M' & b' & R & N' & I' & B & _); [now apply NoDup_remove1|intros x Hx; apply I; now apply remove1_incl in Hx|intros K; apply NT; now apply remove1_incl in K|lia|].
        exists M', b'. split; [exact R|]. split; [exact N'|]. split; [intros x Hx; apply I' in Hx; now apply remove1_incl in Hx|]. split; [intros _; apply B; now left|]. intros K. apply I' in K. apply (In_remove1 A A Mb N) in K. tauto.
      + assert (P : Permutation (ask (sub o' pos) (set_diff Mb [A])) (set_diff Mb [A])) by apply Go. constructor; [|constructor].
        * intros [<-|K]; [now apply NT|]. apply (Permutation_in _ P) in K. apply In_set_diff in K. cbn in K. tauto.
        * intros K. apply (Permutation_in _ P) in K. apply In_set_diff in K. tauto.
        * apply (Permutation_NoDup (Permutation_sym P)). apply NoDup_set_diff.
      + intros x [<-|[<-|K]]; [now apply I|exact HT|]. assert (P : Permutation (ask (sub o' pos) (set_diff Mb [A])) (set_diff Mb [A])) by apply Go. apply (Permutation_in _ P) in K. apply In_set_diff in K. now apply I.
      + cbn. lia.
    - exists Mb, b. split; [reflexivity|]. split; [exact N|]. split; [intros x; auto|]. split; [|now split]. apply nth_error_None in E. intros [K|K]; [exact K|lia].
  Qed.
  Variables (N : nat) (card : dict nat) (k : Qc).
  Hypothesis Card : forall v, In v (columns n) -> exists c, dget card v = Some c /\ 1 <= c.
  Hypothesis Enough : forall v c, In v (columns n) -> dget card v = Some c -> (k * nQc c <= nQc N)%Qc.
  Lemma enough_low x Mb : In x (columns n) -> incl Mb (columns n) -> fi_enough N card k T x Mb = Ok true.
  Proof.
    intros Hx I. unfold fi_enough, getitem. destruct (Card x Hx) as (cx & Ex & Px). rewrite Ex. cbn [bind]. destruct (Nat.eqb_spec cx 0); [lia|]. destruct (Card T HT) as (ct & Et & Pt). rewrite Et. cbn [bind].
    assert (M : exists cs, mapM (fun k => match dget card k with Some v => Ok v | None => Raise KeyError end) Mb = Ok cs /\ 1 <= fold_right Nat.mul 1 cs).
    { clear - Card I. induction Mb as [|b Mb IH]; [exists []; split; [reflexivity|cbn; lia]|]. destruct IH as (cs & E & P); [intros x Hx; apply I; now right|]. destruct (Card b (I b (or_introl eq_refl))) as (c & Ec & Pc). exists (c :: cs). cbn [mapM]. rewrite Ec. cbn [bind]. rewrite E. split; [reflexivity|]. cbn [fold_right]. nia. }
    destruct M as (cs & E & P). unfold getitem. rewrite E. cbn [bind]. apply f_equal. apply negb_true_iff. destruct (qltb_spec (nQc N / nQc cx * nQc ct * nQc (fold_right Nat.mul 1%nat cs))%Qc k) as [Q|Q]; [exfalso|reflexivity]. specialize (Enough x cx Hx Ex).
    set (m := fold_right Nat.mul 1 cs) in *. assert (Hc : (0 < nQc cx)%Qc) by (apply nQc_pos; lia).
    assert (D : (k <= nQc N / nQc cx)%Qc). { assert (E1 : (nQc N / nQc cx * nQc cx = nQc N)%Qc) by (field; intros Z; rewrite Z in Hc; discriminate). destruct (Qclt_le_dec (nQc N / nQc cx) k) as [B|B]; [|exact B]. exfalso. assert (B' : (nQc N / nQc cx * nQc cx < k * nQc cx)%Qc) by now apply Qcmult_lt_compat_r. rewrite E1 in B'. qclra. }
    assert (D2 : (nQc N / nQc cx <= nQc N / nQc cx * nQc ct * nQc m)%Qc).
    { assert (Z : (nQc N / nQc cx * 1 <= nQc N / nQc cx * nQc (ct * m))%Qc).
      { rewrite !(Qcmult_comm (nQc N / nQc cx)%Qc). apply Qcmult_le_compat_r; [rewrite <- nQc_1; apply nQc_le; nia|]. destruct (Qclt_le_dec (nQc N / nQc cx) 0) as [B|B]; [|exact B]. exfalso. assert (B' : (nQc N / nQc cx * nQc cx < 0 * nQc cx)%Qc) by now apply Qcmult_lt_compat_r. assert (E1 : (nQc N / nQc cx * nQc cx = nQc N)%Qc) by (field; intros Z; rewrite Z in Hc; discriminate). rewrite E1 in B'. pose proof (nQc_nonneg N). rewrite Qcmult_0_l in B'. qclra. }
      rewrite nQc_mult in Z. rewrite Qcmult_1_r in Z. now rewrite Qcmult_assoc in Z. }
    apply (Qclt_not_le _ _ Q). now apply Qcle_trans with (nQc N / nQc cx)%Qc.
  Qed.
  Lemma grow_low l : forall Mb, incl l (columns n) -> incl Mb (columns n) -> fi_grow N card k T l Mb = Ok (Mb ++ l, false).
  Proof.
    induction l as [|x l IH]; intros Mb I IM; cbn [fi_grow]; [now rewrite app_nil_r|]. rewrite enough_low by (try assumption; apply I; now left). cbn [bind]. rewrite IH, <- app_assoc; [reflexivity|intros y Hy; apply I; now right|].
    intros y Hy. apply in_app_or in Hy as [Hy|[<-|[]]]; [now apply IM|apply I; now left].
  Qed.
  Lemma loop_low : forall fuel cand Mb, cand <> [] -> NoDup (cand ++ Mb) -> incl (cand ++ Mb) (columns n) -> ~ In T (cand ++ Mb) -> fi_loop fuel o test N card k n T cand Mb = Raise OutOfFuel.
  Proof.
    induction fuel as [|f IH]; intros cand Mb NE ND I NT; [destruct cand; [congruence|reflexivity]|]. destruct cand as [|c0 cand']; [congruence|]. cbn [fi_loop]. set (cand := c0 :: cand') in *.
    assert (Ms : exists ps, mapM (fun s => test (s :: T :: Mb)) cand = Ok ps).
    { assert (Z : forall l, incl l cand -> exists ps, mapM (fun s => test (s :: T :: Mb)) l = Ok ps); [|apply Z; intros x; auto].
      induction l as [|s l IHl]; intros Il; [now exists []|]. destruct IHl as (ps & E); [intros x Hx; apply Il; now right|]. assert (Hs : In s cand) by (apply Il; now left). destruct (Low (s :: T :: Mb)) as (p & Ep & _).
      - constructor; [intros [<-|K]; [apply NT; apply in_or_app; now left|]|constructor; [intros K; apply NT; apply in_or_app; now right|]].
        + clear - ND Hs K. induction cand as [|a c IHc]; [destruct Hs|]. cbn in ND. inversion ND as [|? ? N1 N2]; subst. destruct Hs as [<-|Hs]; [apply N1; apply in_or_app; now right|now apply IHc].
        + clear - ND. induction cand as [|a c IHc]; [exact ND|]. inversion ND; auto.
      - intros x [<-|[<-|K]]; [apply I; apply in_or_app; now left|exact HT|apply I; apply in_or_app; now right].
      - cbn. lia.
      - exists (p :: ps). cbn [mapM]. rewrite Ep. cbn [bind]. now rewrite E. }
    destruct Ms as (ps & ->). cbn [bind]. set (ord := ask (sub (sub o f) 0) cand). assert (Po : Permutation ord cand) by apply G.
    rewrite grow_low; [|intros x Hx; apply (Permutation_in _ Po) in Hx; apply I; apply in_or_app; now left|intros x Hx; apply I; apply in_or_app; now right]. cbn [bind fst snd andb].
    assert (Pm : Permutation (Mb ++ ord) (cand ++ Mb)) by (rewrite Permutation_app_comm; now apply Permutation_app_tail).
    destruct (shrink_low (sub (sub o f) 1)) with (fuel := S (length (Mb ++ ord))) (pos := 0) (Mb := Mb ++ ord) (b := false) as (M' & b' & R & N' & I' & B & F).
    - intros p l. apply G.
    - now apply (Permutation_NoDup (Permutation_sym Pm)).
    - intros x Hx. apply I. now apply (Permutation_in _ Pm).
    - intros K. apply NT. now apply (Permutation_in _ Pm).
    - lia.
    - rewrite R. cbn [bind fst snd]. assert (Lo : 0 < length (Mb ++ ord)) by (rewrite (Permutation_length Pm); unfold cand; cbn; lia).
      assert (NE' : nth_error (Mb ++ ord) 0 <> None) by (apply nth_error_Some; exact Lo). destruct (nth_error (Mb ++ ord) 0) as [A|] eqn:EA; [|congruence]. clear NE'.
      set (rest := ask (sub (sub o f) 2) (set_diff (columns n) (T :: M'))). assert (Pr : Permutation rest (set_diff (columns n) (T :: M'))) by apply G.
      assert (Rin : forall x, In x rest <-> In x (columns n) /\ x <> T /\ ~ In x M'). { intros x. split; [intros K; apply (Permutation_in _ Pr) in K; apply In_set_diff in K; cbn in K; intuition congruence|intros K; apply (Permutation_in _ (Permutation_sym Pr)); apply In_set_diff; cbn; intuition congruence]. }
      assert (NTM : ~ In T M') by (intros K; apply NT; apply (Permutation_in _ Pm); now apply I').
      assert (IM : incl M' (columns n)) by (intros x Hx; apply I; apply (Permutation_in _ Pm); now apply I').
      assert (Mf : mapM (fun a => do d <- are_independent test alpha05 (a :: T :: M') ;; Ok (a, d)) rest = Ok (map (fun a => (a, true)) rest)).
      { assert (Z : forall l, incl l rest -> mapM (fun a => do d <- are_independent test alpha05 (a :: T :: M') ;; Ok (a, d)) l = Ok (map (fun a => (a, true)) l)); [|apply Z; intros x; auto].
        induction l as [|a l IHl]; intros Il; [reflexivity|]. cbn [mapM map]. assert (Ha : In a rest) by (apply Il; now left). apply Rin in Ha. rewrite indep_low; [cbn [bind]; rewrite IHl; [reflexivity|intros x Hx; apply Il; now right]| | |cbn; lia].
        - constructor; [intros [K|K]; [symmetry in K; tauto|tauto]|]. now constructor.
        - intros x [<-|[<-|K]]; [tauto|exact HT|now apply IM]. }
      rewrite Mf. cbn [bind]. assert (Mm : map fst (filter snd (map (fun a : name => (a, true)) rest)) = rest) by (clear; induction rest as [|a l IHl]; [reflexivity|]; cbn; now rewrite IHl). rewrite Mm. apply IH.
      + intros Z. assert (In A rest); [|rewrite Z in *; contradiction]. apply Rin. apply nth_error_In in EA. assert (HA : In A (cand ++ Mb)) by now apply (Permutation_in _ Pm). split; [now apply I|]. split; [|exact F]. intros ->. contradiction.
      + apply NoDup_app_intro; [apply (Permutation_NoDup (Permutation_sym Pr)); apply NoDup_set_diff|exact N'|]. intros x Hx Hy. apply Rin in Hx. tauto.
      + intros x Hx. apply in_app_or in Hx as [Hx|Hx]; [now apply Rin in Hx|now apply IM].
      + intros Hx. apply in_app_or in Hx as [Hx|Hx]; [apply Rin in Hx; tauto|contradiction].
  Qed.
End Low.
