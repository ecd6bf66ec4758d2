(** FactorOut.v -- proofs about the constructor, sumout_var, maxout_var, reduce_factor. *)
From Verif Require Import Py Num BayesNet Factor SpecFactor Radix FactorMul.
Open Scope nat_scope.

Section Layout.
  Context (cd : name -> nat).

  Lemma running_le st pre s v :
    running cd st pre s -> (forall w, In w pre -> 0 < cd w) -> In v pre ->
    exists t, dget st v = Some t /\ s <= t /\ t * cd v <= s * size cd pre.
  Proof.
    revert s. induction pre as [|w r IH]; simpl; intros s R Pos Hv; [tauto|]. destruct R as [H1 H2].
    assert (Pw : 0 < cd w) by auto.
    assert (Sz : size cd (w :: r) = cd w * size cd r) by reflexivity.
    assert (Sp : 0 < size cd r) by (apply size_pos; auto).
    destruct (name_eqb_spec v w) as [->|Ne].
    - exists s. split; [assumption|]. split; [lia|]. rewrite Sz. nia.
    - destruct Hv as [->|Hv]; [congruence|].
      destruct (IH (s * cd w) H2) as (t & Et & L & U); auto.
      exists t. split; [assumption|]. rewrite Sz. split; nia.
  Qed.

  Lemma wf_split f rv : wf cd f -> In rv (f_scope f) ->
    exists pre post, Permutation (pre ++ rv :: post) (f_scope f) /\
      ~ In rv pre /\ ~ In rv post /\ NoDup (pre ++ rv :: post) /\
      running cd (f_stride f) (pre ++ rv :: post) 1 /\
      running cd (f_stride f) pre 1 /\
      dget (f_stride f) rv = Some (size cd pre) /\
      running cd (f_stride f) post (size cd pre * cd rv) /\
      (forall v, In v (pre ++ rv :: post) -> 0 < cd v) /\
      length (f_cpt f) = cd rv * size cd (pre ++ post).
  Proof.
    intros W Hrv. destruct (wf_ord _ _ W) as (ord & P & R).
    assert (Hin : In rv ord) by (eapply Permutation_in; [symmetry|]; eassumption).
    apply in_split in Hin as (pre & post & ->). exists pre, post.
    assert (ND : NoDup (pre ++ rv :: post)) by (eapply Permutation_NoDup; [symmetry; eassumption|apply W]).
    pose proof (NoDup_remove_2 _ _ _ ND) as N2. rewrite in_app_iff in N2.
    pose proof R as R'. apply running_app in R' as [R1 [R2 R3]].
    rewrite Nat.mul_1_l in R2, R3.
    repeat split; try assumption; try tauto.
    - intros v Hv. apply (wf_pos _ _ W). eapply Permutation_in; eassumption.
    - rewrite (wf_len _ _ W). change (size cd (f_scope f) = cd rv * size cd (pre ++ post)).
      rewrite <- (size_perm _ _ _ P). rewrite !size_app. unfold size. simpl. lia.
  Qed.

  Lemma lower_cards_ok f rv pre post :
    wf cd f -> Permutation (pre ++ rv :: post) (f_scope f) ->
    running cd (f_stride f) pre 1 -> dget (f_stride f) rv = Some (size cd pre) ->
    running cd (f_stride f) post (size cd pre * cd rv) ->
    (forall v, In v (pre ++ rv :: post) -> 0 < cd v) ->
    lower_cards f (size cd pre) = Ok (size cd pre).
  Proof.
    intros W P R1 R2 R3 Pos. unfold lower_cards.
    set (p := size cd pre).
    rewrite (mapM_ok _ (fun r => if stride_key (f_stride f) r <? p then [cd r] else [])).
    2:{ intros r Hr. unfold getitem. assert (dget (f_stride f) r <> None) as D.
        { apply dget_In. eapply Permutation_in; [symmetry; apply W|assumption]. }
        unfold stride_key. destruct (dget (f_stride f) r) as [t|]; [|congruence]. simpl.
        destruct (t <? p); [|reflexivity]. rewrite (wf_card _ _ W r Hr). reflexivity. }
    simpl. f_equal.
    assert (E : forall l, nprod (concat (map (fun r => if stride_key (f_stride f) r <? p then [cd r] else []) l)) =
                nprod (map (fun r => if stride_key (f_stride f) r <? p then cd r else 1) l)).
    { induction l as [|x l IH]; simpl; [reflexivity|]. rewrite nprod_app, IH.
      destruct (stride_key (f_stride f) x <? p); simpl; lia. }
    rewrite E. rewrite <- (nprod_perm _ _ (Permutation_map _ P)).
    rewrite map_app, nprod_app. simpl.
    assert (Pp : 0 < p) by (apply size_pos; intros v Hv; apply Pos; apply in_or_app; auto).
    assert (Prv : 0 < cd rv) by (apply Pos; apply in_or_app; right; now left).
    unfold stride_key at 2. rewrite R2. rewrite Nat.ltb_irrefl.
    assert (Epost : nprod (map (fun r => if stride_key (f_stride f) r <? p then cd r else 1) post) = 1).
    { assert (G : forall v, In v post -> stride_key (f_stride f) v <? p = false).
      { intros v Hv. destruct (running_le (f_stride f) post (p * cd rv) v R3) as (t & Et & L & _); [|assumption|].
        - intros w Hw. apply Pos. apply in_or_app. right. now right.
        - unfold stride_key. rewrite Et. apply Nat.ltb_ge. nia. }
      clear - G. induction post as [|v l IH]; simpl; [reflexivity|].
      rewrite G by now left. rewrite IH; [lia|]. intros; apply G; now right. }
    rewrite Epost.
    assert (Epre : nprod (map (fun r => if stride_key (f_stride f) r <? p then cd r else 1) pre) = nprod (map cd pre)).
    { f_equal. apply map_ext_in. intros v Hv.
      destruct (running_le (f_stride f) pre 1 v R1) as (t & Et & L & U); [|assumption|].
      - intros w Hw. apply Pos. apply in_or_app. auto.
      - unfold stride_key. rewrite Et. destruct (Nat.ltb_spec t p) as [G|G]; [reflexivity|].
        rewrite Nat.mul_1_l in U. fold p in U.
        assert (0 < cd v) by (apply Pos; apply in_or_app; auto). nia. }
    rewrite Epre. unfold p, size. lia.
  Qed.

  (** read position of cell [i] *)
  Definition kpos (p c i : nat) : nat := i / p * (p * c) + i mod p.

  Lemma kpos_step p c i : 0 < p -> 0 < c ->
    (let k1 := kpos p c i + 1 in if k1 mod p =? 0 then k1 + p * (c - 1) else k1) = kpos p c (i + 1).
  Proof.
    intros Pp Pc. cbv zeta. unfold kpos.
    pose proof (Nat.div_mod i p) as DM. pose proof (Nat.mod_upper_bound i p) as MB.
    assert (E : (i / p * (p * c) + i mod p + 1) mod p = (i mod p + 1) mod p).
    { rewrite <- Nat.add_assoc. rewrite Nat.add_comm.
      replace (i / p * (p * c)) with (i / p * c * p) by lia. apply Nat.mod_add. lia. }
    rewrite E.
    destruct (Nat.eq_dec (i mod p + 1) p) as [Q|Q].
    - assert (D1 : (i + 1) / p = i / p + 1).
      { symmetry. apply Nat.div_unique with (r := 0); nia. }
      assert (M1 : (i + 1) mod p = 0).
      { symmetry. apply Nat.mod_unique with (q := i / p + 1); nia. }
      rewrite Q, Nat.mod_same by lia. rewrite Nat.eqb_refl, D1, M1. nia.
    - assert (D1 : (i + 1) / p = i / p).
      { symmetry. apply Nat.div_unique with (r := i mod p + 1); nia. }
      assert (M1 : (i + 1) mod p = i mod p + 1).
      { symmetry. apply Nat.mod_unique with (q := i / p); nia. }
      rewrite Nat.mod_small by lia. destruct (Nat.eqb_spec (i mod p + 1) 0); [lia|].
      rewrite D1, M1. lia.
  Qed.

  Lemma out_loop_ok cell cpt p c g n : 0 < p -> 0 < c -> forall i,
    (forall m, m < n -> cell cpt (kpos p c (i + m)) p c = Ok (g (i + m))) ->
    out_loop cell cpt p p c n (kpos p c i) = Ok (map g (seq i n)).
  Proof.
    intros Pp Pc. induction n as [|n IH]; intros i H; [reflexivity|].
    cbn [out_loop]. pose proof (H 0 ltac:(lia)) as H0. rewrite Nat.add_0_r in H0. rewrite H0. cbn [bind].
    pose proof (kpos_step p c i Pp Pc) as KS. cbv zeta in KS. rewrite KS.
    rewrite (IH (i + 1)).
    - cbn [bind]. f_equal. cbn [seq map]. rewrite Nat.add_1_r. reflexivity.
    - intros m Hm. replace (i + 1 + m) with (i + S m) by lia. apply H. lia.
  Qed.

  (** removing one variable: the new representation *)
  Lemma running_div st st' post s c : 0 < c ->
    running cd st post (s * c) -> (forall v t, In v post -> dget st v = Some t -> dget st' v = Some (t / c)) ->
    running cd st' post s.
  Proof.
    intros Pc. revert s. induction post as [|v r IH]; simpl; intros s R H; [exact I|].
    destruct R as [R1 R2]. split.
    - rewrite (H v _ (or_introl eq_refl) R1). f_equal. apply Nat.div_mul. lia.
    - apply IH; [|intros; apply H; auto]. replace (s * cd v * c) with (s * c * cd v) by lia. assumption.
  Qed.

  Lemma dget_map_snd {A} (g : A -> A) (d : dict A) k :
    dget (map (fun kv => (fst kv, g (snd kv))) d) k = option_map g (dget d k).
  Proof. induction d as [|[q w] r IH]; simpl; [reflexivity|]. now destruct (name_eqb k q). Qed.
  Lemma dkeys_map_snd {A} (g : A -> A) (d : dict A) : dkeys (map (fun kv => (fst kv, g (snd kv))) d) = dkeys d.
  Proof. unfold dkeys. rewrite map_map. reflexivity. Qed.

  Lemma dget_shrink st rv s c v : NoDup (dkeys st) ->
    dget (shrink_strides st rv s c) v =
    if name_eqb v rv then None else option_map (fun t => if s <? t then t / c else t) (dget st v).
  Proof.
    intros ND. unfold shrink_strides.
    rewrite dget_ddel by (rewrite (dkeys_map_snd (fun t => if s <? t then t / c else t)); assumption).
    destruct (name_eqb v rv); [reflexivity|]. apply (dget_map_snd (fun t => if s <? t then t / c else t)).
  Qed.

  Lemma repr_removed f rv pre post new psi bn' var' :
    wf cd f -> In rv (f_scope f) -> Permutation (pre ++ rv :: post) (f_scope f) ->
    NoDup (pre ++ rv :: post) ->
    running cd (f_stride f) pre 1 -> dget (f_stride f) rv = Some (size cd pre) ->
    running cd (f_stride f) post (size cd pre * cd rv) ->
    (forall v, In v (pre ++ rv :: post) -> 0 < cd v) ->
    length new = size cd (pre ++ post) ->
    (forall a, valid cd (pre ++ post) a -> nth_error new (radix cd (pre ++ post) a) = Some (psi a)) ->
    repr cd (mkFactor bn' var' (remove1 rv (f_scope f)) (ddel (f_card f) rv)
               (shrink_strides (f_stride f) rv (size cd pre) (cd rv)) new) psi.
  Proof.
    intros W Hrv P ND R1 R2 R3 Pos HL HN.
    assert (NDc : NoDup (dkeys (f_card f))) by (eapply Permutation_NoDup; [symmetry; apply W|apply W]).
    assert (NDs : NoDup (dkeys (f_stride f))) by (eapply Permutation_NoDup; [symmetry; apply W|apply W]).
    pose proof (NoDup_remove_2 _ _ _ ND) as N2. rewrite in_app_iff in N2.
    assert (P' : Permutation (pre ++ post) (remove1 rv (f_scope f))).
    { rewrite <- (remove1_app_cons rv pre post) by tauto. now apply Permutation_remove1. }
    assert (Prv : 0 < cd rv) by (apply Pos; apply in_or_app; right; now left).
    assert (Run : running cd (shrink_strides (f_stride f) rv (size cd pre) (cd rv)) (pre ++ post) 1).
    { apply running_app. split.
      - apply (running_ext cd (f_stride f)); [|assumption].
        intros v Hv. rewrite dget_shrink by assumption.
        destruct (name_eqb_spec v rv) as [->|Ne]; [tauto|].
        destruct (running_le (f_stride f) pre 1 v R1) as (t & Et & L & U); [|assumption|].
        { intros w Hw. apply Pos, in_or_app. auto. }
        rewrite Et. simpl. assert (0 < cd v) by (apply Pos, in_or_app; auto).
        destruct (Nat.ltb_spec (size cd pre) t); [nia|reflexivity].
      - rewrite Nat.mul_1_l. apply (running_div (f_stride f) _ post _ (cd rv)); [assumption|assumption|].
        intros v t Hv Et. rewrite dget_shrink by assumption.
        destruct (name_eqb_spec v rv) as [->|Ne]; [tauto|]. rewrite Et. simpl. f_equal.
        destruct (running_le (f_stride f) post (size cd pre * cd rv) v R3) as (t' & Et' & L & U); [|assumption|].
        { intros w Hw. apply Pos, in_or_app. right. now right. }
        rewrite Et in Et'. inversion Et'; subst t'.
        assert (0 < size cd pre) by (apply size_pos; intros w Hw; apply Pos, in_or_app; auto).
        destruct (Nat.ltb_spec (size cd pre) t) as [G|G]; [reflexivity|].
        assert (cd rv = 1) as -> by nia. now rewrite Nat.div_1_r. }
    split.
    - constructor; simpl.
      + apply NoDup_remove1, W.
      + rewrite dkeys_ddel. apply Permutation_remove1, W.
      + unfold shrink_strides. rewrite dkeys_ddel, (dkeys_map_snd (fun t => if size cd pre <? t then t / cd rv else t)).
        apply Permutation_remove1, W.
      + intros v Hv. apply In_remove1 in Hv as [Hv Ne]; [|apply W]. rewrite dget_ddel by assumption.
        apply name_eqb_neq in Ne. rewrite Ne. now apply (wf_card _ _ W).
      + intros v Hv. apply (wf_pos _ _ W). eapply remove1_incl; eassumption.
      + exists (pre ++ post). split; assumption.
      + rewrite HL. apply size_perm. assumption.
    - intros a V. simpl in V. unfold lookup. simpl. rewrite offset_dot. simpl.
      rewrite <- (dot_perm _ _ _ _ P'), (running_dot _ _ _ _ _ Run), Nat.mul_1_l.
      apply HN. eapply valid_perm; eassumption.
  Qed.

  Lemma cell_index pre rv post a x :
    ~ In rv pre -> ~ In rv post -> 0 < size cd pre -> valid cd (pre ++ post) a ->
    kpos (size cd pre) (cd rv) (radix cd (pre ++ post) a) + size cd pre * x =
    radix cd (pre ++ rv :: post) (upd a rv x).
  Proof.
    intros N1 N2 Pp V. apply valid_app in V as [V1 V2].
    rewrite !radix_app. cbn [radix]. rewrite upd_same.
    rewrite (radix_ext cd pre (upd a rv x) a) by (intros w Hw; apply upd_other; congruence).
    rewrite (radix_ext cd post (upd a rv x) a) by (intros w Hw; apply upd_other; congruence).
    pose proof (radix_lt cd pre a V1) as L.
    set (p := size cd pre) in *. set (i1 := radix cd pre a) in *. set (i2 := radix cd post a).
    unfold kpos.
    assert (D : (i1 + p * i2) / p = i2) by (symmetry; apply Nat.div_unique with (r := i1); lia).
    assert (M : (i1 + p * i2) mod p = i1) by (symmetry; apply Nat.mod_unique with (q := i2); lia).
    rewrite D, M. lia.
  Qed.

  (** the cell of [f] at an updated assignment *)
  Lemma repr_cell f phi rv pre post a x :
    repr cd f phi -> Permutation (pre ++ rv :: post) (f_scope f) ->
    running cd (f_stride f) (pre ++ rv :: post) 1 ->
    ~ In rv pre -> ~ In rv post -> 0 < size cd pre ->
    valid cd (pre ++ post) a -> x < cd rv ->
    nth_error (f_cpt f) (kpos (size cd pre) (cd rv) (radix cd (pre ++ post) a) + size cd pre * x) =
    Some (phi (upd a rv x)).
  Proof.
    intros [W H] P R N1 N2 Pp V Hx.
    rewrite cell_index by assumption.
    rewrite <- H.
    - unfold lookup. rewrite offset_dot, <- (dot_perm _ _ _ _ P), (running_dot _ _ _ _ _ R).
      now rewrite Nat.mul_1_l.
    - eapply valid_perm; [symmetry; eassumption|]. intros w Hw. destruct (name_eqb_spec w rv) as [->|Ne].
      + now rewrite upd_same.
      + rewrite upd_other by assumption. apply V. apply in_app_iff in Hw as [Hw|[Hw|Hw]]; apply in_or_app; auto; congruence.
  Qed.

  Lemma repr_out cell elect o f phi rv (psi : asg -> Qc) :
    repr cd f phi -> In rv (f_scope f) ->
    (forall cpt k p (h : nat -> Qc), (forall x, x < cd rv -> nth_error cpt (k + p * x) = Some (h x)) ->
        forall a, (forall x, x < cd rv -> h x = phi (upd a rv x)) -> cell cpt k p (cd rv) = Ok (psi a)) ->
    exists f', out_var cell elect o f rv = Ok f' /\ repr cd f' psi /\
       f_scope f' = remove1 rv (f_scope f) /\ f_bn f' = f_bn f /\
       f_var f' = (if elect then elect_var o (f_var f) rv (f_stride f') else f_var f).
  Proof.
    intros Rf Hrv Hcell. pose proof Rf as [W _].
    destruct (wf_split f rv W Hrv) as (pre & post & P & N1 & N2 & ND & R & R1 & R2 & R3 & Pos & HL).
    assert (Prv : 0 < cd rv) by (apply Pos; apply in_or_app; right; now left).
    assert (Pp : 0 < size cd pre) by (apply size_pos; intros w Hw; apply Pos, in_or_app; auto).
    unfold out_var. unfold getitem at 1. rewrite (wf_card _ _ W rv Hrv). cbn [bind].
    destruct (Nat.eqb_spec (cd rv) 0) as [Ez|Ez]; [lia|].
    unfold getitem at 1. rewrite R2. cbn [bind].
    rewrite (lower_cards_ok f rv pre post) by assumption. cbn [bind].
    rewrite HL. rewrite (Nat.mul_comm (cd rv)), Nat.div_mul by lia.
    set (n := size cd (pre ++ post)).
    assert (NDpp : NoDup (pre ++ post)) by (eapply NoDup_remove_1; eassumption).
    set (g := fun i => psi (digits cd (pre ++ post) i)).
    assert (K0 : kpos (size cd pre) (cd rv) 0 = 0)
      by (unfold kpos; rewrite Nat.div_0_l, Nat.mod_0_l by lia; lia).
    pose proof (out_loop_ok cell (f_cpt f) (size cd pre) (cd rv) g n Pp Prv 0) as OL.
    rewrite K0 in OL. rewrite OL; clear OL.
    2:{ intros m Hm. simpl. unfold g. destruct (digits_ok cd (pre ++ post) m NDpp Hm) as [V E].
        apply (Hcell _ _ _ (fun x => phi (upd (digits cd (pre ++ post) m) rv x))); [|reflexivity].
        intros x Hx. rewrite <- (repr_cell f phi rv pre post); try assumption. now rewrite E. }
    cbn [bind]. unfold delitem. rewrite (wf_card _ _ W rv Hrv). cbn [bind].
    unfold list_remove. apply mem_In in Hrv as Hm. rewrite Hm. cbn [bind].
    eexists. split; [reflexivity|]. split; [|simpl; auto].
    apply repr_removed with (post := post); try assumption.
    - rewrite map_length, seq_length. reflexivity.
    - intros a V. pose proof (radix_lt _ _ _ V) as L. fold n in L.
      rewrite (map_nth_error g (radix cd (pre ++ post) a) (seq 0 n) (d := radix cd (pre ++ post) a)).
      2:{ rewrite nth_error_nth' with (d := 0) by (rewrite seq_length; exact L). f_equal. now rewrite seq_nth. }
      f_equal. unfold g.
      destruct (digits_ok cd (pre ++ post) _ NDpp L) as [V' E'].
      assert (EE : forall w, In w (pre ++ post) -> digits cd (pre ++ post) (radix cd (pre ++ post) a) w = a w).
      { apply (radix_inj cd); assumption. }
      (* both values of psi are given by the same cell computation *)
      set (b := digits cd (pre ++ post) (radix cd (pre ++ post) a)) in *.
      assert (Ex : forall x, x < cd rv -> phi (upd b rv x) = phi (upd a rv x)).
      { intros x Hx. pose proof (repr_cell f phi rv pre post b x Rf P R N1 N2 Pp V' Hx) as Q1.
        pose proof (repr_cell f phi rv pre post a x Rf P R N1 N2 Pp V Hx) as Q2.
        rewrite E' in Q1. rewrite Q1 in Q2. congruence. }
      assert (H1 := Hcell (map (fun x => phi (upd a rv x)) (seq 0 (cd rv))) 0 1 (fun x => phi (upd a rv x))).
      assert (HH : forall x, x < cd rv -> nth_error (map (fun x0 => phi (upd a rv x0)) (seq 0 (cd rv))) (0 + 1 * x) = Some (phi (upd a rv x))).
      { intros x Hx. rewrite Nat.mul_1_l. simpl. rewrite (map_nth_error _ x (seq 0 (cd rv)) (d := x)); [reflexivity|].
        rewrite nth_error_nth' with (d := 0) by (now rewrite seq_length). f_equal. now rewrite seq_nth. }
      pose proof (H1 HH a (fun x _ => eq_refl)) as Q1.
      pose proof (H1 HH b) as Q2. rewrite Q1 in Q2.
      assert (Ok (psi a) = Ok (psi b)) as X; [|congruence].
      apply Q2. intros x Hx. symmetry. now apply Ex.
  Qed.
End Layout.

Lemma sum_cells_ok cpt k p c h : (forall x, x < c -> nth_error cpt (k + p * x) = Some (h x)) ->
  sum_cells cpt k p c = Ok (qsum (map h (seq 0 c))).
Proof.
  intros H. unfold sum_cells.
  assert (G : forall l acc, (forall x, In x l -> x < c) ->
     foldM (fun acc c => do x <- nget cpt (k + p * c);; Ok (acc + x)%Qc) l acc = Ok (acc + qsum (map h l))%Qc).
  { induction l as [|x l IH]; intros acc Hl; cbn [foldM map qsum fold_right].
    - f_equal. ring.
    - unfold nget. rewrite H by (apply Hl; now left). cbn [bind]. rewrite IH by (intros; apply Hl; now right).
      f_equal. unfold qsum. ring. }
  rewrite G; [f_equal; ring|]. intros x Hx. apply in_seq in Hx. lia.
Qed.

Lemma sumout_ok cd o f phi rv : repr cd f phi -> In rv (f_scope f) ->
  exists f', sumout_var o f rv = Ok f' /\ repr cd f' (sum_values cd rv phi) /\
    f_scope f' = remove1 rv (f_scope f) /\ f_bn f' = f_bn f.
Proof.
  intros R H. destruct (repr_out cd sum_cells true o f phi rv (sum_values cd rv phi) R H) as (f' & E & R' & S & B & _).
  - intros cpt k p h Hh a Ha. rewrite (sum_cells_ok cpt k p (cd rv) h Hh). f_equal.
    unfold sum_values. apply qsum_map_ext. intros x Hx. apply in_seq in Hx. apply Ha. lia.
  - exists f'. auto.
Qed.

Lemma sumout_keyerror o f rv : ~ In rv (dkeys (f_card f)) -> sumout_var o f rv = Raise KeyError.
Proof. intros H. unfold sumout_var, out_var, getitem. apply dget_None in H. now rewrite H. Qed.
Lemma maxout_keyerror f rv : ~ In rv (dkeys (f_card f)) -> maxout_var f rv = Raise KeyError.
Proof. intros H. unfold maxout_var, out_var, getitem. apply dget_None in H. now rewrite H. Qed.

Lemma fold_qmax_acc {A} (h : A -> Qc) l acc :
  fold_left (fun m x => if qltb m (h x) then h x else m) l acc = fold_right qmax acc (map h l).
Proof.
  assert (QM : forall a b, (if qltb a b then b else a) = qmax a b).
  { intros a b. unfold qltb, qmax. now destruct (Qclt_le_dec a b). }
  assert (C : forall a b, qmax a b = qmax b a).
  { intros a b. apply Qcle_antisym; apply qmax_lub; auto using qmax_ge_l, qmax_ge_r. }
  assert (As : forall a b c, qmax a (qmax b c) = qmax (qmax a b) c).
  { intros a b c. pose proof (qmax_ge_l a (qmax b c)). pose proof (qmax_ge_r a (qmax b c)).
    pose proof (qmax_ge_l b c). pose proof (qmax_ge_r b c). pose proof (qmax_ge_l a b). pose proof (qmax_ge_r a b).
    pose proof (qmax_ge_l (qmax a b) c). pose proof (qmax_ge_r (qmax a b) c).
    apply Qcle_antisym; repeat apply qmax_lub; qclra. }
  revert acc. induction l as [|x l IH]; intros acc; simpl; [reflexivity|].
  rewrite QM, IH. clear IH.
  assert (G : forall m b, fold_right qmax (qmax b m) (map h l) = qmax m (fold_right qmax b (map h l))).
  { intros m b. induction l as [|y l IH]; simpl; [apply C|]. rewrite IH, !As. f_equal. apply C. }
  apply G.
Qed.

Lemma max_cells_ok cpt k p c h : (forall x, x < c -> nth_error cpt (k + p * x) = Some (h x)) ->
  max_cells cpt k p c = Ok (fold_right qmax 0%Qc (map h (seq 0 c))).
Proof.
  intros H. unfold max_cells.
  assert (G : forall l m, (forall x, In x l -> x < c) ->
     foldM (fun acc c => do x <- nget cpt (k + p * c);; if qltb (fst acc) x then Ok (x, x) else Ok acc) l (m, m) =
     Ok (fold_left (fun m x => if qltb m (h x) then h x else m) l m,
         fold_left (fun m x => if qltb m (h x) then h x else m) l m)).
  { induction l as [|x l IH]; intros m Hl; cbn [foldM fold_left]; [reflexivity|].
    unfold nget. rewrite H by (apply Hl; now left). cbn [bind fst].
    destruct (qltb m (h x)); cbn [bind]; apply IH; intros; apply Hl; now right. }
  rewrite G by (intros x Hx; apply in_seq in Hx; lia). cbn [bind snd]. now rewrite fold_qmax_acc.
Qed.

(** exact behaviour: the running maximum starts at 0 *)
Lemma maxout_ok cd f phi rv : repr cd f phi -> In rv (f_scope f) ->
  exists f', maxout_var f rv = Ok f' /\ repr cd f' (max_values cd rv phi) /\
    f_scope f' = remove1 rv (f_scope f) /\ f_bn f' = f_bn f.
Proof.
  intros R H. destruct (repr_out cd max_cells false id_oracle f phi rv (max_values cd rv phi) R H) as (f' & E & R' & S & B & _).
  - intros cpt k p h Hh a Ha. rewrite (max_cells_ok cpt k p (cd rv) h Hh). f_equal.
    unfold max_values. f_equal. apply map_ext_in. intros x Hx. apply in_seq in Hx. apply Ha. lia.
  - exists f'. auto.
Qed.

(** ** reduce_factor *)
Lemma slice_length {A} (l : list A) i n : i + n <= length l -> length (slice l i (i + n)) = n.
Proof. intros H. unfold slice. rewrite firstn_length, skipn_length. lia. Qed.
Lemma nth_error_skipn {A} (l : list A) i j : nth_error (skipn i l) j = nth_error l (i + j).
Proof. revert l. induction i as [|i IH]; intros [|x l]; simpl; try reflexivity; [now destruct j|apply IH]. Qed.
Lemma nth_error_firstn {A} (l : list A) n j : j < n -> nth_error (firstn n l) j = nth_error l j.
Proof.
  revert l j. induction n as [|n IH]; intros [|x l] [|j] H; simpl; try reflexivity; try lia.
  apply IH. lia.
Qed.
Lemma slice_nth {A} (l : list A) i n j : j < n -> nth_error (slice l i (i + n)) j = nth_error l (i + j).
Proof.
  intros H. unfold slice. replace (i + n - i) with n by lia.
  rewrite nth_error_firstn by assumption. apply nth_error_skipn.
Qed.

Lemma reduce_loop_ok cpt c p : 0 < p -> forall m fuel idx, m <= fuel ->
  (m = 0 \/ idx + (m - 1) * (c * p) + p <= length cpt) ->
  exists l, reduce_loop fuel cpt c p idx (m * p) = Ok l /\ length l = m * p /\
    forall q r, q < m -> r < p -> nth_error l (r + p * q) = nth_error cpt (idx + q * (c * p) + r).
Proof.
  intros Pp. induction m as [|m IH]; intros fuel idx Hf Hb.
  - exists []. destruct fuel; simpl; repeat split; intros; lia.
  - destruct Hb as [Hb|Hb]; [lia|]. replace (S m - 1) with m in Hb by lia. destruct fuel as [|fuel]; [lia|].
    cbn [reduce_loop]. destruct (Nat.eqb_spec (S m * p) 0); [nia|].
    assert (SL : length (slice cpt idx (idx + p)) = p) by (apply slice_length; lia).
    rewrite SL. destruct (Nat.ltb_spec (S m * p) p); [nia|].
    replace (S m * p - p) with (m * p) by nia.
    destruct (IH fuel (idx + c * p)) as (l & HL & Hlen & HN); [lia| |].
    + destruct m as [|m]; [now left|right]. replace (S m - 1) with m by lia. simpl in Hb. lia.
    + rewrite HL. cbn [bind]. eexists. split; [reflexivity|]. rewrite app_length, SL, Hlen. split; [lia|].
      intros [|q] r Hq Hr.
      * rewrite Nat.mul_0_r, Nat.add_0_r. rewrite nth_error_app1 by lia. rewrite slice_nth by assumption. f_equal. lia.
      * rewrite nth_error_app2 by nia. rewrite SL. replace (r + p * S q - p) with (r + p * q) by nia.
        rewrite HN by lia. f_equal. lia.
Qed.

Lemma reduce_ok cd o f phi rv val i : repr cd f phi -> In rv (f_scope f) ->
  (forall d, dget (bn_F (f_bn f)) rv = Some d -> index_of val (f_values d) = Some i) ->
  dget (bn_F (f_bn f)) rv <> None -> i < cd rv ->
  exists f', reduce_factor o f rv val = Ok f' /\ repr cd f' (fun a => phi (upd a rv i)) /\
    f_scope f' = remove1 rv (f_scope f) /\ f_bn f' = f_bn f.
Proof.
  intros Rf Hrv Hv Hd Hi. pose proof Rf as [W _].
  destruct (wf_split cd f rv W Hrv) as (pre & post & P & N1 & N2 & ND & R & R1 & R2 & R3 & Pos & HL).
  assert (Prv : 0 < cd rv) by (apply Pos; apply in_or_app; right; now left).
  assert (Pp : 0 < size cd pre) by (apply size_pos; intros w Hw; apply Pos, in_or_app; auto).
  assert (Pq : 0 < size cd post) by (apply size_pos; intros w Hw; apply Pos, in_or_app; right; now right).
  unfold reduce_factor. unfold getitem at 1. rewrite (wf_card _ _ W rv Hrv). cbn [bind].
  destruct (Nat.eqb_spec (cd rv) 0) as [Ez|Ez]; [lia|].
  unfold getitem at 1. destruct (dget (bn_F (f_bn f)) rv) as [d|] eqn:Ed; [|congruence]. cbn [bind].
  unfold list_index. rewrite (Hv d eq_refl). cbn [bind].
  unfold getitem at 1. rewrite R2. cbn [bind].
  rewrite HL. rewrite (Nat.mul_comm (cd rv)), Nat.div_mul by lia.
  rewrite size_app in HL |- *.
  set (p := size cd pre) in *. set (m := size cd post) in *.
  destruct (reduce_loop_ok (f_cpt f) (cd rv) p Pp m (S (p * m)) (i * p)) as (l & El & Hlen & HN).
  - pose proof (Nat.mul_le_mono_r 1 p m Pp). lia.
  - right. rewrite HL. assert (exists m', m = S m') as [m' ->] by (exists (m - 1); lia).
    simpl. rewrite Nat.sub_0_r.
    assert (S i * p <= cd rv * p) by (apply Nat.mul_le_mono_r; lia). nia.
  - rewrite (Nat.mul_comm m p) in El. rewrite El. cbn [bind]. unfold delitem. rewrite (wf_card _ _ W rv Hrv). cbn [bind].
    unfold list_remove. apply mem_In in Hrv as Hm. rewrite Hm. cbn [bind].
    eexists. split; [reflexivity|]. split; [|split; reflexivity].
    apply repr_removed with (post := post); try assumption.
    + rewrite size_app, Hlen. fold p m. lia.
    + intros a V. pose proof V as V'. apply valid_app in V' as [V1 V2].
      rewrite <- (repr_cell cd f phi rv pre post a i) by assumption.
      pose proof (radix_lt cd pre a V1) as L1. pose proof (radix_lt cd post a V2) as L2.
      rewrite radix_app. fold p m in L1, L2 |- *.
      rewrite HN by assumption. f_equal. unfold kpos.
      assert (D : (radix cd pre a + p * radix cd post a) / p = radix cd post a)
        by (symmetry; apply Nat.div_unique with (r := radix cd pre a); lia).
      assert (M : (radix cd pre a + p * radix cd post a) mod p = radix cd pre a)
        by (symmetry; apply Nat.mod_unique with (q := radix cd post a); lia).
      rewrite D, M. nia.
Qed.

(** error branches of reduce_factor *)
Lemma reduce_keyerror o f rv val : ~ In rv (dkeys (f_card f)) -> reduce_factor o f rv val = Raise KeyError.
Proof. intros H. unfold reduce_factor, getitem. apply dget_None in H. now rewrite H. Qed.
Lemma reduce_valueerror cd o f rv val d : wf cd f -> In rv (f_scope f) ->
  dget (bn_F (f_bn f)) rv = Some d -> ~ In val (f_values d) -> reduce_factor o f rv val = Raise ValueError.
Proof.
  intros W H Hd Hv. unfold reduce_factor. unfold getitem. rewrite (wf_card _ _ W rv H). cbn [bind].
  destruct (Nat.eqb_spec (cd rv) 0) as [E|E]; [pose proof (wf_pos _ _ W rv H); lia|].
  rewrite Hd. cbn [bind]. unfold list_index. apply index_of_None in Hv. now rewrite Hv.
Qed.

(** ** the constructor *)
Lemma init_strides_ok cd card ps : NoDup ps -> (forall v, In v ps -> dget card v = Some (cd v)) ->
  forall s st, (forall v, In v ps -> ~ In v (dkeys st)) ->
  exists st', init_strides card ps s st = Ok st' /\ running cd st' ps s /\
    dkeys st' = dkeys st ++ ps /\ (forall v, ~ In v ps -> dget st' v = dget st v).
Proof.
  intros ND C s st Hst. destruct (run_strides_ok cd card ps ND C s st Hst) as (st' & H1 & H2).
  exists st'. split; [|assumption]. rewrite <- H1. clear -C. revert s st.
  induction ps as [|v r IH]; intros s st; simpl; [reflexivity|].
  unfold getitem. rewrite C by now left. simpl. apply IH. intros; apply C; now right.
Qed.

Lemma init_ok bn v : wfnet bn -> In v (bn_V bn) ->
  exists f, factor_init bn v = Ok f /\ f_scope f = v :: nparents bn v /\ f_var f = v /\ f_bn f = bn /\
    f_cpt f = ncpt bn v /\ running (ncard bn) (f_stride f) (v :: nparents bn v) 1 /\
    repr (ncard bn) f (fun a => getq (cond_prob bn v a)).
Proof.
  intros W Hv. destruct (wn_F _ W v Hv) as [d Hd].
  assert (Ep : nparents bn v = f_parents d) by (unfold nparents; now rewrite Hd).
  assert (Ec : ncpt bn v = f_cptl d) by (unfold ncpt; now rewrite Hd).
  assert (HF : forall w, In w (v :: nparents bn v) -> In w (bn_V bn)).
  { intros w [<-|Hw]; [assumption|]. now apply (wn_par _ W v Hv). }
  unfold factor_init, bn_cpt, bn_scope, bn_parents. unfold getitem at 1 2. rewrite Hd. cbn [bind].
  rewrite (mapM_ok _ (fun rv => (rv, ncard bn rv))).
  2:{ intros w Hw. rewrite <- Ep in Hw. destruct (wn_F _ W w (HF w Hw)) as [dw Hdw].
      unfold bn_card, getitem, ncard. rewrite Hdw. reflexivity. }
  cbn [bind]. set (card := dict_of _).
  assert (Hcard : forall w, In w (v :: f_parents d) -> dget card w = Some (ncard bn w)).
  { intros w Hw. unfold card. rewrite dget_dict_of. apply mem_In in Hw. now rewrite Hw. }
  unfold getitem at 1. rewrite Hcard by now left. cbn [bind].
  unfold getitem at 1. rewrite Hd. cbn [bind].
  pose proof (wn_scope _ W v Hv) as ND. rewrite Ep in ND. inversion ND as [|? ? Hn Hr]; subst.
  destruct (init_strides_ok (ncard bn) card (f_parents d) Hr) with (s := ncard bn v) (st := [(v, 1)])
    as (st & Est & Run & Keys & Oth).
  { intros w Hw. apply Hcard. now right. }
  { intros w Hw [E|[]]. simpl in E. subst. contradiction. }
  rewrite Est. cbn [bind]. eexists. split; [reflexivity|].
  assert (Run1 : running (ncard bn) st (v :: f_parents d) 1).
  { simpl. rewrite Nat.add_0_r. split; [|assumption]. rewrite Oth by assumption. simpl. now rewrite name_eqb_refl. }
  rewrite Ep, Ec. simpl f_scope. simpl f_var. simpl f_bn. simpl f_cpt. simpl f_stride.
  assert (Wf : wf (ncard bn) (mkFactor bn v (v :: f_parents d) card st (f_cptl d))).
  { constructor; simpl f_scope; simpl f_card; simpl f_stride; simpl f_cpt.
    - assumption.
    - apply NoDup_Permutation; [apply NoDup_dkeys_dict_of|assumption|].
      intros x. unfold card. rewrite In_dkeys_dict_of. rewrite map_map. cbn [fst]. now rewrite map_id.
    - rewrite Keys. simpl. reflexivity.
    - intros w Hw. now apply Hcard.
    - intros w Hw. rewrite <- Ep in Hw. destruct (wn_vals _ W w (HF w Hw)) as [_ NE].
      unfold nvalues in NE. unfold ncard. destruct (dget (bn_F bn) w); [|congruence].
      destruct (f_values f); [congruence|simpl; lia].
    - exists (v :: f_parents d). split; [reflexivity|assumption].
    - rewrite <- Ec, <- Ep. now apply (wn_cpt _ W). }
  split; [reflexivity|]. split; [reflexivity|]. split; [reflexivity|]. split; [reflexivity|].
  split; [exact Run1|]. split; [exact Wf|].
  intros a V. destruct (lookup_some _ _ _ Wf V) as [x Ex]. rewrite Ex. f_equal.
  unfold cond_prob. unfold lookup in Ex. rewrite offset_dot in Ex. simpl f_scope in Ex. simpl f_stride in Ex. simpl f_cpt in Ex.
  rewrite (running_dot _ _ _ _ _ Run1), Nat.mul_1_l in Ex. rewrite Ec, Ep, Ex. reflexivity.
Qed.
