(** StructFacts.v -- lemmas about the model of the score-based searches. *)
From Verif Require Import Py Num BayesNet SpecFactor Graph SpecGraph GraphTheory GraphTopsort GraphNet GraphFacts GraphCheck Chordal Data SpecLearn ParamLearn
  ParamFacts ParamMain NaiveFacts HeapEdit SpecScore StructScore Properties_Graph.
Open Scope nat_scope.

Lemma qltb_lt a b : qltb a b = true <-> (a < b)%Qc.
Proof. destruct (qltb_spec a b); split; congruence || tauto. Qed.
(** ** one pass *)
Definition good_best (can : move -> Prop) (value : move -> Qc -> Prop) (b : best) : Prop :=
  match b with
  | Some (d, m) => can m /\ value m d /\ (0 < d)%Qc /\ forall m' d', can m' -> value m' d' -> (d' <= d)%Qc
  | None => none_better can value
  end.
Lemma good_best_ext C C' value b : (forall m, C m <-> C' m) -> good_best C value b -> good_best C' value b.
Proof.
  intros H. unfold good_best, none_better. destruct b as [[d m]|].
  - intros (A & B & P & M). split; [now apply H|]. split; [exact B|]. split; [exact P|]. intros m' d' Hm. apply M. now apply H.
  - intros N m d Hm. apply N. now apply H.
Qed.
Lemma delta_Ok mi nrow a b d : delta mi nrow a b = Ok d ->
  exists x y, mi a = Ok x /\ mi b = Ok y /\ d = match x, y with Some x, Some y => Some (nQc nrow * (x - y))%Qc | _, _ => None end.
Proof. unfold delta. intros H. apply bind_Ok in H as (x & Ex & H). apply bind_Ok in H as (y & Ey & H). inversion H. eauto 6. Qed.
Lemma delta_Raise mi nrow a b e : delta mi nrow a b = Raise e -> exists cols, mi cols = Raise e.
Proof. unfold delta. destruct (mi a) eqn:Ea; cbn [bind]; [|intros H; inversion H; subst; eauto]. destruct (mi b) eqn:Eb; cbn [bind]; intros H; inversion H; subst; eauto. Qed.
Lemma gain_Ok mi nrow p m d : gain mi nrow p m = Ok d -> forall q, gains mi nrow p m q <-> d = Some q.
Proof.
  destruct m as [k [u v]]. unfold gain. intros H q. apply bind_Ok in H as (pv & Ep & H).
  unfold getitem in Ep. destruct (dget p v) as [pv'|] eqn:D; [|discriminate]. inversion Ep; subst pv'.
  destruct k.
  - apply delta_Ok in H as (x & y & Ex & Ey & ->). split.
    + intros G. inversion G; subst. replace pv0 with pv in * by congruence. rewrite Ex in *. rewrite Ey in *.
      repeat match goal with Hx : Ok _ = Ok _ |- _ => inversion Hx; subst; clear Hx end. reflexivity.
    + destruct x as [x|], y as [y|]; intros Q; inversion Q; subst. now apply gains_add with pv.
  - apply delta_Ok in H as (x & y & Ex & Ey & ->). split.
    + intros G. inversion G; subst. replace pv0 with pv in * by congruence. unfold without in Ey. rewrite Ex in *. rewrite Ey in *.
      repeat match goal with Hx : Ok _ = Ok _ |- _ => inversion Hx; subst; clear Hx end. reflexivity.
    + destruct x as [x|], y as [y|]; intros Q; inversion Q; subst. now apply gains_del with pv.
  - apply bind_Ok in H as (d1 & E1 & H). apply bind_Ok in H as (d2 & E2 & H). inversion H; subst d.
    apply delta_Ok in E1 as (x & y & Ex & Ey & ->). apply delta_Ok in E2 as (x' & y' & Ex' & Ey' & ->). split.
    + intros G. inversion G; subst. replace pv0 with pv in * by congruence. unfold without in Ey'. rewrite Ex in *. rewrite Ey in *.
      rewrite Ex' in *. rewrite Ey' in *.
      repeat match goal with Hx : Ok _ = Ok _ |- _ => inversion Hx; subst; clear Hx end. reflexivity.
    + destruct x as [x|], y as [y|], x' as [x'|], y' as [y'|]; intros Q; inversion Q; subst. now apply gains_rev with pv.
Qed.
Lemma gain_Raise mi nrow p m e : In (snd (snd m)) (dkeys p) -> gain mi nrow p m = Raise e -> exists cols, mi cols = Raise e.
Proof.
  destruct m as [k [u v]]. cbn [snd]. intros I. unfold gain. destruct (In_dget _ _ I) as (pv & D). unfold getitem. rewrite D. cbn [bind].
  destruct k; [apply delta_Raise|apply delta_Raise|].
  destruct (delta mi nrow (u :: pv) _) as [d1|] eqn:E1; cbn [bind]; [|intros H; inversion H; subst; now apply delta_Raise in E1].
  destruct (delta mi nrow (v :: pv) _) as [d2|] eqn:E2; cbn [bind]; [|intros H; inversion H; subst; now apply delta_Raise in E2].
  discriminate.
Qed.
Lemma improve_ok C (value : move -> Qc -> Prop) b d m : good_best C value b -> (forall q, value m q <-> d = Some q) ->
  good_best (fun m' => C m' \/ m' = m) value (improve b d m).
Proof.
  intros G V. unfold improve. destruct d as [x|].
  - assert (Vx : value m x) by now apply V.
    assert (Vu : forall q, value m q -> q = x) by (intros q Hq; apply V in Hq; congruence).
    destruct (qltb (max_delta b) x) eqn:L.
    + apply qltb_lt in L. destruct b as [[d0 m0]|]; cbn [max_delta] in L; cbn [good_best] in *.
      * destruct G as (G1 & G2 & G3 & G4). split; [now right|]. split; [exact Vx|]. split; [now apply Qclt_trans with d0|].
        intros m' d' [Hm | ->] Hv; [|rewrite (Vu _ Hv); apply Qcle_refl]. apply Qcle_trans with d0; [now apply (G4 m')|now apply Qclt_le_weak].
      * split; [now right|]. split; [exact Vx|]. split; [exact L|].
        intros m' d' [Hm | ->] Hv; [|rewrite (Vu _ Hv); apply Qcle_refl]. apply Qcle_trans with 0%Qc; [now apply (G m')|now apply Qclt_le_weak].
    + assert (L' : (x <= max_delta b)%Qc).
      { destruct (Qclt_le_dec (max_delta b) x) as [H|H]; [|exact H]. apply qltb_lt in H. congruence. }
      destruct b as [[d0 m0]|]; cbn [max_delta] in L'; cbn [good_best] in *.
      * destruct G as (G1 & G2 & G3 & G4). split; [now left|]. split; [exact G2|]. split; [exact G3|].
        intros m' d' [Hm | ->] Hv; [now apply (G4 m')|now rewrite (Vu _ Hv)].
      * intros m' d' [Hm | ->] Hv; [now apply (G m')|now rewrite (Vu _ Hv)].
  - assert (Vn : forall q, ~ value m q) by (intros q Hq; apply V in Hq; discriminate).
    destruct b as [[d0 m0]|]; cbn [good_best] in *.
    + destruct G as (G1 & G2 & G3 & G4). split; [now left|]. split; [exact G2|]. split; [exact G3|].
      intros m' d' [Hm | ->] Hv; [now apply (G4 m')|now apply Vn in Hv].
    + intros m' d' [Hm | ->] Hv; [now apply (G m')|now apply Vn in Hv].
Qed.

Section Pass.
  Context (mi : score) (nrow : nat) (ok : move -> bool) (r : option (list (name * name))) (nodes : list name) (g : gstate).
  Context (SG : search_graph nodes g).
  Notation leg := (legal nodes r (edge (g_c g))).
  Notation value := (gains mi nrow (g_p g)).
  Definition tried (T : best -> name * name -> res best) (k : op) : Prop :=
    forall u v, In u nodes -> In v nodes -> exists c : bool, (c = true <-> leg (k, (u, v)) /\ ok (k, (u, v)) = true) /\
      forall b, T b (u, v) = if c then do d <- gain mi nrow (g_p g) (k, (u, v)) ;; Ok (improve b d (k, (u, v))) else Ok b.
  Lemma key_c u : In u nodes -> exists c, dget (g_c g) u = Some c /\ NoDup c /\ incl c nodes /\ forall v, (mem v c = true <-> edge (g_c g) u v).
  Proof.
    intros Hu. rewrite <- (sg_c _ _ SG) in Hu. destruct (In_dget _ _ Hu) as (c & D). exists c. split; [exact D|].
    destruct (sg_cl _ _ SG u c D) as [N I]. split; [exact N|]. split; [exact I|]. intros v. rewrite mem_In. unfold edge. rewrite D.
    split; [eauto|]. intros (c' & E & H). inversion E; now subst.
  Qed.
  Lemma key_p u : In u nodes -> exists c, dget (g_p g) u = Some c /\ NoDup c /\ incl c nodes /\ forall v, (mem v c = true <-> edge (g_c g) v u).
  Proof.
    intros Hu. rewrite <- (sg_p _ _ SG) in Hu. destruct (In_dget _ _ Hu) as (c & D). exists c. split; [exact D|].
    destruct (sg_pl _ _ SG u c D) as [N I]. split; [exact N|]. split; [exact I|]. intros v. rewrite mem_In, (sg_agree _ _ SG). unfold edge. rewrite D.
    split; [eauto|]. intros (c' & E & H). inversion E; now subst.
  Qed.
  Lemma restricted_ok u v : restricted r u v = true <-> allowed r u v.
  Proof.
    unfold restricted, allowed. destruct r as [l|]; [|tauto]. unfold emem. rewrite existsb_exists. split.
    - intros ([x y] & H & E). unfold edge_eqb in E. cbn [fst snd] in E. apply andb_true_iff in E as [E1 E2]. apply name_eqb_eq in E1, E2. now subst.
    - intros H. exists (u, v). split; [exact H|]. unfold edge_eqb. cbn [fst snd]. now rewrite !name_eqb_refl.
  Qed.
  Lemma no_cycle_neg R : no_cycle R <-> ~ has_cycle R.
  Proof. unfold no_cycle, has_cycle. split; [intros H (v & P); now apply (H v)|intros H v P; apply H; now exists v]. Qed.
  Lemma tried_add : tried (try_add mi nrow ok r g) Addition.
  Proof.
    intros u v Hu Hv. destruct (key_c u Hu) as (cu & Dc & _ & _ & Mc). destruct (C35_add (g_c g) u v (sg_acyclic _ _ SG)) as (cyc & Ec & Hc).
    exists (ok (Addition, (u, v)) && negb (mem v cu) && negb (name_eqb u v) && negb cyc && restricted r u v). split.
    - rewrite !andb_true_iff, !negb_true_iff, restricted_ok. cbn [legal]. rewrite name_eqb_neq, no_cycle_neg.
      change (after (edge (g_c g)) (Addition, (u, v))) with (fun x y => edge (g_c g) x y \/ x = u /\ y = v). rewrite <- Hc, <- Mc.
      rewrite !not_true_iff_false. tauto.
    - intros b. unfold try_add. destruct (ok _); [|reflexivity]. cbn [negb]. rewrite (getitem_Some _ _ _ Dc). cbn [bind].
      destruct (mem v cu); [reflexivity|]. destruct (name_eqb u v); [reflexivity|]. rewrite Ec. cbn [bind]. destruct cyc; [reflexivity|].
      cbn [negb andb]. destruct (restricted r u v); reflexivity.
  Qed.
  Lemma tried_del : tried (try_del mi nrow ok g) Deletion.
  Proof.
    intros u v Hu Hv. destruct (key_c u Hu) as (cu & Dc & _ & _ & Mc).
    exists (ok (Deletion, (u, v)) && mem v cu). split.
    - rewrite !andb_true_iff. cbn [legal]. rewrite <- Mc. tauto.
    - intros b. unfold try_del. destruct (ok _); [|reflexivity]. cbn [negb]. rewrite (getitem_Some _ _ _ Dc). cbn [bind].
      destruct (mem v cu); reflexivity.
  Qed.
  Lemma tried_rev : tried (try_rev mi nrow ok g) Reversal.
  Proof.
    intros u v Hu Hv. destruct (key_c u Hu) as (cu & Dc & _ & _ & Mc). destruct (mem v cu) eqn:Em.
    - assert (Euv : edge (g_c g) u v) by now apply Mc. destruct (C35_reverse (g_c g) v u (sg_acyclic _ _ SG) Euv) as (cyc & Ec & Hc).
      exists (ok (Reversal, (u, v)) && negb cyc). split.
      + rewrite !andb_true_iff, !negb_true_iff. cbn [legal]. rewrite no_cycle_neg.
        change (after (edge (g_c g)) (Reversal, (u, v))) with (fun x y => (edge (g_c g) x y /\ ~ (x = u /\ y = v)) \/ (x = v /\ y = u)). rewrite <- Hc.
        rewrite not_true_iff_false. tauto.
      + intros b. unfold try_rev. destruct (ok _); [|reflexivity]. cbn [negb]. rewrite (getitem_Some _ _ _ Dc). cbn [bind]. rewrite Em. cbn [negb].
        rewrite Ec. cbn [bind]. destruct cyc; reflexivity.
    - exists false. split.
      + split; [discriminate|]. intros [(_ & _ & E & _) _]. apply Mc in E. congruence.
      + intros b. unfold try_rev. destruct (ok _); [|reflexivity]. cbn [negb]. rewrite (getitem_Some _ _ _ Dc). cbn [bind]. now rewrite Em.
  Qed.
  Lemma pass_ok T k : tried T k -> forall l b0 C0, (forall u v, In (u, v) l -> In u nodes /\ In v nodes) -> good_best C0 value b0 ->
    match foldM T l b0 with
    | Ok b => good_best (fun m => C0 m \/ (exists uv, In uv l /\ m = (k, uv) /\ leg m /\ ok m = true)) value b
    | Raise e => exists cols, mi cols = Raise e
    end.
  Proof.
    intros HT l. induction l as [|[u v] l IH]; intros b0 C0 Hl G; cbn [foldM].
    - revert G. apply good_best_ext. intros m. split; [now left|]. intros [H|(uv & [] & _)]. exact H.
    - destruct (Hl u v (or_introl eq_refl)) as [Hu Hv]. destruct (HT u v Hu Hv) as (c & Hc & HTb). rewrite HTb. destruct c.
      + destruct (gain mi nrow (g_p g) (k, (u, v))) as [d|e] eqn:Eg; cbn [bind].
        * pose proof (improve_ok C0 value b0 d (k, (u, v)) G (gain_Ok _ _ _ _ _ Eg)) as G'.
          specialize (IH (improve b0 d (k, (u, v))) _ (fun x y H => Hl x y (or_intror H)) G').
          destruct (foldM T l _) as [b|e]; [|exact IH]. revert IH. apply good_best_ext. intros m. destruct Hc as [Hc _]. specialize (Hc eq_refl). split.
          -- intros [[H| ->]|(uv & I1 & I2 & I3)]; [now left| |]; right; [exists (u, v)|exists uv]; (split; [cbn [In]; tauto|tauto]).
          -- intros [H|(uv & [<-|I1] & I2 & I3)]; [now left; left|subst; now left; right|]. right. exists uv. tauto.
        * apply gain_Raise in Eg; [exact Eg|]. cbn [snd]. now rewrite (sg_p _ _ SG).
      + cbn [bind]. specialize (IH b0 C0 (fun x y H => Hl x y (or_intror H)) G). destruct (foldM T l b0) as [b|e]; [|exact IH].
        revert IH. apply good_best_ext. intros m. split.
        * intros [H|(uv & I1 & I2 & I3)]; [now left|]. right. exists uv. split; [now right|tauto].
        * intros [H|(uv & [<-|I1] & I2 & I3 & I4)]; [now left| |]; [|right; exists uv; tauto]. subst m.
          destruct Hc as [_ Hc]. specialize (Hc (conj I3 I4)). discriminate.
  Qed.
  Lemma scan_ok : match scan mi nrow ok r nodes g with
    | Ok b => good_best (fun m => leg m /\ ok m = true) value b
    | Raise e => exists cols, mi cols = Raise e
    end.
  Proof.
    assert (Hl : forall u v, In (u, v) (pairs_of nodes) -> In u nodes /\ In v nodes) by (intros u v; now rewrite In_pairs_of).
    unfold scan.
    pose proof (pass_ok _ _ tried_add (pairs_of nodes) None (fun _ => False) Hl) as H1.
    specialize (H1 (fun m d (F : False) => match F with end)).
    destruct (foldM (try_add mi nrow ok r g) (pairs_of nodes) None) as [b1|e]; cbn [bind]; [|exact H1].
    pose proof (pass_ok _ _ tried_del (pairs_of nodes) b1 _ Hl H1) as H2.
    destruct (foldM (try_del mi nrow ok g) (pairs_of nodes) b1) as [b2|e]; cbn [bind]; [|exact H2].
    pose proof (pass_ok _ _ tried_rev (pairs_of nodes) b2 _ Hl H2) as H3.
    destruct (foldM (try_rev mi nrow ok g) (pairs_of nodes) b2) as [b3|e]; [|exact H3].
    revert H3. apply good_best_ext. intros m. split.
    - intros [[[[]|(uv & I & E & H)]|(uv & I & E & H)]|(uv & I & E & H)]; exact H.
    - intros [L O]. destruct m as [k [u v]]. assert (I : In (u, v) (pairs_of nodes)) by (apply In_pairs_of; destruct L as (A & B & _); auto).
      destruct k; [left; left; right|left; right|right]; exists (u, v); auto.
  Qed.
End Pass.

(** ** changing the graph *)
Lemma dappend_ok d k l x : dget d k = Some l -> dappend d k x = Ok (dset d k (l ++ [x])).
Proof. intros D. unfold dappend. now rewrite (getitem_Some _ _ _ D). Qed.
Lemma dremove_ok d k l x : dget d k = Some l -> In x l -> dremove d k x = Ok (dset d k (remove1 x l)).
Proof. intros D H. unfold dremove. rewrite (getitem_Some _ _ _ D). cbn [bind]. unfold list_remove. apply mem_In in H. now rewrite H. Qed.
Lemma dset_lists (nodes : list name) d k l : (forall u l, dget d u = Some l -> NoDup l /\ incl l nodes) -> NoDup l -> incl l nodes ->
  forall u l', dget (dset d k l) u = Some l' -> NoDup l' /\ incl l' nodes.
Proof. intros H N I u l'. rewrite dget_dset. destruct (name_eqb u k); [intros Q; inversion Q; subst; auto|apply H]. Qed.
Lemma sg_add_ok nodes g u v : search_graph nodes g -> In u nodes -> In v nodes -> ~ edge (g_c g) u v ->
  no_cycle (after (edge (g_c g)) (Addition, (u, v))) -> exists g', g_add g u v = Ok g' /\ made nodes g (Addition, (u, v)) g'.
Proof.
  intros SG Hu Hv Ne NC. destruct (key_c _ _ SG u Hu) as (c & Dc & Nc & Ic & Mc). destruct (key_p _ _ SG v Hv) as (p & Dp & Np & Ip & Mp).
  unfold g_add. rewrite (dappend_ok _ _ _ v Dc), (dappend_ok _ _ _ u Dp). cbn [bind]. eexists. split; [reflexivity|].
  assert (Ec : forall x y, edge (dset (g_c g) u (c ++ [v])) x y <-> after (edge (g_c g)) (Addition, (u, v)) x y).
  { intros x y. rewrite (edge_dset _ _ _ _ _ _ Dc). cbn [after]. rewrite in_app_iff. split.
    - intros [(-> & [H|[<-|[]]])|[_ H]]; [left; exists c; auto|now right|now left].
    - intros [H|[-> ->]]; [|left; split; [reflexivity|right; now left]]. destruct (name_eq_dec x u) as [-> |N]; [|now right].
      left. split; [reflexivity|]. destruct H as (c' & D' & H). left. congruence. }
  assert (Nv : ~ In v c) by (intros H; apply Ne; exists c; auto).
  assert (Nu : ~ In u p) by (intros H; apply Ne, Mp; now apply mem_In).
  split; [|exact Ec]. constructor; cbn [g_c g_p].
  - apply SG.
  - rewrite dkeys_dset_in; [apply SG|]. now rewrite (sg_c _ _ SG).
  - rewrite dkeys_dset_in; [apply SG|]. now rewrite (sg_p _ _ SG).
  - apply dset_lists; [apply SG|now apply NoDup_snoc|]. intros x Hx. apply in_app_or in Hx as [Hx|[<-|[]]]; auto.
  - apply dset_lists; [apply SG|now apply NoDup_snoc|]. intros x Hx. apply in_app_or in Hx as [Hx|[<-|[]]]; auto.
  - intros x y. rewrite Ec. rewrite (edge_dset _ _ _ _ _ _ Dp). cbn [after]. rewrite in_app_iff. split.
    + intros [H|[-> ->]]; [|left; split; [reflexivity|right; now left]]. destruct (name_eq_dec y v) as [-> |N].
      * left. split; [reflexivity|]. left. apply mem_In. now apply Mp.
      * right. split; [exact N|]. now apply (sg_agree _ _ SG).
    + intros [(-> & [H|[<-|[]]])|[_ H]]; [left; apply Mp; now apply mem_In|now right|left; now apply (sg_agree _ _ SG)].
  - intros w P. apply (NC w). revert P. apply clos_t_incl. intros x y. apply Ec.
Qed.
Lemma sg_del_ok nodes g u v : search_graph nodes g -> In u nodes -> In v nodes -> edge (g_c g) u v ->
  exists g', g_del g u v = Ok g' /\ made nodes g (Deletion, (u, v)) g'.
Proof.
  intros SG Hu Hv He. destruct (key_c _ _ SG u Hu) as (c & Dc & Nc & Ic & Mc). destruct (key_p _ _ SG v Hv) as (p & Dp & Np & Ip & Mp).
  assert (Iv : In v c) by (apply mem_In; now apply Mc). assert (Iu : In u p) by (apply mem_In; now apply Mp).
  unfold g_del. rewrite (dremove_ok _ _ _ v Dc Iv), (dremove_ok _ _ _ u Dp Iu). cbn [bind]. eexists. split; [reflexivity|].
  assert (Ec : forall x y, edge (dset (g_c g) u (remove1 v c)) x y <-> after (edge (g_c g)) (Deletion, (u, v)) x y).
  { intros x y. rewrite (edge_dset _ _ _ _ _ _ Dc). cbn [after]. rewrite Py.In_remove1 by assumption. split.
    - intros [(-> & H & N)|[N H]]; [split; [exists c; auto|intros [_ ?]; auto]|split; [exact H|intros [? _]; auto]].
    - intros [H N]. destruct (name_eq_dec x u) as [-> |Nx]; [|now right]. left. split; [reflexivity|]. split; [|auto].
      destruct H as (c' & D' & H). congruence. }
  split; [|exact Ec]. constructor; cbn [g_c g_p].
  - apply SG.
  - rewrite dkeys_dset_in; [apply SG|]. now rewrite (sg_c _ _ SG).
  - rewrite dkeys_dset_in; [apply SG|]. now rewrite (sg_p _ _ SG).
  - apply dset_lists; [apply SG|now apply Py.NoDup_remove1|]. intros x Hx. apply Py.remove1_incl in Hx. auto.
  - apply dset_lists; [apply SG|now apply Py.NoDup_remove1|]. intros x Hx. apply Py.remove1_incl in Hx. auto.
  - intros x y. rewrite Ec. rewrite (edge_dset _ _ _ _ _ _ Dp). cbn [after]. rewrite Py.In_remove1 by assumption. split.
    + intros [H N]. destruct (name_eq_dec y v) as [-> |Ny].
      * left. split; [reflexivity|]. split; [apply mem_In; now apply Mp|auto].
      * right. split; [exact Ny|]. now apply (sg_agree _ _ SG).
    + intros [(-> & H & N)|[N H]]; [split; [apply Mp; now apply mem_In|intros [? _]; auto]|split; [now apply (sg_agree _ _ SG)|intros [_ ?]; auto]].
  - intros w P. apply (sg_acyclic _ _ SG w). revert P. apply clos_t_incl. intros x y H. apply Ec in H. apply H.
Qed.
Lemma sg_rev_ok nodes g u v : search_graph nodes g -> In u nodes -> In v nodes -> edge (g_c g) u v ->
  no_cycle (after (edge (g_c g)) (Reversal, (u, v))) -> exists g', g_rev g u v = Ok g' /\ made nodes g (Reversal, (u, v)) g'.
Proof.
  intros SG Hu Hv He NC. destruct (sg_del_ok nodes g u v SG Hu Hv He) as (g1 & E1 & SG1 & M1).
  destruct (sg_add_ok nodes g1 v u SG1 Hv Hu) as (g2 & E2 & SG2 & M2).
  - intros H. apply M1 in H as [H _]. apply (sg_acyclic _ _ SG u). apply t_trans with v; now apply t_step.
  - intros w P. apply (NC w). revert P. apply clos_t_incl. intros x y [H|H]; cbn [after]; [left; now apply M1|now right].
  - exists g2. unfold g_rev. rewrite E1. cbn [bind]. split; [exact E2|]. split; [exact SG2|]. intros x y. rewrite M2. cbn [after]. rewrite M1. reflexivity.
Qed.
Lemma apply_move_ok nodes r debug g m : search_graph nodes g -> legal nodes r (edge (g_c g)) m ->
  exists g', apply_move debug g m = Ok g' /\ stepped nodes debug g m g' /\ search_graph nodes g'.
Proof.
  intros SG L. destruct m as [k [u v]]. destruct L as (Hu & Hv & L). unfold apply_move, stepped. cbn [fst]. destruct k.
  - destruct L as (_ & Ne & _ & NC). destruct (sg_add_ok nodes g u v SG Hu Hv Ne NC) as (g' & E & M). exists g'.
    split; [exact E|]. split; [destruct (negb debug); exact M|apply M].
  - destruct (sg_del_ok nodes g u v SG Hu Hv L) as (g' & E & M). exists g'.
    split; [exact E|]. split; [destruct (negb debug); exact M|apply M].
  - destruct L as (He & NC). destruct debug; cbn [negb].
    + destruct (sg_rev_ok nodes g u v SG Hu Hv He NC) as (g' & E & M). exists g'. split; [exact E|]. split; [exact M|apply M].
    + exists g. auto.
Qed.

(** ** the loops *)
Lemma good_best_Some C value d m : good_best C value (Some (d, m)) -> best_of C value m.
Proof. intros (A & B & P & M). split; [exact A|]. exists d. auto. Qed.
Lemma good_best_true C value b : good_best (fun m => C m /\ true = true) value b -> good_best C value b.
Proof. apply good_best_ext. intros m. tauto. Qed.
Lemma hc_loop_ok mi nrow debug r nodes : forall passes g, search_graph nodes g ->
  match hc_loop passes mi nrow debug r nodes g with
  | Ok (log, g') => search_graph nodes g' /\
      climb (fun g m => best_of (legal nodes r (edge (g_c g))) (gains mi nrow (g_p g)) m) (stepped nodes debug)
            (fun g => none_better (legal nodes r (edge (g_c g))) (gains mi nrow (g_p g))) passes g log g'
  | Raise e => exists cols, mi cols = Raise e
  end.
Proof.
  induction passes as [|k IH]; intros g SG; cbn [hc_loop]; [split; [exact SG|constructor]|].
  pose proof (scan_ok mi nrow (fun _ => true) r nodes g SG) as S.
  destruct (scan mi nrow (fun _ => true) r nodes g) as [b|e]; cbn [bind]; [|exact S]. apply good_best_true in S.
  destruct b as [[d m]|].
  - apply good_best_Some in S. destruct (apply_move_ok nodes r debug g m SG (proj1 S)) as (g1 & E1 & St & SG1). rewrite E1. cbn [bind].
    specialize (IH g1 SG1). destruct (hc_loop k mi nrow debug r nodes g1) as [[log g']|e]; cbn [bind fst snd]; [|exact IH].
    destruct IH as [A B]. split; [exact A|]. now apply climb_step with g1.
  - split; [exact SG|]. now apply climb_finished.
Qed.

(** ** the start *)
Definition col_nodes (t : table) : list name := map NInt (seq 0 (t_ncols t)).
Lemma edgeless_keys n : dkeys (edgeless n) = map NInt (seq 0 n).
Proof. unfold edgeless, dkeys. rewrite map_map. reflexivity. Qed.
Lemma edgeless_get n u l : dget (edgeless n) u = Some l -> l = [].
Proof.
  unfold edgeless. induction (seq 0 n) as [|i s IH]; cbn [map dget]; [discriminate|]. destruct (name_eqb u (NInt i)); [congruence|exact IH].
Qed.
Lemma edgeless_edge n u v : ~ edge (edgeless n) u v.
Proof. intros (c & D & H). apply edgeless_get in D. now subst. Qed.
Lemma NoDup_col n : NoDup (map NInt (seq 0 n)).
Proof. apply FinFun.Injective_map_NoDup; [intros a b Q; congruence|apply seq_NoDup]. Qed.
Lemma edgeless_closed n : closed_edges (edgeless n).
Proof. split; [rewrite edgeless_keys; apply NoDup_col|]. intros u v H. now apply edgeless_edge in H. Qed.
Lemma edgeless_acyclic n : acyclic (edgeless n).
Proof. intros v P. induction P as [x y H|]; [now apply edgeless_edge in H|assumption]. Qed.
Lemma edgeless_topsort n : topsort (edgeless n) None = Ok (map NInt (seq 0 n)).
Proof.
  unfold topsort. assert (R : topsort_roots (edgeless n) = map NInt (seq 0 n)).
  { unfold topsort_roots. rewrite edgeless_keys. apply filter_all. intros x _. apply negb_true_iff, Bool.not_true_is_false. intros H.
    apply existsb_exists in H as (p & _ & H). apply edge_in_iff in H. now apply edgeless_edge in H. }
  rewrite R. unfold topsort_from. rewrite topsort_loop_leaves; [reflexivity| | |].
  - unfold topsort_fuel. lia.
  - apply NoDup_col.
  - intros v Hv. split; [intros []|]. rewrite <- edgeless_keys in Hv. destruct (In_dget _ _ Hv) as (l & D). rewrite D. f_equal. now apply edgeless_get in D.
Qed.
Lemma search_start t : search_graph (col_nodes t) (start t).
Proof.
  constructor; cbn [g_c g_p start].
  - apply NoDup_col.
  - apply edgeless_keys.
  - apply edgeless_keys.
  - intros u l D. apply edgeless_get in D. subst. split; [constructor|intros x []].
  - intros u l D. apply edgeless_get in D. subst. split; [constructor|intros x []].
  - intros u v. split; intros H; now apply edgeless_edge in H.
  - apply edgeless_acyclic.
Qed.
Lemma fit_edgeless_ok o t metric : good o -> table_ok t -> t_rows t <> [] ->
  exists bn, fit_edgeless o t metric = Ok bn /\ bn_nodes bn = col_nodes t.
Proof.
  intros G T NR. unfold fit_edgeless.
  rewrite (mapM_ok _ (fun i => colu t i)) by (intros i Hi; apply in_seq in Hi; apply column_ok; [exact T|lia]). cbn [bind].
  destruct (set_structure_ok (edgeless (t_ncols t)) None _ (edgeless_closed _) (edgeless_topsort _)) as (bn & E & HV & HE & HF); [now intros|].
  rewrite E. cbn [bind].
  assert (HP : forall v, In v (bn_V bn) -> nparents bn v = []).
  { intros v Hv. rewrite HV in Hv. destruct (HF v Hv) as (d & D & P & _). unfold nparents. rewrite D, P.
    rewrite (filter_ext_in _ (fun _ => false)); [apply filter_none|]. intros u _. apply Bool.not_true_is_false. intros H.
    apply edge_in_iff in H. now apply edgeless_edge in H. }
  destruct (mle_estimator_ok o bn t) as (bn2 & bn' & E' & _ & V' & EE & K' & H).
  - exact G.
  - constructor.
    + rewrite HV. apply NoDup_col.
    + intros v Hv. rewrite HV in Hv. destruct (HF v Hv) as (d & D & _). eauto.
    + intros v Hv. rewrite HP by assumption. constructor; [intros []|constructor].
    + intros v Hv. rewrite HP by assumption. intros x [].
  - exact T.
  - exact NR.
  - rewrite HV, map_length, seq_length. lia.
  - intros v Hv. rewrite HV in Hv. apply in_map_iff in Hv as (i & <- & Hi). apply in_seq in Hi. cbn [in_cols]. lia.
  - intros v Hv. rewrite HE. rewrite HV in Hv. rewrite <- edgeless_keys in Hv. destruct (In_dget _ _ Hv) as (l & D). eauto.
  - rewrite E'. cbn [bind].
    assert (C : forall v, In v (bn_V bn') -> exists c, bn_cpt bn' v = Ok c).
    { intros v Hv. rewrite V' in Hv. destruct (H v Hv) as (c' & D & _). unfold bn_cpt. rewrite (getitem_Some _ _ _ D). cbn [bind]. eauto. }
    assert (I : info_score_calls bn' metric = Ok tt).
    { unfold info_score_calls, flat_cpt. rewrite (mapM_ok _ (fun v => match bn_cpt bn' v with Ok c => c | Raise _ => [] end)).
      2:{ intros v Hv. destruct (C v Hv) as (c & ->). reflexivity. }
      cbn [bind]. destruct (String.eqb _ _); [reflexivity|]. destruct (String.eqb _ _); [reflexivity|].
      unfold bn_num_params. rewrite (foldM_count _ (fun v => match bn_cpt bn' v with Ok c => length c | Raise _ => 0 end)).
      2:{ intros n v Hv. destruct (C v Hv) as (c & ->). reflexivity. }
      cbn [bind]. unfold bn_num_edges. rewrite (foldM_count _ (fun v => match dget (bn_E bn') v with Some c => length c | None => 0 end)); [reflexivity|].
      intros n v Hv. rewrite V', HV in Hv. rewrite EE, HE. rewrite <- edgeless_keys in Hv. destruct (In_dget _ _ Hv) as (l & D).
      unfold getitem. rewrite D. reflexivity. }
    rewrite I. cbn [bind]. exists bn'. split; [reflexivity|]. unfold bn_nodes. now rewrite V', HV.
Qed.
(** the network that is returned *)
Lemma sg_closed nodes g : search_graph nodes g -> closed_edges (g_c g).
Proof.
  intros SG. split; [rewrite (sg_c _ _ SG); apply SG|]. intros u v (c & D & H). rewrite (sg_c _ _ SG). now apply (sg_cl _ _ SG u c D).
Qed.
Lemma result_ok nodes g : search_graph nodes g -> exists bn, set_structure (g_c g) None = Ok bn /\ Permutation (bn_V bn) nodes /\
  bn_E bn = g_c g /\ graph_ok bn /\ agree bn.
Proof.
  intros SG. pose proof (sg_closed _ _ SG) as C. destruct (C20_topsort_acyclic (g_c g) C (sg_acyclic _ _ SG)) as (V & EV & P).
  destruct (set_structure_ok (g_c g) None V C EV) as (bn & Eb & Hv & He & Hf); [now intros|].
  assert (PV : Permutation (bn_V bn) nodes) by (rewrite Hv, <- (sg_c _ _ SG); apply P).
  assert (ND : NoDup (bn_V bn)) by (apply (Permutation_NoDup (Permutation_sym PV)); apply SG).
  exists bn. split; [exact Eb|]. split; [exact PV|]. split; [exact He|]. split.
  - constructor; [exact ND| |].
    + intros v Iv. apply (Permutation_in v PV) in Iv. destruct (key_c _ _ SG v Iv) as (c & D & N & Ic & _). exists c.
      rewrite He. split; [exact D|]. split; [exact N|]. intros x Hx. apply (Permutation_in x (Permutation_sym PV)). auto.
    + intros v Iv. rewrite Hv in Iv. destruct (Hf v Iv) as (d & D & Pd & _). exists d. split; [exact D|]. rewrite Pd. split.
      * apply NoDup_filter. now rewrite <- Hv.
      * rewrite Hv. intros x Hx. apply filter_In in Hx. apply Hx.
  - intros u v Iu Iv. rewrite Hv in Iu, Iv. destruct (Hf v Iv) as (d & D & Pd & _). unfold nparents. rewrite D, Pd, filter_In, edge_in_iff, He. tauto.
Qed.
