(** Properties_Ilp.v -- theorems C61 and C90: the integer program of ilp_map and the row
    descriptions of cpt_str_idx.  Specification: SpecIlp.v. *)
From Verif Require Import Py Num BayesNet Factor SpecFactor Radix Graph SpecGraph GraphNet GraphCheck SpecInference SampleFacts IO Text SpecIlp Ilp IlpFacts Examples.
Local Open Scope nat_scope.

(** ** C61 *)
(** the integer points of the program are exactly the full assignments *)
Theorem C61_points : forall bn ev, wfnet bn -> graph_ok bn -> agree bn ->
  exists m, ilp_map bn ev = Ok m /\
    forall x, feasible m x <-> exists a, valid (ncard bn) (bn_V bn) a /\ describes bn x a.
Proof.
  intros bn ev W G A. eexists. split; [now apply ilp_closed|]. intros x.
  rewrite (feasible_iff bn ev) by (try assumption; now apply ilp_closed). split.
  - intros (B & H1 & H2 & _). now apply feasible_describes.
  - intros (a & Va & D). now apply (describes_feasible bn x a).
Qed.
Print Assumptions C61_points.
(** every assignment has its point *)
Theorem C61_every_assignment : forall bn ev m a, wfnet bn -> graph_ok bn -> agree bn -> ilp_map bn ev = Ok m ->
  valid (ncard bn) (bn_V bn) a -> exists x, feasible m x /\ describes bn x a.
Proof.
  intros bn ev m a W G A E Va.
  set (x := fun p : var => if snd p =? radix (ncard bn) (fst p :: nparents bn (fst p)) a then 1%Z else 0%Z).
  assert (D : describes bn x a) by (intros v i _ _; reflexivity). exists x. split; [|exact D].
  rewrite (feasible_iff bn ev) by assumption. now apply (describes_feasible bn x a).
Qed.
Print Assumptions C61_every_assignment.
(** whatever the weights, the objective is the total weight of the CPT entries the assignment uses *)
Theorem C61_objective : forall bn ev m w x a, wfnet bn -> graph_ok bn -> agree bn -> ilp_map bn ev = Ok m ->
  valid (ncard bn) (bn_V bn) a -> describes bn x a -> objective w m x = total_weight w bn a.
Proof. intros. eapply objective_at; eassumption. Qed.
Print Assumptions C61_objective.
(** so the solver returns exactly the assignments of least total weight *)
Theorem C61_optimum : forall bn ev m w x, wfnet bn -> graph_ok bn -> agree bn -> ilp_map bn ev = Ok m ->
  (optimal w m x <-> exists a, valid (ncard bn) (bn_V bn) a /\ describes bn x a /\
     forall b, valid (ncard bn) (bn_V bn) b -> (total_weight w bn a <= total_weight w bn b)%Qc).
Proof.
  intros bn ev m w x W G A E.
  assert (F : forall y, feasible m y <-> exists a, valid (ncard bn) (bn_V bn) a /\ describes bn y a).
  { destruct (C61_points bn ev W G A) as (m' & E' & H). rewrite E in E'. injection E' as <-. exact H. }
  split.
  - intros [Fx O]. apply F in Fx as (a & Va & D). exists a. split; [assumption|]. split; [assumption|].
    intros b Vb. destruct (C61_every_assignment bn ev m b W G A E Vb) as (y & Fy & Dy). specialize (O y Fy).
    rewrite (C61_objective bn ev m w x a), (C61_objective bn ev m w y b) in O by assumption. exact O.
  - intros (a & Va & D & O). split; [apply F; eauto|]. intros y Fy. apply F in Fy as (b & Vb & Db).
    rewrite (C61_objective bn ev m w x a), (C61_objective bn ev m w y b) by assumption. auto.
Qed.
Print Assumptions C61_optimum.
(** the evidence argument has no effect ... *)
Theorem C61_evidence_ignored : forall bn ev ev', ilp_map bn ev = ilp_map bn ev'.
Proof. reflexivity. Qed.
Print Assumptions C61_evidence_ignored.
(** ... so the printed explanation can contradict it: for the one-node network P(A=0) = 3/4 and evidence
    A=1, and any weight that prefers likelier entries, every optimum says A=0 *)
Definition exCoin : bayesnet := mkBN [exA] [(exA, [])] [(exA, mkF [] [nm "0"; nm "1"] [qq 3 4; qq 1 4])].
Lemma exCoin_wf : wfnet exCoin. Proof. now apply wfnetb_ok. Qed.
Lemma exCoin_graph : graph_ok exCoin. Proof. now apply graph_okb_ok. Qed.
Lemma exCoin_agree : agree exCoin. Proof. now apply agreeb_ok. Qed.
Theorem C61_evidence_refuted : exists bn ev m, wfnet bn /\ graph_ok bn /\ agree bn /\ ev = [(exA, nm "1")] /\ ilp_map bn ev = Ok m /\
  forall w x, (forall p q, (p < q)%Qc -> (w q < w p)%Qc) -> optimal w m x ->
    exists a, describes bn x a /\ nth_error (nvalues bn exA) (a exA) = Some (nm "0").
Proof.
  exists exCoin, [(exA, nm "1")]. eexists. split; [apply exCoin_wf|]. split; [apply exCoin_graph|]. split; [apply exCoin_agree|]. split; [reflexivity|].
  split; [apply ilp_closed; [apply exCoin_wf|apply exCoin_graph|apply exCoin_agree]|]. intros w x Dec O.
  apply (C61_optimum exCoin [] _ w x exCoin_wf exCoin_graph exCoin_agree) in O; [|apply ilp_closed; [apply exCoin_wf|apply exCoin_graph|apply exCoin_agree]].
  destruct O as (a & Va & D & O). exists a. split; [assumption|].
  assert (V0 : valid (ncard exCoin) (bn_V exCoin) (fun _ => 0)) by (intros v [<-|[]]; vm_compute; lia).
  specialize (O _ V0). specialize (Va exA (or_introl eq_refl)). change (ncard exCoin exA) with 2 in Va.
  destruct (a exA) as [|[|k]] eqn:E; [reflexivity| |lia]. exfalso.
  assert (T : forall b, total_weight w exCoin b = (w (getq (cond_prob exCoin exA b)) + 0)%Qc) by reflexivity.
  rewrite !T in O. assert (C0 : cond_prob exCoin exA (fun _ => 0) = Some (qq 3 4)) by reflexivity.
  assert (C1 : cond_prob exCoin exA a = Some (qq 1 4)).
  { unfold cond_prob. change (nparents exCoin exA) with (@nil name). simpl radix. rewrite E. reflexivity. }
  rewrite C0, C1 in O. cbn [getq] in O. assert (L : (qq 1 4 < qq 3 4)%Qc) by reflexivity. apply Dec in L.
  apply (Qclt_not_le _ _ L). replace (w (qq 1 4)) with (w (qq 1 4) + 0)%Qc by ring. replace (w (qq 3 4)) with (w (qq 3 4) + 0)%Qc by ring. exact O.
Qed.
Print Assumptions C61_evidence_refuted.
Lemma ex3_graph : graph_ok ex3. Proof. now apply graph_okb_ok. Qed.
Lemma ex3_agree : agree ex3. Proof. now apply agreeb_ok. Qed.
(** 20 variables and 31 constraints for the three-node network *)
Example C61_nonvacuous : wfnet ex3 /\ graph_ok ex3 /\ agree ex3 /\ valid (ncard ex3) (bn_V ex3) (fun _ => 1) /\
  exists m, ilp_map ex3 [] = Ok m /\ length (lp_vars m) = 20 /\ length (lp_cons m) = 31.
Proof.
  split; [apply ex3_wf|]. split; [apply ex3_graph|]. split; [apply ex3_agree|]. split.
  { intros v [<-|[<-|[<-|[]]]]; vm_compute; lia. }
  eexists. split; [vm_compute; reflexivity|]. split; reflexivity.
Qed.

(** ** C90 *)
(** the text "rv=value|parent=value,parent=value,..." *)
Definition row_text (bn : bayesnet) (rv : name) (a : asg) : string :=
  let val v := jkey (nth (a v) (nvalues bn v) (NInt 0)) in
  (jkey rv ++ "=" ++ val rv ++ "|" ++ join "," (map (fun p => (jkey p ++ "=" ++ val p)%string) (nparents bn rv)))%string.
Theorem C90_row_text : forall bn rv a, wfnet bn -> In rv (bn_V bn) -> valid (ncard bn) (rv :: nparents bn rv) a ->
  cpt_str_idx bn rv (radix (ncard bn) (rv :: nparents bn rv) a) = Ok (row_text bn rv a).
Proof.
  intros bn rv a W Hv Va. change (rv :: nparents bn rv) with (sc bn rv) in *. set (i := radix (ncard bn) (sc bn rv) a).
  assert (Li : i < len bn rv) by now apply radix_len.
  assert (Ei : i mod ncard bn rv = a rv) by (rewrite <- dg_self by assumption; apply dg_radix; auto; now left).
  unfold cpt_str_idx. rewrite bn_values_ok, bn_card_ok by assumption. cbn [bind]. rewrite pymod_ok by assumption. cbn [bind].
  rewrite nget_ok by assumption. cbn [bind]. rewrite bn_parents_ok by assumption. cbn [bind]. rewrite Ei.
  pose proof (wn_scope _ W rv Hv) as ND.
  match goal with |- bind (foldM ?f ?l ?s) _ = _ => set (step := f) end.
  assert (T : forall p s k, In p (nparents bn rv) -> step (s, k) p =
    Ok ((s ++ jkey p ++ "=" ++ jkey (nv bn p (a p)) ++ (if (k <? length (nparents bn rv))%nat then "," else ""))%string, S k)).
  { intros p s k Hp. assert (Hp' := wn_par _ W rv Hv p Hp). unfold step. rewrite bn_values_ok by assumption. cbn [bind].
    assert (Lp : a p < ncard bn p) by (apply Va; now right).
    destruct (wn_vals _ W p Hp') as [NDp _].
    assert (Nrp : p <> rv) by (intros ->; inversion ND; contradiction).
    assert (Q : forall val, In val (nvalues bn p) -> exists ii, cpt_indices bn rv (dict_of [(rv, nv bn rv (a rv)); (p, val)]) = Ok ii /\
                  (existsb (Nat.eqb i) ii = true <-> used_index bn p val = a p)).
    { intros val Hval. destruct (cpt_indices_ok bn rv (dict_of [(rv, nv bn rv (a rv)); (p, val)]) W Hv) as (ii & E & _ & H).
      { intros y Hy. apply (proj1 (In_dkeys_dict_of _ _)) in Hy. destruct Hy as [<-|[<-|[]]]; [now left|now right]. }
      exists ii. split; [exact E|]. rewrite existsb_exists.
      assert (Ed : dict_of [(rv, nv bn rv (a rv)); (p, val)] = [(rv, nv bn rv (a rv)); (p, val)]).
      { unfold dict_of, dupdate. simpl. apply name_eqb_neq in Nrp. unfold dset. rewrite Nrp. reflexivity. }
      split.
      - intros (j & Hj & Ej). apply Nat.eqb_eq in Ej. subst j. apply H in Hj as (b & Vb & Rb & U).
        assert (X : b p = a p) by (apply (radix_inj (ncard bn) (sc bn rv) b a Vb Va Rb); now right).
        rewrite <- X. symmetry. apply U. rewrite Ed. right. now left.
      - intros U. exists i. split; [|apply Nat.eqb_refl]. apply H. exists a. split; [exact Va|]. split; [reflexivity|].
        intros r x Hin. rewrite Ed in Hin. destruct Hin as [E'|[E'|[]]]; injection E' as <- <-; [rewrite used_nv; auto; apply Va; now left|now symmetry]. }
    assert (Hnv : In (nv bn p (a p)) (nvalues bn p)) by (apply nth_error_In with (a p); now apply nv_ok).
    assert (NDv := NDp). apply in_split in Hnv as (l1 & l2 & El).
    assert (Only : forall val, In val (nvalues bn p) -> val <> nv bn p (a p) -> used_index bn p val <> a p).
    { intros val Hval Nv U. apply Nv. unfold used_index, val_index in U. destruct (index_of_In _ _ Hval) as (j & Hj). rewrite Hj in U. subst j.
      apply index_of_Some in Hj. rewrite nv_ok in Hj by assumption. congruence. }
    assert (Skip : forall l t, incl l (nvalues bn p) -> ~ In (nv bn p (a p)) l ->
       foldM (fun st val => do ii <- cpt_indices bn rv (dict_of [(rv, nv bn rv (a rv)); (p, val)]) ;;
          if existsb (Nat.eqb i) ii then
            Ok ((fst st ++ jkey p ++ "=" ++ jkey val ++ (if (snd st <? length (nparents bn rv))%nat then "," else ""))%string, S (snd st))
          else Ok st) l t = Ok t).
    { induction l as [|y l IH]; intros t I N; [reflexivity|]. cbn [foldM]. destruct (Q y) as (ii & -> & X); [apply I; now left|]. cbn [bind].
      destruct (existsb (Nat.eqb i) ii) eqn:Eb.
      - exfalso. apply (Only y); [apply I; now left|intros ->; apply N; now left|now apply X].
      - cbn [bind]. apply IH; [intros z Hz; apply I; now right|intros C; apply N; now right]. }
    rewrite El, foldM_app, Skip.
    2:{ rewrite El. intros z Hz. apply in_or_app. now left. }
    2:{ rewrite El in NDp. apply NoDup_remove_2 in NDp. intros C. apply NDp. apply in_or_app. now left. }
    cbn [bind foldM]. destruct (Q (nv bn p (a p))) as (ii & -> & X); [rewrite El; apply in_or_app; right; now left|]. cbn [bind].
    assert (Eb : existsb (Nat.eqb i) ii = true) by (apply X; now apply used_nv). rewrite Eb. cbn [bind fst snd].
    apply Skip.
    - rewrite El. intros z Hz. apply in_or_app. right. now right.
    - rewrite El in NDp. apply NoDup_remove_2 in NDp. intros C. apply NDp. apply in_or_app. now right. }
  set (piece := fun p => (jkey p ++ "=" ++ jkey (nv bn p (a p)))%string).
  assert (G : forall l s k, incl l (nparents bn rv) -> k + length l = S (length (nparents bn rv)) ->
     foldM step l (s, k) = Ok ((s ++ join "," (map piece l))%string, k + length l)).
  { induction l as [|p l IH]; intros s k I Ek; cbn [foldM map join length].
    - simpl. now rewrite sapp_nil, Nat.add_0_r.
    - rewrite T by (apply I; now left). cbn [bind]. simpl in Ek. rewrite IH; [|intros z Hz; apply I; now right|lia].
      f_equal. f_equal; [|lia]. destruct (Nat.ltb_spec k (length (nparents bn rv))) as [H|H]; destruct l as [|q l]; simpl in Ek; try lia.
      + cbn [map join]. change (piece p) with (jkey p ++ "=" ++ jkey (nv bn p (a p)))%string. rewrite !sapp_assoc. reflexivity.
      + cbn [map join]. unfold piece. now rewrite !sapp_nil. }
  rewrite G; [|apply incl_refl|simpl; lia]. cbn [bind fst]. f_equal. unfold row_text. rewrite !sapp_assoc. reflexivity.
Qed.
Print Assumptions C90_row_text.
Example C90_nonvacuous : In exC (bn_V ex3) /\ valid (ncard ex3) (exC :: nparents ex3 exC) (fun v => if name_eqb v exB then 2 else 1) /\
  cpt_str_idx ex3 exC 11 = Ok "C=1|A=1,B=2"%string.
Proof.
  split; [right; right; now left|]. split; [|vm_compute; reflexivity]. intros v [<-|[<-|[<-|[]]]]; vm_compute; lia.
Qed.
