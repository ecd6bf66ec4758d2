(** Properties_IO.v -- C48-C50, C78-C81: files. *)
From Verif Require Import Py Num Text BayesNet SpecFactor SpecGraph Radix Graph GraphNet GraphCheck NaiveFacts HeapEdit IO SpecIO BifFacts BifNet JsonFacts Examples Properties_Graph.
From Coq Require Import Ascii.
Open Scope nat_scope.
Open Scope string_scope.

(** ** C50: read_bif *)
(** exactly what is read from the text of a document, whatever the numbers of values *)
Theorem C50_read : forall fuel o fl count d, good o -> bif_ok count d ->
  (forall p r x, In p (d_probs d) -> In r (bp_rows p) -> In x (taken d p r) -> fl x <> None) ->
  exists bn, read_bif fuel o fl (print_bif count d) = Ok bn /\
    Permutation (dkeys (bn_F bn)) (map NStr (map bv_name (d_vars d))) /\ dkeys (bn_E bn) = dkeys (bn_F bn) /\
    (forall p, In p (d_probs d) -> dget (bn_F bn) (NStr (bp_child p)) =
       Some (mkF (map NStr (bp_parents p)) (map NStr (vals_of d (bp_child p))) (concat (map (fun r => map (num fl) (taken d p r)) (bp_rows p))))) /\
    (forall u v, edge (bn_E bn) u v <-> exists a b, u = NStr a /\ v = NStr b /\ doc_edge d a b) /\
    topsort (bn_E bn) None = Ok (bn_V bn).
Proof.
  intros fuel o fl count d Go K H. rewrite read_bif_eq by assumption. rewrite tables_ok by assumption. cbn [bind].
  destruct (bif_network_ok count d (tables fl d) o K Go) as (bn & E & PF & KE & DF & _ & EE & TV); [unfold tables; now rewrite map_length|].
  exists bn. split; [exact E|]. split; [exact PF|]. split; [exact KE|]. split; [|auto]. intros p Hp. apply (DF p _ (in_tables fl d p Hp)).
Qed.
Print Assumptions C50_read.
(** ... and otherwise ValueError *)
Theorem C50_value_error : forall fuel o fl count d, bif_ok count d ->
  (exists p r x, In p (d_probs d) /\ In r (bp_rows p) /\ In x (taken d p r) /\ fl x = None) ->
  read_bif fuel o fl (print_bif count d) = Raise ValueError.
Proof. intros fuel o fl count d K H. rewrite read_bif_eq by assumption. now rewrite tables_bad. Qed.
Print Assumptions C50_value_error.
(** the natural claim, when every node with parents has as many values as the variable declared last:
    the network is well formed and P(child | parents) is the number in the row labelled with the parent values *)
Theorem C50_network : forall fuel o fl count d, good o -> bif_ok count d -> bif_net fl d ->
  (forall v, ~ clos_trans string (doc_edge d) v v) ->
  (forall p, In p (d_probs d) -> bp_parents p <> [] -> length (vals_of d (bp_child p)) = last_card d) ->
  exists bn, read_bif fuel o fl (print_bif count d) = Ok bn /\ wfnet bn /\ agree bn /\
    Permutation (bn_V bn) (map NStr (map bv_name (d_vars d))) /\
    (forall p, In p (d_probs d) -> nparents bn (NStr (bp_child p)) = map NStr (bp_parents p) /\ nvalues bn (NStr (bp_child p)) = map NStr (vals_of d (bp_child p))) /\
    (forall p r j x a, In p (d_probs d) -> In r (bp_rows p) -> nth_error (snd r) j = Some x -> a (NStr (bp_child p)) = j ->
       valid (ncard bn) (map NStr (bp_parents p)) a -> fst r = map (fun q => nth (a (NStr q)) (vals_of d q) "") (bp_parents p) ->
       cond_prob bn (NStr (bp_child p)) a = Some (num fl x)).
Proof.
  intros fuel o fl count d Go K B Ac Cd.
  assert (Tk : forall p r, In p (d_probs d) -> In r (bp_rows p) -> taken d p r = snd r).
  { intros p r Hp Hr. unfold taken. destruct (bp_parents p) as [|q qs] eqn:Ep; [reflexivity|]. assert (Hc : length (vals_of d (bp_child p)) = last_card d) by (apply Cd; [exact Hp|rewrite Ep; discriminate]).
    destruct (bn_nums _ _ B p r Hp Hr) as [Ln _]. apply last_n_app; [congruence|]. rewrite <- Hc.
    assert (Hn : In (bp_child p) (map bv_name (d_vars d))) by (eapply Permutation_in; [apply (bo_probs _ _ K)|now apply in_map]).
    apply in_map_iff in Hn as (b & Eb & Hb). rewrite <- Eb. unfold vals_of. destruct (find (fun b0 => String.eqb (bv_name b0) (bv_name b)) (d_vars d)) as [b'|] eqn:Ef.
    - apply find_some in Ef as [Hb' _]. destruct (bn_vals _ _ B b' Hb') as [_ NE]. destruct (bv_vals b'); [congruence|discriminate].
    - eapply find_none in Ef; [|exact Hb]. simpl in Ef. rewrite String.eqb_refl in Ef. discriminate. }
  rewrite read_bif_eq by assumption. rewrite tables_ok.
  2:{ intros p r x Hp Hr. rewrite Tk by assumption. apply (bn_nums _ _ B p r Hp Hr). }
  cbn [bind]. destruct (bif_network_ok count d (tables fl d) o K Go) as (bn & E & PF & KE & DF & _ & EE & TV); [unfold tables; now rewrite map_length|].
  exists bn. split; [exact E|]. destruct (doc_network count fl d bn K B Ac Tk PF KE DF EE TV) as (PV & W & Ag & NV & CP). auto 10.
Qed.
Print Assumptions C50_network.

(** an example document: cancer.bif cut down to three nodes *)
Definition fl0 (s : string) : option Qc :=
  if String.eqb s "0.9" then Some (qq 9 10) else if String.eqb s "0.1" then Some (qq 1 10) else
  if String.eqb s "0.3" then Some (qq 3 10) else if String.eqb s "0.7" then Some (qq 7 10) else
  if String.eqb s "0.2" then Some (qq 2 10) else if String.eqb s "0.5" then Some (qq 1 2) else None.
Definition two (_ : bvar) : string := "2".
Definition docC : bifdoc := mkDoc [mkBV "Pollution" ["low"; "high"]; mkBV "Smoker" ["True"; "False"]; mkBV "Cancer" ["True"; "False"]]
  [mkBP "Pollution" [] [([], ["0.9"; "0.1"])]; mkBP "Smoker" [] [([], ["0.3"; "0.7"])];
   mkBP "Cancer" ["Pollution"; "Smoker"] [(["low"; "True"], ["0.3"; "0.7"]); (["high"; "True"], ["0.5"; "0.5"]); (["low"; "False"], ["0.1"; "0.9"]); (["high"; "False"], ["0.2"; "0.7"])]].
Definition rankC (s : string) : nat := if String.eqb s "Cancer" then 1 else 0.
Example C50_nonvacuous1 : bif_ok two docC. Proof. apply bif_okb_ok. vm_compute. reflexivity. Qed.
Example C50_nonvacuous2 : bif_net fl0 docC. Proof. apply bif_netb_ok. vm_compute. reflexivity. Qed.
Example C50_nonvacuous3 : (forall v, ~ clos_trans string (doc_edge docC) v v) /\ (forall p, In p (d_probs docC) -> bp_parents p <> [] -> length (vals_of docC (bp_child p)) = last_card docC).
Proof.
  split.
  - apply (rank_acyclic docC rankC). intros u v (p & Hp & <- & Hu). simpl in Hp. destruct Hp as [<-|[<-|[<-|[]]]]; simpl in Hu; [destruct Hu|destruct Hu|]. destruct Hu as [<-|[<-|[]]]; vm_compute; lia.
  - intros p Hp _. simpl in Hp. destruct Hp as [<-|[<-|[<-|[]]]]; reflexivity.
Qed.
(** different numbers of values.  The variable declared last is binary, the child is ternary: the first
    number of every row is dropped, and the network read is not well formed *)
Definition doc23 : bifdoc := mkDoc [mkBV "C" ["x"; "y"; "z"]; mkBV "A" ["a"; "b"]]
  [mkBP "A" [] [([], ["0.9"; "0.1"])]; mkBP "C" ["A"] [(["a"], ["0.1"; "0.2"; "0.7"]); (["b"], ["0.3"; "0.2"; "0.5"])]].
Theorem C50_fewer_refuted : exists count d fl bn, bif_ok count d /\ bif_net fl d /\ (forall v, ~ clos_trans string (doc_edge d) v v) /\
  read_bif 0 id_oracle fl (print_bif count d) = Ok bn /\ ~ wfnet bn /\ ncpt bn (NStr "C") = [qq 2 10; qq 7 10; qq 2 10; qq 1 2].
Proof.
  exists two, doc23, fl0. eexists. split; [apply bif_okb_ok; vm_compute; reflexivity|]. split; [apply bif_netb_ok; vm_compute; reflexivity|]. split.
  { apply (rank_acyclic doc23 (fun s => if String.eqb s "C" then 1 else 0)). intros u v (p & Hp & <- & Hu). simpl in Hp. destruct Hp as [<-|[<-|[]]]; simpl in Hu; [destruct Hu|]. destruct Hu as [<-|[]]; vm_compute; lia. }
  split; [vm_compute; reflexivity|]. split; [|vm_compute; reflexivity].
  intros W. pose proof (wn_cpt _ W (NStr "C") ltac:(vm_compute; tauto)) as H. vm_compute in H. discriminate.
Qed.
Print Assumptions C50_fewer_refuted.
(** the variable declared last has three values, the child two: the row label is taken for a number *)
Definition doc32 : bifdoc := mkDoc [mkBV "C" ["x"; "y"]; mkBV "A" ["a"; "b"; "c"]]
  [mkBP "A" [] [([], ["0.9"; "0.1"; "0.5"])]; mkBP "C" ["A"] [(["a"], ["0.1"; "0.9"]); (["b"], ["0.3"; "0.7"]); (["c"], ["0.5"; "0.5"])]].
Theorem C50_more_refuted : exists count d fl, bif_ok count d /\ bif_net fl d /\ (forall v, ~ clos_trans string (doc_edge d) v v) /\
  forall fuel o, read_bif fuel o fl (print_bif count d) = Raise ValueError.
Proof.
  exists two, doc32, fl0. split; [apply bif_okb_ok; vm_compute; reflexivity|]. split; [apply bif_netb_ok; vm_compute; reflexivity|]. split.
  { apply (rank_acyclic doc32 (fun s => if String.eqb s "C" then 1 else 0)). intros u v (p & Hp & <- & Hu). simpl in Hp. destruct Hp as [<-|[<-|[]]]; simpl in Hu; [destruct Hu|]. destruct Hu as [<-|[]]; vm_compute; lia. }
  intros fuel o. apply C50_value_error; [apply bif_okb_ok; vm_compute; reflexivity|].
  exists (mkBP "C" ["A"] [(["a"], ["0.1"; "0.9"]); (["b"], ["0.3"; "0.7"]); (["c"], ["0.5"; "0.5"])]), (["a"], ["0.1"; "0.9"]), "a". vm_compute. auto 10.
Qed.
Print Assumptions C50_more_refuted.
(** a node whose name contains the word "variable" is misread: its table declares a node called "(" instead *)
Definition docV : bifdoc := mkDoc [mkBV "variables" ["a"; "b"]] [mkBP "variables" [] [([], ["0.9"; "0.1"])]].
Theorem C50_keyword_refuted : exists count d fl bn, bif_net fl d /\ (forall v, In v (d_vars d) -> token (bv_name v)) /\
  read_bif 0 id_oracle fl (print_bif count d) = Ok bn /\ In (NStr "(") (bn_V bn) /\ ncpt bn (NStr "variables") = [].
Proof.
  exists two, docV, fl0. eexists. split; [apply bif_netb_ok; vm_compute; reflexivity|]. split; [intros v [<-|[]]; apply tokenb_ok; reflexivity|].
  split; [vm_compute; reflexivity|]. split; [vm_compute; tauto|reflexivity].
Qed.
Print Assumptions C50_keyword_refuted.

(** ** C78: a file that ends inside the table of a node with parents is never finished reading *)
(** the text of any document without its last line, the closing brace of that table: the reader keeps reading '' *)
Theorem C78_truncated_diverges : forall fuel o fl count d ps p, bif_ok count d -> d_probs d = (ps ++ [p])%list -> bp_parents p <> [] ->
  (forall p r x, In p (d_probs d) -> In r (bp_rows p) -> In x (taken d p r) -> fl x <> None) ->
  read_bif fuel o fl (removelast (print_bif count d)) = Raise OutOfFuel.
Proof. intros fuel o fl count d ps p. apply truncated. Qed.
Print Assumptions C78_truncated_diverges.
Example C78_nonvacuous : read_bif 1000 id_oracle fl0 (removelast (print_bif two docC)) = Raise OutOfFuel /\ last (print_bif two docC) "" = "}" ++ nl.
Proof. split; vm_compute; reflexivity. Qed.

(** ** C79: the row labels of a .bif table *)
(** are ignored: documents that differ only in labels are read as the same network (when the rows are long enough that no label is taken for a number) *)
Theorem C79_labels_ignored : forall fuel o fl count d d', bif_ok count d -> bif_ok count d' -> d_vars d' = d_vars d -> 0 < last_card d ->
  Forall2 (fun p p' => bp_child p' = bp_child p /\ bp_parents p' = bp_parents p /\ map snd (bp_rows p') = map snd (bp_rows p)) (d_probs d) (d_probs d') ->
  (forall p r, In p (d_probs d) -> In r (bp_rows p) -> last_card d <= length (snd r)) ->
  read_bif fuel o fl (print_bif count d') = read_bif fuel o fl (print_bif count d).
Proof.
  intros fuel o fl count d d' K K' EV Pos F L. rewrite !read_bif_eq by assumption.
  assert (EL : last_card d' = last_card d) by (unfold last_card; now rewrite EV). rewrite EL. unfold final. assert (EI : initial d' = initial d) by (unfold initial; now rewrite EV). rewrite EI.
  set (k := last_card d) in *. generalize (initial d) as st. clear EI EL EV K K'. 
  assert (G : forall l l', Forall2 (fun p p' => bp_child p' = bp_child p /\ bp_parents p' = bp_parents p /\ map snd (bp_rows p') = map snd (bp_rows p)) l l' ->
     (forall p r, In p l -> In r (bp_rows p) -> k <= length (snd r)) ->
     mapM (table_read fl k) l' = mapM (table_read fl k) l /\ forall tabs st, add_tables st (combine l' tabs) = add_tables st (combine l tabs)).
  { clear -Pos. intros l l' F. induction F as [|p p' l l' (E1 & E2 & E3) F IH]; intros L; [split; reflexivity|].
    destruct IH as [I1 I2]; [intros q r Hq; apply L; now right|]. split.
    - cbn [mapM]. rewrite I1. replace (table_read fl k p') with (table_read fl k p); [reflexivity|]. unfold table_read.
      assert (Lp : forall r, In r (bp_rows p) -> k <= length (snd r)) by (intros r; apply L; now left). unfold takes. rewrite E2.
      assert (Q : forall rows : list (list string * list string), (forall r, In r rows -> k <= length (snd r)) ->
         mapM (fun r => floats fl (match bp_parents p with [] => snd r | _ => last_n k (fst r ++ snd r)%list end)) rows =
         mapM (fun ns => floats fl (match bp_parents p with [] => ns | _ => skipn (length ns - k) ns end)) (map snd rows)).
      { intros rows H. induction rows as [|r rows IHr]; [reflexivity|]. cbn [map mapM]. rewrite IHr by (intros; apply H; now right). destruct (bp_parents p) as [|q qs]; [reflexivity|].
        unfold last_n. destruct (Nat.eqb_spec k 0) as [|_]; [lia|]. rewrite app_length, skipn_app.
        assert (k <= length (snd r)) by (apply H; now left). replace (length (fst r) + length (snd r) - k - length (fst r)) with (length (snd r) - k) by lia.
        rewrite (skipn_all2 (fst r)) by lia. reflexivity. }
      rewrite (Q (bp_rows p) Lp), (Q (bp_rows p')), E3; [reflexivity|].
      intros r Hr. apply (in_map snd) in Hr. rewrite E3 in Hr. apply in_map_iff in Hr as (r0 & <- & Hr0). auto.
    - intros [|t tabs] st; [reflexivity|]. cbn [combine]. unfold add_tables in *. cbn [fold_left]. rewrite I2. unfold add_table at 2 4. cbn [fst snd]. rewrite E1, E2. reflexivity. }
  destruct (G _ _ F L) as [G1 G2]. intros st. rewrite G1. destruct (mapM (table_read fl k) (d_probs d)) as [tabs|e]; [|reflexivity]. cbn [bind]. now rewrite G2.
Qed.
Print Assumptions C79_labels_ignored.
(** so a file with the same rows in another order describes the same distribution but is read as another network *)
Definition docA : bifdoc := mkDoc [mkBV "A" ["a"; "b"]; mkBV "C" ["x"; "y"]] [mkBP "A" [] [([], ["0.9"; "0.1"])]; mkBP "C" ["A"] [(["a"], ["0.1"; "0.9"]); (["b"], ["0.3"; "0.7"])]].
Definition docB : bifdoc := mkDoc [mkBV "A" ["a"; "b"]; mkBV "C" ["x"; "y"]] [mkBP "A" [] [([], ["0.9"; "0.1"])]; mkBP "C" ["A"] [(["b"], ["0.3"; "0.7"]); (["a"], ["0.1"; "0.9"])]].
Theorem C79_order_refuted : exists count d d' fl bn bn', bif_ok count d /\ bif_ok count d' /\ d_vars d' = d_vars d /\
  Forall2 (fun p p' => bp_child p' = bp_child p /\ bp_parents p' = bp_parents p /\ Permutation (bp_rows p') (bp_rows p)) (d_probs d) (d_probs d') /\
  read_bif 0 id_oracle fl (print_bif count d) = Ok bn /\ read_bif 0 id_oracle fl (print_bif count d') = Ok bn' /\ ncpt bn (NStr "C") <> ncpt bn' (NStr "C").
Proof.
  exists two, docA, docB, fl0. do 2 eexists. split; [apply bif_okb_ok; vm_compute; reflexivity|]. split; [apply bif_okb_ok; vm_compute; reflexivity|]. split; [reflexivity|]. split.
  - repeat constructor.
  - split; [vm_compute; reflexivity|]. split; [vm_compute; reflexivity|]. intros H. vm_compute in H. discriminate.
Qed.
Print Assumptions C79_order_refuted.

(** ** C48: write_bn then read_bn *)
(** every child is declared, names are strings: E and F are read back as they were, and the nodes are topsort(E),
    whatever list of nodes was written *)
Theorem C48_roundtrip : forall o bn, good o -> closed_edges (bn_E bn) -> NoDup (dkeys (bn_F bn)) ->
  (forall k, In k (dkeys (bn_E bn)) \/ In k (dkeys (bn_F bn)) -> exists s, k = NStr s) ->
  exists bn', read_json o (Some (write_json bn)) = Ok bn' /\ Permutation (bn_E bn') (bn_E bn) /\ Permutation (bn_F bn') (bn_F bn) /\
    (forall v, dget (bn_E bn') v = dget (bn_E bn) v) /\ (forall v, dget (bn_F bn') v = dget (bn_F bn) v) /\
    topsort (bn_E bn') None = Ok (bn_V bn') /\ NoDup (bn_V bn') /\
    (forall v, In v (bn_V bn') <-> exists r, parentless (bn_E bn) r /\ reach (bn_E bn) r v).
Proof.
  intros o bn G [NE CE] NF St. rewrite read_write_json; rewrite !rekey_str by (intros; apply St; auto); [|assumption|assumption]. cbn zeta.
  set (E := reorder (sub o 0) (bn_E bn)). set (F := reorder (sub o 1) (bn_F bn)).
  assert (PE : Permutation E (bn_E bn)) by (apply reorder_perm; [now apply good_sub|exact NE]).
  assert (PF : Permutation F (bn_F bn)) by (apply reorder_perm; [now apply good_sub|exact NF]).
  assert (DE : forall v, dget E v = dget (bn_E bn) v) by (intros v; now apply dget_perm).
  assert (DF : forall v, dget F v = dget (bn_F bn) v) by (intros v; now apply dget_perm).
  assert (EE : forall u v, edge E u v <-> edge (bn_E bn) u v) by (intros u v; unfold edge; now rewrite DE).
  assert (KE : Permutation (dkeys E) (dkeys (bn_E bn))) by (apply Permutation_map, PE).
  assert (CE' : closed_edges E).
  { split; [eapply Permutation_NoDup; [symmetry; exact KE|exact NE]|]. intros u v H. eapply Permutation_in; [symmetry; exact KE|]. apply EE in H. eapply CE; eassumption. }
  destruct (C20_topsort_reachable E CE') as (V & EV & NV & RV). rewrite EV. cbn [bind]. eexists. split; [reflexivity|]. cbn [bn_E bn_F bn_V].
  split; [exact PE|]. split; [exact PF|]. split; [exact DE|]. split; [exact DF|]. split; [exact EV|]. split; [exact NV|].
  assert (RE : forall r v, reach E r v <-> reach (bn_E bn) r v).
  { intros r v. unfold reach. split; intros H; (induction H as [x y H| |x y z _ I1 _ I2]; [apply rt_step; now apply EE|apply rt_refl|eapply rt_trans; eassumption]). }
  intros v. rewrite RV. split; intros (r & [Pr Nr] & H); exists r; (split; [split|now apply RE]).
  - eapply Permutation_in; [exact KE|exact Pr].
  - intros u Hu. apply (Nr u). now apply EE.
  - eapply Permutation_in; [symmetry; exact KE|exact Pr].
  - intros u Hu. apply (Nr u). now apply EE.
Qed.
Print Assumptions C48_roundtrip.
(** the same distribution: for an acyclic well-formed network *)
Theorem C48_distribution : forall o bn, good o -> wfnet bn -> closed_edges (bn_E bn) -> acyclic (bn_E bn) -> Permutation (bn_V bn) (dkeys (bn_E bn)) -> NoDup (dkeys (bn_F bn)) ->
  (forall k, In k (dkeys (bn_E bn)) \/ In k (dkeys (bn_F bn)) -> exists s, k = NStr s) ->
  exists bn', read_json o (Some (write_json bn)) = Ok bn' /\ wfnet bn' /\ Permutation (bn_V bn') (bn_V bn) /\
    (forall v, nparents bn' v = nparents bn v /\ nvalues bn' v = nvalues bn v /\ forall a, cond_prob bn' v a = cond_prob bn v a) /\
    (forall a, joint bn' a = joint bn a) /\ (agree bn -> agree bn').
Proof.
  intros o bn G W CE AC PV NF St. destruct (C48_roundtrip o bn G CE NF St) as (bn' & E & PE & PF & DE & DF & TV & NV & RV). exists bn'. split; [exact E|].
  assert (PVV : Permutation (bn_V bn') (bn_V bn)).
  { destruct (C20_topsort_acyclic (bn_E bn) CE AC) as (l & El & Pl). destruct (C20_topsort_reachable (bn_E bn) CE) as (l' & El' & Nl' & Rl). rewrite El in El'. injection El' as <-.
    rewrite PV, <- Pl. apply NoDup_Permutation; [exact NV|exact Nl'|]. intros v. now rewrite RV, Rl. }
  assert (IV : forall v, In v (bn_V bn') <-> In v (bn_V bn)) by (intros v; split; apply Permutation_in; [exact PVV|now symmetry]).
  assert (HP : forall v, nparents bn' v = nparents bn v) by (intros v; unfold nparents; now rewrite DF).
  assert (HV : forall v, nvalues bn' v = nvalues bn v) by (intros v; unfold nvalues; now rewrite DF).
  assert (HT : forall v, ncpt bn' v = ncpt bn v) by (intros v; unfold ncpt; now rewrite DF).
  assert (HC : forall v, ncard bn' v = ncard bn v) by (intros v; unfold ncard; now rewrite DF).
  assert (HR : forall l a, radix (ncard bn') l a = radix (ncard bn) l a) by (intros l a; induction l as [|x l IH]; simpl; [reflexivity|]; now rewrite IH, HC).
  assert (HCP : forall v a, cond_prob bn' v a = cond_prob bn v a) by (intros v a; unfold cond_prob; now rewrite HT, HP, HR).
  split; [|split; [exact PVV|split; [auto|split]]].
  - constructor; [exact NV| | | | |]; intros v Hv; apply IV in Hv; rewrite ?HP, ?HV, ?HT.
    + rewrite DF. now apply (wn_F _ W).
    + now apply (wn_scope _ W).
    + intros x Hx. apply IV. now apply (wn_par _ W v).
    + now apply (wn_vals _ W).
    + rewrite (map_ext _ _ HC). now apply (wn_cpt _ W).
  - intros a. unfold joint. rewrite (map_ext _ (fun v => getq (cond_prob bn v a))) by (intros v; now rewrite HCP). apply qprod_perm, Permutation_map, PVV.
  - intros Ag u v Hu Hv. apply IV in Hu, Hv. rewrite HP. unfold edge. rewrite DE. now apply Ag.
Qed.
Print Assumptions C48_distribution.
(** the nodes are not read back: a network whose nodes are listed in topological order can be read back
    with a node before one of its parents *)
Definition exDagNet : bayesnet := mkBN [exA; exB; exC] exDag
  [(exA, mkF [] [nm "0"; nm "1"] [qq 1 2; qq 1 2]); (exB, mkF [exA] [nm "0"; nm "1"] [qq 1 2; qq 1 2; qq 1 4; qq 3 4]);
   (exC, mkF [exA; exB] [nm "0"; nm "1"] [qq 1 2; qq 1 2; qq 1 4; qq 3 4; qq 1 3; qq 2 3; qq 1 8; qq 7 8])].
Example C48_nonvacuous : wfnet exDagNet /\ closed_edges (bn_E exDagNet) /\ acyclic (bn_E exDagNet) /\ Permutation (bn_V exDagNet) (dkeys (bn_E exDagNet)) /\ NoDup (dkeys (bn_F exDagNet)) /\ agree exDagNet /\
  (forall k, In k (dkeys (bn_E exDagNet)) \/ In k (dkeys (bn_F exDagNet)) -> exists s, k = NStr s).
Proof.
  split; [now apply wfnetb_ok|]. split; [now apply closedb_ok|]. split; [now apply acyclicb_ok|]. split; [reflexivity|]. split; [now apply nodupb_ok|]. split; [now apply agreeb_ok|].
  simpl. intros k H. assert (HH : k = exA \/ k = exB \/ k = exC) by intuition. destruct HH as [-> |[-> | ->]]; eexists; reflexivity.
Qed.
Theorem C48_order_refuted : exists bn bn', wfnet bn /\ closed_edges (bn_E bn) /\ acyclic (bn_E bn) /\ agree bn /\ topological (bn_E bn) (bn_V bn) /\
  read_json id_oracle (Some (write_json bn)) = Ok bn' /\ ~ topological (bn_E bn') (bn_V bn').
Proof.
  exists exDagNet. eexists. split; [now apply wfnetb_ok|]. split; [now apply closedb_ok|]. split; [now apply acyclicb_ok|]. split; [now apply agreeb_ok|]. split.
  - intros p v q u Q (c & Ec & Hv). assert (Hu : In u [exA; exB; exC]) by (apply dget_Some_In in Ec; exact Ec).
    destruct p as [|a [|b [|d p]]]; injection Q as; subst; try (destruct p; discriminate);
    destruct Hu as [<-|[<-|[<-|[]]]]; injection Ec as <-; simpl in Hv; intuition (try discriminate); simpl; auto.
  - split; [vm_compute; reflexivity|]. intros T. specialize (T [exA] exC [exB] exB eq_refl). assert (H : In exB [exA]) by (apply T; exists [exC]; split; [reflexivity|now left]). destruct H as [H|[]]. discriminate.
Qed.
Print Assumptions C48_order_refuted.

(** ** C49: networks with integer names (every network learned from data) *)
Theorem C49_keyerror : forall o bn u v, good o -> closed_edges (bn_E bn) -> NoDup (dkeys (bn_F bn)) ->
  (forall k, In k (dkeys (bn_E bn)) \/ In k (dkeys (bn_F bn)) -> exists n, k = NInt n) -> edge (bn_E bn) u v ->
  read_json o (Some (write_json bn)) = Raise KeyError.
Proof.
  intros o bn u v G [NE CE] NF In_ (c & Ec & Hv).
  assert (NE' : NoDup (dkeys (rekey (bn_E bn)))) by (apply NoDup_rekey_int; [intros; apply In_; auto|exact NE]).
  assert (NF' : NoDup (dkeys (rekey (bn_F bn)))) by (apply NoDup_rekey_int; [intros; apply In_; auto|exact NF]).
  rewrite read_write_json by assumption. cbn zeta. set (E := reorder (sub o 0) (rekey (bn_E bn))).
  assert (PE : Permutation E (rekey (bn_E bn))) by (apply reorder_perm; [now apply good_sub|exact NE']).
  assert (KS : forall k, In k (dkeys E) -> exists s, k = NStr s).
  { intros k Hk. eapply Permutation_in in Hk; [|apply Permutation_map; exact PE]. unfold dkeys, rekey in Hk. rewrite map_map in Hk. apply in_map_iff in Hk as (x & <- & _). eexists. reflexivity. }
  assert (NEo : NoDup (dkeys E)) by (eapply Permutation_NoDup; [apply Permutation_map; symmetry; exact PE|exact NE']).
  assert (ED : forall a b, edge E a b -> exists n, b = NInt n).
  { intros a b (d & Ed & Hb). apply dget_In_pair in Ed. eapply Permutation_in in Ed; [|exact PE]. unfold rekey in Ed. apply in_map_iff in Ed as ([k d'] & [= _ <-] & Hk).
    apply In_. left. apply (CE k b). exists d'. split; [now apply dget_NoDup_In|exact Hb]. }
  assert (Ee : dget E (NStr (jkey u)) = Some c).
  { rewrite (dget_perm _ _ _ NE' PE). apply dget_NoDup_In; [exact NE'|]. unfold rekey. apply in_map_iff. exists (u, c). split; [reflexivity|]. now apply dget_In_pair. }
  rewrite (topsort_keyerror E (NStr (jkey u)) v); [reflexivity|exact NEo| | |].
  - split; [eapply dget_Some_In; exact Ee|]. intros w Hw. apply ED in Hw as (n & Hn). discriminate.
  - exists c. auto.
  - intros Hk. apply KS in Hk as (s & ->). destruct (ED (NStr (jkey u)) (NStr s)) as (n & Hn); [exists c; auto|discriminate].
Qed.
Print Assumptions C49_keyerror.
(** without edges it is read back with other names: strings *)
Theorem C49_edgeless_renamed : forall o bn, good o -> closed_edges (bn_E bn) -> NoDup (dkeys (bn_F bn)) ->
  (forall k, In k (dkeys (bn_E bn)) \/ In k (dkeys (bn_F bn)) -> exists n, k = NInt n) -> (forall u v, ~ edge (bn_E bn) u v) ->
  exists bn', read_json o (Some (write_json bn)) = Ok bn' /\ Permutation (bn_V bn') (map (fun k => NStr (jkey k)) (dkeys (bn_E bn))) /\
    forall n, dget (bn_F bn') (NInt n) = None /\ dget (bn_F bn') (NStr (str_nat n)) = dget (bn_F bn) (NInt n).
Proof.
  intros o bn G [NE CE] NF In_ Ne.
  assert (NE' : NoDup (dkeys (rekey (bn_E bn)))) by (apply NoDup_rekey_int; [intros; apply In_; auto|exact NE]).
  assert (NF' : NoDup (dkeys (rekey (bn_F bn)))) by (apply NoDup_rekey_int; [intros; apply In_; auto|exact NF]).
  rewrite read_write_json by assumption. cbn zeta. set (E := reorder (sub o 0) (rekey (bn_E bn))).
  assert (PE : Permutation E (rekey (bn_E bn))) by (apply reorder_perm; [now apply good_sub|exact NE']).
  assert (NEo : NoDup (dkeys E)) by (eapply Permutation_NoDup; [apply Permutation_map; symmetry; exact PE|exact NE']).
  assert (ED : forall a b, ~ edge E a b).
  { intros a b (d & Ed & Hb). apply dget_In_pair in Ed. eapply Permutation_in in Ed; [|exact PE]. unfold rekey in Ed. apply in_map_iff in Ed as ([k d'] & [= _ <-] & Hk).
    apply (Ne k b). exists d'. split; [now apply dget_NoDup_In|exact Hb]. }
  assert (CEo : closed_edges E) by (split; [exact NEo|intros a b H; exfalso; eapply ED; exact H]).
  destruct (C20_topsort_acyclic E CEo) as (V & EV & PV).
  { intros v H. unfold path in H. apply clos_trans_t1n in H. destruct H as [y H|y z H _]; eapply ED; exact H. }
  rewrite EV. cbn [bind]. eexists. split; [reflexivity|]. cbn [bn_V bn_F]. split.
  - rewrite PV. etransitivity; [apply Permutation_map; exact PE|]. unfold rekey. rewrite map_map. unfold dkeys. rewrite map_map. reflexivity.
  - intros n. assert (PF : Permutation (reorder (sub o 1) (rekey (bn_F bn))) (rekey (bn_F bn))) by (apply reorder_perm; [now apply good_sub|exact NF']).
    rewrite !(dget_perm _ _ _ NF' PF). split.
    + apply dget_None. unfold dkeys, rekey. rewrite map_map. intros H. apply in_map_iff in H as (x & H & _). discriminate.
    + destruct (dget (bn_F bn) (NInt n)) as [d|] eqn:Ed.
      * apply dget_NoDup_In; [exact NF'|]. unfold rekey. apply in_map_iff. exists (NInt n, d). split; [reflexivity|]. now apply dget_In_pair.
      * apply dget_None. intros H. unfold dkeys, rekey in H. rewrite map_map in H. apply in_map_iff in H as ([k d] & E1 & Hk). cbn [fst] in E1. injection E1 as E1. apply (in_map fst) in Hk. cbn [fst] in Hk.
        destruct (In_ k (or_intror Hk)) as (m & ->). cbn [jkey] in E1. apply str_nat_inj in E1 as ->. apply dget_None in Ed. contradiction.
Qed.
Print Assumptions C49_edgeless_renamed.
Definition exInt (E : edict) : bayesnet := mkBN [NInt 0; NInt 1] E [(NInt 0, mkF [] [NInt 0; NInt 1] [qq 1 2; qq 1 2]); (NInt 1, mkF [] [NInt 0; NInt 1] [qq 1 2; qq 1 2])].
Definition exInt1 := exInt [(NInt 0, [NInt 1]); (NInt 1, [])].
Definition exInt0 := exInt [(NInt 0, []); (NInt 1, [])].
Example C49_nonvacuous : closed_edges (bn_E exInt1) /\ NoDup (dkeys (bn_F exInt1)) /\ edge (bn_E exInt1) (NInt 0) (NInt 1) /\ (forall k, In k (dkeys (bn_E exInt1)) \/ In k (dkeys (bn_F exInt1)) -> exists n, k = NInt n) /\
  read_json rev_oracle (Some (write_json exInt1)) = Raise KeyError /\ (do b <- read_json rev_oracle (Some (write_json exInt0)) ;; Ok (bn_V b)) = Ok [nm "1"; nm "0"].
Proof.
  split; [now apply closedb_ok|]. split; [now apply nodupb_ok|]. split; [exists [NInt 1]; split; [reflexivity|now left]|]. split; [|split; reflexivity].
  simpl. intros k H. assert (HH : k = NInt 0 \/ k = NInt 1) by intuition. destruct HH as [-> | ->]; eexists; reflexivity.
Qed.

(** ** C80: a .bn file that is not JSON *)
Theorem C80_malformed : forall o, read_json o None = Ok (mkBN [] [] []).
Proof. reflexivity. Qed.
Print Assumptions C80_malformed.

(** ** C81: which format a path selects *)
(** a file that write_bn wrote is read back as JSON exactly when its path does not contain ".bif" *)
Theorem C81_same_format : forall path, write_format path = Bn -> (read_format path = Bn <-> contains ".bif" path = false).
Proof.
  intros path H. unfold write_format in H. destruct (contains ".bn" path) eqn:E; [|discriminate]. unfold read_format. rewrite E.
  destruct (contains ".bif" path); split; congruence.
Qed.
Print Assumptions C81_same_format.
Theorem C81_bif_directory_refuted : exists path, write_format path = Bn /\ read_format path = Bif.
Proof. exists "/data/from.bif/net.bn". split; reflexivity. Qed.
Print Assumptions C81_bif_directory_refuted.
(** only .bn is written; an unknown path is reported and nothing is read or written *)
Theorem C81_unknown : forall path, contains ".bif" path = false -> contains ".bn" path = false -> contains ".mat" path = false ->
  read_format path = Unknown /\ write_format path = Unknown.
Proof. intros path A B C. unfold read_format, write_format. now rewrite A, B, C. Qed.
Print Assumptions C81_unknown.
Example C81_nonvacuous : write_format "asia.bn" = Bn /\ read_format "asia.bn" = Bn /\ read_format "asia.bif" = Bif /\ read_format "m.mat" = Mat /\ read_format "asia.json" = Unknown.
Proof. repeat split. Qed.

(** ** C82: read_mat never reads an edge *)
Theorem C82_edgeless : forall delim ls, exists bn, read_mat delim ls = Ok bn /\ (forall u v, ~ edge (bn_E bn) u v) /\
  (forall v, In v (bn_V bn) <-> exists l, In l ls /\ v = NStr (first_field delim l)) /\ NoDup (bn_V bn) /\
  forall v, In v (bn_V bn) -> dget (bn_F bn) v = Some (mkF [] [] []).
Proof.
  intros delim ls. unfold read_mat. rewrite <- (map_map (fun l => NStr (first_field delim l)) (fun k => (k, []))). set (ks := map _ ls). set (E := dict_of _).
  assert (DE : forall k, dget E k = if mem k ks then Some [] else None) by (intros k; apply (dget_dict_of (fun _ => []))).
  assert (ED : forall a b, ~ edge E a b) by (intros a b (c & Ec & Hb); rewrite DE in Ec; destruct (mem a ks); [injection Ec as <-; destruct Hb|discriminate]).
  assert (CE : closed_edges E) by (split; [apply NoDup_dkeys_dict_of|intros a b H; exfalso; eapply ED; exact H]).
  destruct (C20_topsort_acyclic E CE) as (V & EV & PV).
  { intros v H. unfold path in H. apply clos_trans_t1n in H. destruct H as [y H|y z H _]; eapply ED; exact H. }
  destruct (set_structure_ok E None V CE EV (fun _ _ => Logic.I)) as (bn & Eb & HV & HE & HF). exists bn. split; [exact Eb|]. rewrite HV, HE. split; [exact ED|]. split; [|split].
  - intros v. transitivity (In v (dkeys E)); [split; apply Permutation_in; [exact PV|now symmetry]|]. unfold E. rewrite In_dkeys_dict_of, map_map. cbn [fst]. rewrite map_id. unfold ks. rewrite in_map_iff.
    split; intros (l & A & B); exists l; auto.
  - eapply Permutation_NoDup; [symmetry; exact PV|apply CE].
  - intros v Hv. destruct (HF v Hv) as (d & Ed & Hp & Hc & Hvs). rewrite Ed. destruct d as [p vs c]. cbn [f_parents f_values f_cptl] in *. subst c vs p. f_equal. f_equal.
    assert (Q : forall l, filter (fun p => edge_in E p v) l = []).
    { induction l as [|x l IH]; [reflexivity|]. simpl. destruct (edge_in E x v) eqn:Ex; [|exact IH]. exfalso. eapply ED. apply edge_in_iff. exact Ex. }
    apply Q.
Qed.
Print Assumptions C82_edgeless.
Example C82_nonvacuous : (do bn <- read_mat " " ["A 0 1" ++ nl; "B 0 0" ++ nl] ;; Ok (bn_V bn, bn_E bn)) = Ok ([nm "A"; nm "B"], [(nm "A", []); (nm "B", [])]).
Proof. reflexivity. Qed.
