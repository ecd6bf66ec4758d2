(** Properties_Look.v -- what a factor prints, and how many factors a factorization holds (C150). *)
From Verif Require Import Py Num BayesNet Factor FactorOut FactorLaws SpecFactor Radix Rounding Factorization SpecInference SpecHistory FzHistory VE VETotal Examples Properties_Factor CliqueTree CliqueExact Properties_Clique Looking.
From Coq Require Import Lia.
Open Scope nat_scope.

(** the text "v | p1, p2, ..." *)
Definition conditional_text (v : string) (ps : list string) : string := (v ++ " | " ++ String.concat ", " ps)%string.

Lemma map_NStr_inj l m : map NStr l = map NStr m -> l = m.
Proof. revert m. induction l as [|a l IH]; intros [|b m] H; try discriminate; [reflexivity|]. injection H as E H. rewrite E. f_equal. now apply IH. Qed.
Lemma as_text_all l t : mapM as_text l = Ok t <-> l = map NStr t.
Proof.
  revert t. induction l as [|[z|x] l IH]; intros t; cbn [mapM as_text bind].
  - destruct t; split; intros H; try reflexivity; discriminate.
  - destruct t; split; intros H; discriminate.
  - destruct (mapM as_text l) as [l'|e] eqn:E; cbn [bind].
    + destruct (IH l') as [K _]. rewrite (K eq_refl). split.
      * intros [= <-]. reflexivity.
      * intros H. destruct t as [|y t]; [discriminate|]. cbn [map] in H. injection H as -> H. f_equal.
        f_equal. now apply map_NStr_inj.
    + split; [discriminate|]. intros H. destruct t as [|y t]; [discriminate|]. cbn [map] in H. injection H as -> H. destruct (IH t) as [_ K]. specialize (K H). rewrite K in E. congruence.
Qed.
Lemma as_text_err l e : mapM as_text l = Raise e -> e = TypeError.
Proof.
  induction l as [|[z|x] l IH]; cbn [mapM as_text bind]; [discriminate|now intros [= <-]|]. destruct (mapM as_text l); cbn [bind]; [discriminate|]. intros [= <-]. auto.
Qed.
(** a factor prints as its variable, a bar and the other variables of its scope; a number among them is a TypeError *)
Theorem C150_printed : forall f,
  (forall v ps, f_var f = NStr v -> filter (fun w => negb (name_eqb w (f_var f))) (f_scope f) = map NStr ps -> factor_str f = Ok (conditional_text v ps)) /\
  (forall t, factor_str f = Ok t -> exists v ps, f_var f = NStr v /\ filter (fun w => negb (name_eqb w (f_var f))) (f_scope f) = map NStr ps /\ t = conditional_text v ps) /\
  (forall e, factor_str f = Raise e -> e = TypeError /\ exists k, In (NInt k) (f_var f :: f_scope f)).
Proof.
  intros f. unfold factor_str, factor_parents. split; [|split].
  - intros v ps Hv Hp. rewrite Hp, Hv. cbn [as_text bind]. destruct (as_text_all (map NStr ps) ps) as [_ K]. rewrite K by reflexivity. reflexivity.
  - intros t H. destruct (f_var f) as [z|v]; [discriminate|]. cbn [as_text bind] in H.
    destruct (mapM as_text _) as [l|] eqn:E; cbn [bind] in H; [|discriminate]. injection H as <-. apply as_text_all in E. exists v, l. auto.
  - intros e H. destruct (f_var f) as [z|v]; cbn [as_text bind] in H; [injection H as <-; split; [reflexivity|]; exists z; now left|].
    destruct (mapM as_text _) as [l|e'] eqn:E; cbn [bind] in H; [discriminate|]. injection H as <-. split; [now apply as_text_err in E|].
    assert (X : forall l, mapM as_text l = Raise e' -> exists k, In (NInt k) l).
    { clear. induction l as [|[z|x] l IH]; cbn [mapM as_text bind]; [discriminate|exists z; now left|]. destruct (mapM as_text l); cbn [bind]; [discriminate|].
      intros [= ->]. destruct (IH eq_refl) as (k & K). exists k. now right. }
    destruct (X _ E) as (k & K). exists k. right. now apply filter_In in K.
Qed.
Print Assumptions C150_printed.
(** the factor of a node prints the node and its parents in order *)
Theorem C150_node : forall bn v f s ps, wfnet bn -> In v (bn_V bn) -> factor_init bn v = Ok f -> v = NStr s -> nparents bn v = map NStr ps ->
  factor_str f = Ok (conditional_text s ps).
Proof.
  intros bn v f s ps W Hv E Es Ep. apply C150_printed.
  - destruct (init_ok bn v W Hv) as (f' & E' & _ & Vr & _). rewrite E in E'. injection E' as <-. now rewrite Vr.
  - change (factor_parents f = map NStr ps). now rewrite (C65_parents bn v f W Hv E).
Qed.
Print Assumptions C150_node.

Lemma out_var_stride cell el o f rv f' s c : dget (f_stride f) rv = Some s -> dget (f_card f) rv = Some c -> out_var cell el o f rv = Ok f' ->
  f_stride f' = shrink_strides (f_stride f) rv s c.
Proof.
  unfold out_var, getitem. intros -> -> H. cbn [bind] in H. destruct (c =? 0); [discriminate|].
  destruct (lower_cards f s) as [p|]; cbn [bind] in H; [|discriminate].
  destruct (out_loop cell (f_cpt f) p s c (length (f_cpt f) / c) 0) as [new|]; cbn [bind] in H; [|discriminate].
  destruct (delitem (f_card f) rv) as [cd'|]; cbn [bind] in H; [|discriminate].
  destruct (list_remove (f_scope f) rv) as [sc'|]; cbn [bind] in H; [|discriminate]. inversion H. reflexivity.
Qed.
Lemma reduce_stride o f rv x f' s c : dget (f_stride f) rv = Some s -> dget (f_card f) rv = Some c -> reduce_factor o f rv x = Ok f' ->
  f_stride f' = shrink_strides (f_stride f) rv s c.
Proof.
  unfold reduce_factor. intros Hs Hc H. unfold getitem at 1 3 in H. rewrite Hs, Hc in H. cbn [bind] in H.
  destruct (c =? 0); [discriminate|]. destruct (getitem (bn_F (f_bn f)) rv) as [d|]; cbn [bind] in H; [|discriminate].
  destruct (list_index (f_values d) x) as [i|]; cbn [bind] in H; [|discriminate].
  destruct (reduce_loop (S (length (f_cpt f) / c)) (f_cpt f) c s (i * s) (length (f_cpt f) / c)) as [new|]; cbn [bind] in H; [|discriminate].
  destruct (delitem (f_card f) rv) as [cd'|]; cbn [bind] in H; [|discriminate].
  destruct (list_remove (f_scope f) rv) as [sc'|]; cbn [bind] in H; [|discriminate]. inversion H. reflexivity.
Qed.
Lemma running_beyond cd st l s w : running cd st l s -> (forall x, In x l -> 2 <= cd x) -> In w l -> exists k, dget st w = Some (s * k) /\ (0 < k) /\ (Some w <> hd_error l -> 2 <= k).
Proof.
  revert s. induction l as [|x l IH]; intros s R C H; [destruct H|]. destruct R as [Rx R].
  destruct (name_eqb_spec w x) as [-> |N].
  - exists 1. rewrite Nat.mul_1_r. split; [assumption|]. split; [lia|]. intros K. now destruct K.
  - destruct H as [->|H]; [congruence|]. destruct (IH _ R (fun y Hy => C y (or_intror Hy)) H) as (k & E & P & _). exists (cd x * k).
    rewrite Nat.mul_assoc. split; [assumption|]. assert (2 <= cd x) by (apply C; now left). split; [nia|]. intros _. nia.
Qed.
(** with the strides of P(v | p, ps), once v is gone the only variable of stride 1 is p *)
Lemma elected_first cd st v p ps o : good o -> NoDup (dkeys st) -> incl (dkeys st) (v :: p :: ps) -> NoDup (v :: p :: ps) -> running cd st (v :: p :: ps) 1 -> 2 <= cd v ->
  (forall x, In x (p :: ps) -> 2 <= cd x) -> elect_var o v v (shrink_strides st v 1 (cd v)) = p.
Proof.
  intros Go ND I N R Cv C. unfold elect_var. rewrite name_eqb_refl.
  assert (F : forall k, In k (filter (fun k => stride_key (shrink_strides st v 1 (cd v)) k =? 1) (ask o (dkeys (shrink_strides st v 1 (cd v))))) <-> k = p).
  { intros k. rewrite filter_In. destruct R as [Rv R]. rewrite Nat.mul_1_l in R. inversion N as [|? ? Nv Np]; subst.
    assert (S : forall k w, In w (p :: ps) -> dget st w = Some (cd v * k) -> stride_key (shrink_strides st v 1 (cd v)) w = (if 1 <? cd v * k then k else cd v * k)).
    { intros j w Hw Ew. unfold stride_key. rewrite dget_shrink by assumption. destruct (name_eqb_spec w v) as [-> |_]; [contradiction|]. rewrite Ew. cbn [option_map].
      destruct (1 <? cd v * j); [|reflexivity]. rewrite Nat.mul_comm, Nat.div_mul by lia. reflexivity. }
    split.
    - intros [K1 K2]. apply Nat.eqb_eq in K2. apply (Permutation_in _ (good_ask o _ Go)) in K1. unfold shrink_strides in K1. rewrite dkeys_ddel in K1.
      rewrite (dkeys_map_snd (fun t => if 1 <? t then t / cd v else t)) in K1. apply In_remove1 in K1 as [K1 Kv]; [|assumption]. apply I in K1. destruct K1 as [K1|K1]; [congruence|].
      destruct (running_beyond cd st (p :: ps) (cd v) k R C K1) as (j & Ej & Pj & Gj). rewrite (S j k K1 Ej) in K2.
      destruct (name_eqb_spec k p) as [|Nk]; [assumption|]. assert (2 <= j) by (apply Gj; cbn; congruence). destruct (Nat.ltb_spec 1 (cd v * j)); nia.
    - intros ->. assert (Hp : In p (p :: ps)) by now left. destruct R as [Rp R]. assert (Ep : dget st p = Some (cd v * 1)) by now rewrite Nat.mul_1_r.
      split; [|rewrite (S 1 p Hp Ep); destruct (Nat.ltb_spec 1 (cd v * 1)); [reflexivity|lia]].
      apply (Permutation_in _ (Permutation_sym (good_ask o _ Go))). unfold shrink_strides. rewrite dkeys_ddel, (dkeys_map_snd (fun t => if 1 <? t then t / cd v else t)). apply In_remove1; [assumption|].
      split; [now apply dget_Some_In in Rp|]. intros ->. apply Nv. now left. }
  destruct (filter _ _) as [|k l]; [destruct (F p) as [_ K]; destruct (K eq_refl)|]. apply F. now left.
Qed.
(** sum a node out of its own table, or observe it: what is left calls itself the first parent's table given the other parents *)
Theorem C150_without_its_variable : forall bn v p ps f o f', wfnet bn -> In v (bn_V bn) -> good o -> factor_init bn v = Ok f -> nparents bn v = p :: ps ->
  (forall w, In w (v :: p :: ps) -> 2 <= ncard bn w) ->
  sumout_var o f v = Ok f' \/ (exists x, reduce_factor o f v x = Ok f') ->
  f_var f' = p /\ factor_parents f' = ps.
Proof.
  intros bn v p ps f o f' W Hv Go E Ep C H. destruct (init_ok bn v W Hv) as (f0 & E0 & Sc & Vr & B & _ & R & Rp). rewrite E in E0. injection E0 as <-.
  rewrite Ep in Sc, R. destruct Rp as [Wf _]. assert (Hin : In v (f_scope f)) by (rewrite Sc; now left). pose proof (wf_nodup _ _ Wf) as ND. rewrite Sc in ND.
  assert (Dc : dget (f_card f) v = Some (ncard bn v)) by now apply (wf_card _ _ Wf). assert (Ds : dget (f_stride f) v = Some 1) by apply R.
  assert (El : elect_var o v v (shrink_strides (f_stride f) v 1 (ncard bn v)) = p).
  { apply (elected_first (ncard bn) _ v p ps); try assumption.
    - apply (Permutation_NoDup (Permutation_sym (wf_skeys _ _ Wf))). now rewrite Sc.
    - intros w Hw. apply (Permutation_in _ (wf_skeys _ _ Wf)) in Hw. now rewrite Sc in Hw.
    - apply C. now left.
    - intros w Hw. apply C. now right. }
  assert (X : f_var f' = p /\ f_scope f' = p :: ps).
  { assert (Rm : remove1 v (v :: p :: ps) = p :: ps) by (cbn [remove1]; now rewrite name_eqb_refl). destruct H as [H|[x H]].
    - destruct (sumout_ok _ o f _ v (repr_val _ _ Wf) Hin) as (h & E' & _ & S & _). rewrite H in E'. injection E' as <-. split; [|now rewrite S, Sc].
      assert (H2 : out_var sum_cells true o f v = Ok f') by exact H. pose proof (out_var_stride _ _ _ _ _ _ _ _ Ds Dc H2) as St. rewrite (out_var_var _ _ _ _ _ _ H2), Vr, St. exact El.
    - pose proof (reduce_stride _ _ _ _ _ _ _ Ds Dc H) as St. split; [rewrite (reduce_var _ _ _ _ _ H), Vr, St; exact El|].
      destruct (wn_F _ W v Hv) as [d Hd].
      assert (Hx : exists i, index_of x (f_values d) = Some i).
      { unfold reduce_factor in H. unfold getitem at 1 in H. rewrite Dc in H. cbn [bind] in H. destruct (ncard bn v =? 0); [discriminate|]. rewrite B in H. unfold getitem at 1 in H. rewrite Hd in H. cbn [bind] in H.
        unfold list_index in H. destruct (index_of x (f_values d)) as [i|]; [eauto|discriminate]. }
      destruct Hx as (i & Hx). destruct (reduce_ok (ncard bn) o f _ v x i (repr_val _ _ Wf) Hin) as (h & E' & _ & S & _).
      + intros d' Hd'. rewrite B in Hd'. congruence.
      + rewrite B. congruence.
      + now apply (wfnet_values_index bn v d x).
      + rewrite H in E'. injection E' as <-. now rewrite S, Sc. }
  destruct X as [X1 X2]. split; [exact X1|]. unfold factor_parents. rewrite X1, X2. cbn [filter]. rewrite name_eqb_refl. cbn [negb].
  apply NoDup_cons_iff in ND as [_ N2]. apply NoDup_cons_iff in N2 as [N3 _]. clear - N3. induction ps as [|x r IH]; [reflexivity|]. cbn [filter].
  destruct (name_eqb_spec x p) as [->|_]; [exfalso; apply N3; now left|]. cbn [negb]. f_equal. apply IH. intros K. apply N3. now right.
Qed.
Print Assumptions C150_without_its_variable.

(** how many factors: eliminating a variable replaces the factors that mention it (at least one) by a single one at the end, an observation
    changes no number *)
Lemma rel_irr rv fs : length (relevant_factors rv fs) + length (irrelevant_factors rv fs) = length fs.
Proof. induction fs as [|f l IH]; [reflexivity|]. unfold relevant_factors, irrelevant_factors in *. cbn [filter]. destruct (mem rv (f_scope f)); cbn [negb length]; lia. Qed.
Theorem C150_len : forall o z p z', fz_apply o z p = Ok z' ->
  fz_iter z' = map (fun i => nth i (fz_phi z') (mkFactor (fz_bn z) (NInt 0) [] [] [] [])) (seq 0 (fz_len z')) /\
  match p with
  | Given _ _ => fz_len z' = fz_len z
  | SumOut v | MaxOut v => fz_len z' + length (filter (fun f => mem v (f_scope f)) (fz_iter z)) = S (fz_len z) /\
      (exists f, In f (fz_iter z) /\ In v (f_scope f)) /\
      exists g, fz_getitem z' (-1)%Z = Ok g /\ forall i, i < fz_len z' - 1 -> fz_getitem z' (Z.of_nat i) = nget (filter (fun f => negb (mem v (f_scope f))) (fz_iter z)) i
  end.
Proof.
  intros o z p z' H. split.
  { unfold fz_iter, fz_len. apply (nth_ext _ _ (mkFactor (fz_bn z) (NInt 0) [] [] [] []) (mkFactor (fz_bn z) (NInt 0) [] [] [] [])); [now rewrite map_length, seq_length|].
    intros n Hn. rewrite (nth_indep (map _ _) _ (nth 0 (fz_phi z') (mkFactor (fz_bn z) (NInt 0) [] [] [] []))) by now rewrite map_length, seq_length.
    rewrite (map_nth (fun i => nth i (fz_phi z') (mkFactor (fz_bn z) (NInt 0) [] [] [] [])) (seq 0 (length (fz_phi z'))) 0 n). now rewrite seq_nth. }
  assert (G : forall v psi (l := irrelevant_factors v (fz_phi z)), relevant_factors v (fz_phi z) <> [] -> fz_phi z' = l ++ [psi] ->
     fz_len z' + length (filter (fun f => mem v (f_scope f)) (fz_iter z)) = S (fz_len z) /\ (exists f, In f (fz_iter z) /\ In v (f_scope f)) /\
      exists g, fz_getitem z' (-1)%Z = Ok g /\ forall i, i < fz_len z' - 1 -> fz_getitem z' (Z.of_nat i) = nget (filter (fun f => negb (mem v (f_scope f))) (fz_iter z)) i).
  { intros v psi l NE Q. unfold fz_len, fz_iter, fz_getitem. rewrite Q, app_length. cbn [length]. pose proof (rel_irr v (fz_phi z)) as L. unfold relevant_factors in L, NE.
    fold l in L. split; [lia|]. split.
    - destruct (filter _ _) as [|f r] eqn:F; [congruence|]. exists f. assert (K : In f (f :: r)) by now left. rewrite <- F in K. apply filter_In in K as [K1 K2]. split; [assumption|now apply mem_In].
    - exists psi. split.
      + unfold pyget. rewrite app_length. cbn [length]. replace (-1 <? 0)%Z with true by reflexivity.
        destruct (Z.ltb_spec (-1 + Z.of_nat (length l + 1)) 0); [lia|]. replace (Z.to_nat (-1 + Z.of_nat (length l + 1))) with (length l) by lia.
        now rewrite nth_error_app2, Nat.sub_diag by lia.
      + intros i Hi. rewrite pyget_nat. unfold nget. rewrite nth_error_app1 by lia. reflexivity. }
  destruct p as [v|v|v x]; cbn [fz_apply] in H.
  - unfold fz_sum_elim, product_relevant in H. destruct (relevant_factors v (fz_phi z)) as [|f0 r0] eqn:E; [discriminate|].
    destruct (mul_all (sub o 0) f0 r0) as [psi|]; cbn [bind] in H; [|discriminate]. destruct (sumout_var (sub o 1) psi v) as [psi'|]; cbn [bind] in H; [|discriminate].
    injection H as <-. apply (G v psi'); [now rewrite E|reflexivity].
  - unfold fz_max_elim, product_relevant in H. destruct (relevant_factors v (fz_phi z)) as [|f0 r0] eqn:E; [discriminate|].
    destruct (mul_all (sub o 0) f0 r0) as [psi|]; cbn [bind] in H; [|discriminate]. destruct (maxout_var psi v) as [psi'|]; cbn [bind] in H; [|discriminate].
    injection H as <-. apply (G v psi'); [now rewrite E|reflexivity].
  - unfold fz_sub in H. destruct (reduce_all o v x (fz_phi z)) as [fs|] eqn:E; cbn [bind] in H; [|discriminate]. injection H as <-. unfold fz_len. cbn [fz_phi].
    clear - E. revert o fs E. induction (fz_phi z) as [|f l IH]; intros o fs E; cbn [reduce_all] in E; [now injection E as <-|].
    destruct (if mem v (f_scope f) then _ else _) as [f'|]; cbn [bind] in E; [|discriminate]. destruct (reduce_all (sub o 1) v x l) as [r'|] eqn:E1; cbn [bind] in E; [|discriminate].
    injection E as <-. cbn [length]. now rewrite (IH _ _ E1).
Qed.
Print Assumptions C150_len.
(** a clique tree of a network is indexed by the keys in its V, the numbers of its cliques: the name of a node (a string) is a KeyError *)
Theorem C150_tree_index : forall nx mc o bn t, wfnet bn -> good o -> clique_tree nx mc o bn = Ok t ->
  (forall key, In key (t_V t) <-> exists c, tree_getitem t key = Ok c) /\
  (forall key e, tree_getitem t key = Raise e -> e = KeyError) /\
  (forall s, In (NStr s) (bn_V bn) -> tree_getitem t (NStr s) = Raise KeyError) /\
  (forall c, In c (tree_iter t) <-> exists key, In key (t_V t) /\ tree_getitem t key = Ok c).
Proof.
  intros nx mc o bn t W Go H. destruct (built_facts nx mc o bn t W Go H) as (es & xs & _ & _ & _ & _ & _ & V & _).
  assert (K : forall key, In key (t_V t) <-> exists c, tree_getitem t key = Ok c).
  { intros key. rewrite V, in_map_iff. unfold tree_getitem. split.
    - intros (k & <- & Hk). apply in_seq in Hk. destruct (nth_error (t_C t) k) as [c|] eqn:E; [eauto|]. apply nth_error_None in E. lia.
    - intros (c & E). destruct key as [k|s]; [|discriminate]. exists k. split; [reflexivity|]. apply in_seq. destruct (nth_error (t_C t) k) as [c'|] eqn:En; [|discriminate].
      assert (k < length (t_C t)) by (apply nth_error_Some; congruence). lia. }
  split; [exact K|]. split; [|split; [reflexivity|]].
  - intros [k|s] e E; cbn in E; [destruct (nth_error (t_C t) k)|]; congruence.
  - intros c. unfold tree_iter. split.
    + intros Hc. apply In_nth_error in Hc as [k Hk]. exists (NInt k). assert (G : tree_getitem t (NInt k) = Ok c) by (cbn; now rewrite Hk). split; [apply K; eauto|exact G].
    + intros (key & _ & E). destruct key as [k|s]; [|discriminate]. cbn in E. destruct (nth_error (t_C t) k) as [c'|] eqn:En; [|discriminate]. injection E as <-. now apply nth_error_In in En.
Qed.
Print Assumptions C150_tree_index.

Example C150_nonvacuous : exists fB f g m, factor_init ex3 exB = Ok fB /\ factor_init ex3 exC = Ok f /\ nparents ex3 exC = [exA; exB] /\ factor_str f = Ok "C | A, B"%string /\
  sumout_var id_oracle f exC = Ok g /\ factor_str g = Ok "A | B"%string /\
  maxout_var f exC = Ok m /\ factor_str m = Ok "C | A, B"%string.
Proof.
  pose (dummy := mkFactor ex3 exA [] [] [] []).
  pose (fB := unres (factor_init ex3 exB) dummy). pose (f := unres (factor_init ex3 exC) dummy).
  pose (g := unres (sumout_var id_oracle f exC) dummy). pose (m := unres (maxout_var f exC) dummy).
  exists fB, f, g, m. split; [vm_compute; reflexivity|]. split; [vm_compute; reflexivity|]. split; [reflexivity|]. split; [vm_compute; reflexivity|].
  split; [vm_compute; reflexivity|]. split; [vm_compute; reflexivity|]. split; vm_compute; reflexivity.
Qed.
Example C150_len_nonvacuous : exists z0 z, fz_init ex3 = Ok z0 /\ fz_len z0 = 3 /\ fz_apply id_oracle z0 (SumOut exC) = Ok z /\ fz_len z = 3 /\
  exists z', fz_apply id_oracle z (SumOut exA) = Ok z' /\ fz_len z' = 1.
Proof.
  pose (d := mkFz ex3 [] [] []). pose (z0 := unres (fz_init ex3) d). pose (z := unres (fz_apply id_oracle z0 (SumOut exC)) d).
  exists z0, z. split; [vm_compute; reflexivity|]. split; [reflexivity|]. split; [vm_compute; reflexivity|]. split; [vm_compute; reflexivity|].
  exists (unres (fz_apply id_oracle z (SumOut exA)) d). split; vm_compute; reflexivity.
Qed.
Example C150_tree_nonvacuous : tree_of exChain = Ok (the_tree exChain) /\ t_V (the_tree exChain) = [NInt 0; NInt 1] /\ In (nm "A") (bn_V exChain) /\
  (exists c, tree_getitem (the_tree exChain) (NInt 1) = Ok c) /\ tree_getitem (the_tree exChain) (nm "A") = Raise KeyError.
Proof. split; [vm_compute; reflexivity|]. split; [vm_compute; reflexivity|]. split; [vm_compute; auto|]. split; [eexists; vm_compute; reflexivity|reflexivity]. Qed.
