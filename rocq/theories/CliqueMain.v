(** CliqueMain.v -- the upward pass on the cliques of a network. *)
From Verif Require Import Py Num BayesNet Factor SpecFactor Radix SumOver FactorMul FactorOut FactorMore Factorization SpecInference VE VETotal GraphNet Graph CliqueTree SpecClique CliqueFacts CliqueInit CliqueBuild CliqueSend CliqueBP.
Open Scope nat_scope.

Definition some_factor (bn : bayesnet) : factor := mkFactor bn (NInt 0) [] [] [] [].
Definition loadd (bn : bayesnet) (h : fheap) (a : nat) : factor := match fload h a with Ok f => f | Raise _ => some_factor bn end.

Lemma Forall2_nth {A B} (R : A -> B -> Prop) l m : Forall2 R l m -> forall k a, nth_error l k = Some a -> exists b, nth_error m k = Some b /\ R a b.
Proof.
  intros F. induction F as [|x y l m H _ IH]; intros [|k] a E; simpl in *; try discriminate; [injection E as <-; eauto|]. now apply IH.
Qed.
Lemma Forall2_len {A B} (R : A -> B -> Prop) l m : Forall2 R l m -> length l = length m.
Proof. intros F. induction F; simpl; congruence. Qed.
Lemma nth_nth_error {A} (l : list A) k d x : nth_error l k = Some x -> nth k l d = x.
Proof. intros E. rewrite (nth_error_nth l k d E). reflexivity. Qed.
Lemma map_nth_seq {A} (l : list A) d : map (fun k => nth k l d) (seq 0 (length l)) = l.
Proof.
  induction l as [|x l IH]; [reflexivity|]. simpl. f_equal. rewrite <- seq_shift, map_map. exact IH.
Qed.

Lemma flat_map_ext_in {A B} (f g : A -> list B) l : (forall x, In x l -> f x = g x) -> flat_map f l = flat_map g l.
Proof. intros H. induction l as [|x l IH]; [reflexivity|]. simpl. rewrite (H x (or_introl eq_refl)), IH; [reflexivity|]. intros y Hy. apply H. now right. Qed.

(** state of freshly built cliques *)
Lemma fresh_inv bn h cs xs : live h (map fst xs) -> Forall2 (ready bn h) cs xs ->
  (forall s x, In (s, x) (combine (map c_scope cs) xs) -> forall w, (exists v, In v (snd x) /\ In w (v :: nparents bn v)) -> In w s) ->
  (forall c w, In c cs -> In w (c_scope c) -> exists x v, In x xs /\ In v (snd x) /\ In w (v :: nparents bn v)) ->
  inv (ncard bn) (scope_at cs) h cs (seq 0 (length cs)) (fun k => nth k (map fst xs) 0) (fun k => loadd bn h (nth k (map fst xs) 0)) (fun _ => []).
Proof.
  intros Lv R Fit Cov. assert (Len := Forall2_len _ _ _ R).
  assert (Rk : forall k, k < length cs -> exists c x, nth_error cs k = Some c /\ nth_error xs k = Some x /\ ready bn h c x /\ nth k (map fst xs) 0 = fst x).
  { intros k Hk. apply nth_error_Some in Hk. destruct (nth_error cs k) as [c|] eqn:Ec; [|congruence].
    destruct (Forall2_nth _ _ _ R k c Ec) as (x & Ex & Rx). exists c, x. split; [reflexivity|]. split; [exact Ex|]. split; [exact Rx|].
    apply nth_nth_error. rewrite nth_error_map, Ex. reflexivity. }
  assert (Fs : forall k c x, k < length cs -> nth_error cs k = Some c -> nth_error xs k = Some x -> ready bn h c x ->
     fload h (fst x) = Ok (loadd bn h (fst x)) /\ wf (ncard bn) (loadd bn h (fst x)) /\
     forall w, In w (f_scope (loadd bn h (fst x))) <-> exists v, In v (snd x) /\ In w (v :: nparents bn v)).
  { intros k c x Hk Ec Ex (p & f & ag & A1 & A2 & A3 & A4 & A5 & A6 & A7 & A8 & _). unfold loadd. rewrite A6. auto. }
  assert (M0 : forall k, In k (seq 0 (length cs)) -> msgs_at cs k = []).
  { intros k Hk. apply in_seq in Hk. destruct (Rk k) as (c & x & Ec & Ex & (p & f & ag & A1 & A2 & A3 & _) & _); [lia|]. unfold msgs_at. now rewrite Ec. }
  constructor.
  - apply seq_NoDup.
  - eapply live_perm; [|exact Lv]. unfold owned.
    rewrite (flat_map_ext_in _ (fun k => [nth k (map fst xs) 0])).
    + rewrite flat_map_concat_map. rewrite <- (map_map (fun k => nth k (map fst xs) 0) (fun a => [a])).
      replace (length cs) with (length (map fst xs)) by (rewrite map_length; congruence). rewrite map_nth_seq.
      generalize (map fst xs) as l. intros l. clear. induction l as [|a l IH]; [constructor|]. simpl. now constructor.
    + intros k Hk. f_equal. now apply M0.
  - intros k Hk. apply in_seq in Hk. destruct (Rk k) as (c & x & Ec & Ex & Rx & En); [lia|]. rewrite En.
    destruct (Fs k c x) as (B1 & B2 & B3); [lia|exact Ec|exact Ex|exact Rx|].
    destruct Rx as (p & f & ag & A1 & A2 & A3 & A4 & A5 & _).
    exists c, p. split; [exact Ec|]. split; [unfold scope_at; now rewrite Ec|]. split; [exact A2|]. split; [exact A1|]. split; [exact A4|]. split; [exact A5|].
    split; [exact B1|]. split; [exact B2|]. split; [rewrite A3; constructor|]. intros v (g & [<-|[]] & Hv). apply B3 in Hv. unfold scope_at. rewrite Ec.
    apply (Fit (c_scope c) x); [|exact Hv]. clear - Ec Ex. revert cs k xs Ec Ex. induction cs as [|c0 cs IH]; intros [|k] [|x0 xs] Ec Ex; simpl in *; try discriminate.
    + injection Ec as <-. injection Ex as <-. now left.
    + right. now apply (IH k).
  - intros k v Hk Hv. apply in_seq in Hk. destruct (Rk k) as (c & x & Ec & _); [lia|]. unfold scope_at in Hv. rewrite Ec in Hv.
    destruct (Cov c v (nth_error_In _ _ Ec) Hv) as (x' & u & Hx' & Hu & Hw). apply In_nth_error in Hx' as [k' Ex'].
    assert (Hk' : k' < length cs) by (rewrite Len; apply nth_error_Some; congruence).
    exists k'. split; [apply in_seq; lia|]. destruct (Rk k' Hk') as (c2 & x2 & Ec2 & Ex2 & Rx2 & En). rewrite Ex' in Ex2. injection Ex2 as <-. rewrite En.
    destruct (Fs k' c2 x' Hk' Ec2 Ex' Rx2) as (_ & _ & B3). eexists. split; [now left|]. apply B3. exists u. auto.
Qed.

(** value of the product of fresh potentials *)
Lemma fresh_current bn h cs xs agains : Forall2 (ready bn h) cs xs -> (forall x, In x xs -> incl (snd x) (bn_V bn)) ->
  (forall k x ag, nth_error xs k = Some x -> nth_error agains k = Some ag -> forall a, valid (ncard bn) (bn_V bn) a -> val (loadd bn h (fst x)) a = potential bn (snd x) ag a) ->
  length agains = length xs ->
  forall a, valid (ncard bn) (bn_V bn) a ->
  current (fun k => loadd bn h (nth k (map fst xs) 0)) (fun _ => []) (seq 0 (length cs)) a =
  qprod (map (fun v => getq (cond_prob bn v a)) (concat (map snd xs) ++ concat agains)).
Proof.
  intros R I V La a Va. assert (Len := Forall2_len _ _ _ R). rewrite Len. clear R Len cs. unfold current.
  rewrite map_app, qprod_app.
  transitivity (qprod (map (fun x => val (loadd bn h (fst x)) a) xs)).
  - f_equal. rewrite <- (map_length fst xs). rewrite <- (map_map (fun k => nth k (map fst xs) 0) (fun b => prodval [loadd bn h b] a)). rewrite map_nth_seq, map_map.
    apply map_ext. intros x. unfold prodval. simpl. ring.
  - clear I. revert agains V La. induction xs as [|x xs IH]; intros [|ag agains] V La; simpl in La; try discriminate; [simpl; ring|].
    cbn [map concat]. rewrite !map_app, !qprod_app. simpl qprod. rewrite (IH agains).
    + rewrite (V 0 x ag eq_refl eq_refl a Va). unfold potential. ring.
    + intros k y ay Ey Ea. apply (V (S k) y ay Ey Ea).
    + lia.
Qed.

Lemma agains_exist bn h cs xs : Forall2 (ready bn h) cs xs -> exists agains, length agains = length xs /\
  (forall k x ag, nth_error xs k = Some x -> nth_error agains k = Some ag -> doubled (table_size bn) (snd x) ag /\
     forall a, valid (ncard bn) (bn_V bn) a -> val (loadd bn h (fst x)) a = potential bn (snd x) ag a).
Proof.
  intros R. induction R as [|c x cs xs (p & f & ag & A1 & A2 & A3 & A4 & A5 & A6 & A7 & A8 & A9 & A10) _ (ags & L & IH)].
  - exists []. split; [reflexivity|]. intros [|k] x ag E; discriminate.
  - exists (ag :: ags). split; [simpl; congruence|]. intros [|k] y ay Ey Ea; simpl in *; [|now apply (IH k)].
    injection Ey as <-. injection Ea as <-. split; [exact A9|]. unfold loadd. rewrite A6. exact A10.
Qed.

Lemma weight_ext bn nodes : ext (weight_of bn nodes).
Proof. intros a b H. unfold weight_of. apply qprod_map_ext. intros v _. f_equal. apply cond_prob_ext. auto. Qed.
Lemma Forall2_of_nth {A B} (R : A -> B -> Prop) : forall l m, length l = length m -> (forall k a b, nth_error l k = Some a -> nth_error m k = Some b -> R a b) -> Forall2 R l m.
Proof.
  induction l as [|x l IH]; intros [|y m] Len H; simpl in Len; try discriminate; constructor; [now apply (H 0)|]. apply IH; [lia|]. intros k a b Ea Eb. now apply (H (S k)).
Qed.
Lemma scope_at_nth cs k : scope_at cs k = nth k (map c_scope cs) [].
Proof.
  unfold scope_at. destruct (nth_error cs k) as [c|] eqn:E; [symmetry; apply nth_nth_error; now rewrite nth_error_map, E|].
  symmetry. apply nth_overflow. rewrite map_length. now apply nth_error_None.
Qed.
Lemma schedule_ext sc sc' root rem es : (forall k, sc k = sc' k) -> schedule sc root rem es -> schedule sc' root rem es.
Proof.
  intros H S. induction S as [|i j rem rem' es Pr Hj Nr Rip S IH]; [constructor|]. econstructor; [exact Pr|exact Hj|exact Nr| |exact IH].
  intros k v Hk. rewrite <- !H. now apply Rip.
Qed.
Lemma schedule_root sc root rem es : schedule sc root rem es -> In root rem.
Proof. intros S. induction S as [|i j rem rem' es Pr Hj Nr Rip S IH]; [now left|]. apply (Permutation_in _ (Permutation_sym Pr)). now right. Qed.

Lemma card_pos_wf bn v : wfnet bn -> In v (bn_V bn) -> 0 < ncard bn v.
Proof. intros W Hv. exact (valid_zero bn W v Hv). Qed.

Lemma upward_main bn o scopes h cs : wfnet bn -> good o -> build_cliques o bn scopes = Ok (h, cs) ->
  (forall s, In s scopes -> incl s (bn_V bn)) -> (forall s v, In s scopes -> In v s -> exists s', In s' scopes /\ fits bn v s') ->
  exists asg agains, assign_factors bn (ask (sub o 0) (bn_nodes bn)) [] scopes = Ok asg /\ assignment bn scopes asg /\ Forall2 (doubled (table_size bn)) asg agains /\
  forall o1 o2 root es, good o1 -> good o2 -> schedule (fun k => nth k scopes []) root (seq 0 (length scopes)) es ->
  exists h1 cs1 c h2 c2 b f, upward o1 h cs es = Ok (h1, cs1) /\ nth_error cs1 root = Some c /\ collect_beliefs o2 h1 c = Ok (h2, c2) /\
    c_belief c2 = Some b /\ fload h2 b = Ok f /\ (forall v, In v (f_scope f) <-> In v (nth root scopes [])) /\
    forall rest, NoDup rest -> (forall v, In v rest <-> In v (concat scopes) /\ ~ In v (nth root scopes [])) ->
      repr (ncard bn) f (sum_over (ncard bn) rest (weight_of bn (concat asg ++ concat agains))).
Proof.
  intros W Go Eb Is Fit. destruct (build_ok bn o scopes W Go) as (asg & Ea & As & [[_ R]|(Ne & h' & cs' & xs & R & Lv & Rd & Ms & Mc)]); [congruence|].
  rewrite R in Eb. injection Eb as -> ->. destruct (agains_exist bn h cs xs Rd) as (agains & La & Ha).
  exists asg, agains. split; [exact Ea|]. split; [exact As|].
  assert (Lx : length asg = length xs) by (rewrite <- Ms; apply map_length).
  split.
  { apply Forall2_of_nth; [congruence|]. intros k ns ag En Eg. rewrite <- Ms, nth_error_map in En. destruct (nth_error xs k) as [x|] eqn:Ex; [|discriminate]. injection En as <-. now apply (Ha k x ag). }
  intros o1 o2 root es Go1 Go2 Sch.
  assert (Lc : length cs = length scopes) by (rewrite <- Mc; symmetry; apply map_length).
  destruct As as (As1 & As2 & As3).
  assert (Iv : inv (ncard bn) (scope_at cs) h cs (seq 0 (length cs)) (fun k => nth k (map fst xs) 0) (fun k => loadd bn h (nth k (map fst xs) 0)) (fun _ => [])).
  { apply fresh_inv; [exact Lv|exact Rd| |].
    - rewrite Mc. intros s x Hin w (v & Hv & Hw). apply In_nth_error in Hin as [k Ek].
      assert (Es : nth_error scopes k = Some s /\ nth_error xs k = Some x).
      { clear - Ek. revert scopes xs Ek. induction k as [|k IH]; intros [|s' scopes] [|x' xs] Ek; simpl in *; try discriminate; [now injection Ek as <- <-|now apply IH]. }
      destruct Es as [Es Ex]. destruct (Forall2_nth _ _ _ As1 k s Es) as (ns & En & _ & Hn). rewrite <- Ms, nth_error_map, Ex in En. injection En as <-.
      destruct (Hn v Hv) as [_ F]. now apply F.
    - intros c w Hc Hw. assert (Hs : In (c_scope c) scopes) by (rewrite <- Mc; now apply in_map).
      destruct (Fit _ w Hs Hw) as (s' & Hs' & Fw). assert (Hcon : In w (concat asg)) by (apply As3; split; [now apply (Is (c_scope c))|eauto]).
      apply in_concat in Hcon as (ns & Hns & Hwn). rewrite <- Ms in Hns. apply in_map_iff in Hns as (x & <- & Hx). exists x, w. split; [exact Hx|]. split; [exact Hwn|now left]. }
  assert (Sch' : schedule (scope_at cs) root (seq 0 (length cs)) es).
  { rewrite Lc. eapply schedule_ext; [|exact Sch]. intros k. rewrite scope_at_nth, Mc. reflexivity. }
  set (all := dedup (concat scopes)).
  assert (Hall : forall k, In k (seq 0 (length cs)) -> incl (scope_at cs k) all).
  { intros k Hk v Hv. rewrite scope_at_nth, Mc in Hv. apply In_dedup. apply in_concat. exists (nth k scopes []). split; [|exact Hv]. apply nth_In. apply in_seq in Hk. lia. }
  assert (Ivis : forall x, In x xs -> incl (snd x) (bn_V bn)).
  { intros x Hx v Hv. apply As3. apply in_concat. exists (snd x). split; [rewrite <- Ms; now apply in_map|exact Hv]. }
  (* off the cliques the tables do not matter *)
  assert (Fcl : forall v w, In v (concat asg ++ concat agains) -> In w (v :: nparents bn v) -> In w all).
  { intros v w Hv Hw. assert (Hv' : In v (concat asg)).
    { apply in_app_or in Hv as [Hv|Hv]; [exact Hv|]. apply in_concat in Hv as (ag & Hag & Hv). apply In_nth_error in Hag as [k Eg].
      destruct (nth_error xs k) as [x|] eqn:Ex; [|apply nth_error_None in Ex; assert (k < length agains) by (apply nth_error_Some; congruence); lia].
      destruct (Ha k x ag Ex Eg) as [D _]. apply in_concat. exists (snd x). split; [rewrite <- Ms; apply in_map; eapply nth_error_In; eassumption|].
      destruct D as [[_ ->]|(_ & i & _ & ->)]; [destruct Hv|]. rewrite <- (firstn_skipn (S i) (snd x)). apply in_or_app. now left. }
    apply As3 in Hv' as (_ & s & Hs & F). apply In_dedup. apply in_concat. exists s. split; [exact Hs|now apply F]. }
  set (P := weight_of bn (concat asg ++ concat agains)).
  destruct (pass (ncard bn) (scope_at cs) root all (seq 0 (length cs)) es Sch' o1 h cs _ _ _ P [] Go1 Iv Hall) as (h1 & cs1 & F' & Ms' & gone & E1 & Iv1 & V1 & N1 & H1).
  { intros a Va. cbn [sum_over].
    set (a' := fun v => if mem v all then a v else 0).
    assert (Va' : valid (ncard bn) (bn_V bn) a').
    { intros v Hv. unfold a'. destruct (mem v all) eqn:M; [apply Va; now apply mem_In|]. apply card_pos_wf; assumption. }
    transitivity (P a').
    - unfold P, weight_of. apply qprod_map_ext. intros v Hv. f_equal. unfold cond_prob. f_equal. apply radix_ext. intros w Hw. unfold a'.
      assert (M : mem w all = true) by (apply mem_In; now apply (Fcl v)). now rewrite M.
    - unfold P, weight_of. rewrite <- Ms. rewrite <- (fresh_current bn h cs xs agains Rd Ivis); [|intros k x ag Ex Eg; now apply (Ha k x ag)|congruence|exact Va'].
      unfold current. apply qprod_map_ext. intros k Hk. apply prodval_scope. intros w Hw. unfold a'.
      destruct (iv_st _ _ _ _ _ _ _ _ Iv k Hk) as (c' & p' & _ & _ & _ & _ & _ & _ & _ & _ & _ & I').
      assert (M : mem w all = true) by (apply mem_In; apply (Hall k Hk); now apply I'). now rewrite M. }
  { constructor. }
  { intros v. split; [intros []|]. intros [Hv Hn]. apply In_dedup, in_concat in Hv as (s & Hs & Hv). apply In_nth_error in Hs as [k Ek]. exfalso. apply (Hn k).
    - apply in_seq. split; [lia|]. rewrite Lc. apply nth_error_Some. rewrite Ek. discriminate.
    - rewrite scope_at_nth, Mc. rewrite (nth_nth_error _ _ _ _ Ek). exact Hv. }
  destruct (collect_ok (ncard bn) (scope_at cs) o2 h1 cs1 root _ F' Ms' Go2 Iv1) as (c & h2 & c2 & b & f & Ec & E2 & Eb2 & Ef & Rf & Sf & _).
  exists h1, cs1, c, h2, c2, b, f. split; [exact E1|]. split; [exact Ec|]. split; [exact E2|]. split; [exact Eb2|]. split; [exact Ef|].
  assert (Rt : scope_at cs root = nth root scopes []) by (rewrite scope_at_nth, Mc; reflexivity).
  assert (Sc : forall v, In v (f_scope f) <-> In v (nth root scopes [])).
  { intros v. rewrite Sf, <- Rt. split.
    - destruct (iv_st _ _ _ _ _ _ _ _ Iv1 root (or_introl eq_refl)) as (c' & p' & _ & _ & _ & _ & _ & _ & _ & _ & _ & I'). apply I'.
    - intros Hv. destruct (iv_cov _ _ _ _ _ _ _ _ Iv1 root v (or_introl eq_refl) Hv) as (k' & [<-|[]] & H). exact H. }
  split; [exact Sc|]. intros rest NDr Hr.
  eapply repr_congr; [exact Rf|]. intros a Va.
  set (a' := fun v => if mem v (nth root scopes []) then a v else 0).
  assert (Hrt : incl (nth root scopes []) all).
  { rewrite <- Rt. apply Hall. apply schedule_root in Sch'. exact Sch'. }
  assert (Va' : valid (ncard bn) all a').
  { intros v Hv. unfold a'. destruct (mem v (nth root scopes [])) eqn:M; [apply Va; apply Sc; now apply mem_In|]. apply card_pos_wf; [assumption|].
    apply In_dedup, in_concat in Hv as (s & Hs & Hv). now apply (Is s). }
  transitivity (prodval (F' root :: Ms' root) a').
  { apply prodval_scope. intros w Hw. unfold a'. assert (M : mem w (nth root scopes []) = true) by (apply mem_In; apply Sc; now apply Sf). now rewrite M. }
  rewrite <- V1 by exact Va'.
  rewrite (sum_over_perm (ncard bn) gone rest P a'); [|apply weight_ext|exact N1|].
  2: { apply perm_of_iff; [exact N1|exact NDr|]. intros v. rewrite H1, Hr, Rt. unfold all. rewrite In_dedup. tauto. }
  (* a' and a differ outside the cliques only *)
  assert (Gen : forall vs x y, NoDup vs -> (forall v, In v (concat scopes) -> ~ In v vs -> x v = y v) -> sum_over (ncard bn) vs P x = sum_over (ncard bn) vs P y).
  { induction vs as [|v vs IH]; intros x y ND Hxy.
    - simpl. unfold P, weight_of. apply qprod_map_ext. intros u Hu. f_equal. unfold cond_prob. f_equal. apply radix_ext. intros w Hw. apply Hxy; [|intros []]. apply In_dedup. now apply (Fcl u).
    - cbn [sum_over]. unfold sum_values. apply qsum_map_ext. intros z _. inversion ND; subst. apply IH; [assumption|]. intros u Hu Nu. unfold upd. destruct (name_eqb_spec u v); [reflexivity|]. apply Hxy; [exact Hu|]. intros [C|C]; congruence. }
  apply Gen; [exact NDr|]. intros v Hv Nv. unfold a'. destruct (mem v (nth root scopes [])) eqn:M; [reflexivity|]. exfalso. apply Nv. apply Hr. split; [exact Hv|now apply mem_false].
Qed.
