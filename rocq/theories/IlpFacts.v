(** IlpFacts.v -- the integer program written by ilp_map, in closed form. *)
From Verif Require Import Py Num BayesNet Factor SpecFactor Radix Graph SpecGraph GraphNet SpecInference SampleFacts IO SpecIlp Ilp.
Local Open Scope nat_scope.

Definition sc (bn : bayesnet) (v : name) : list name := v :: nparents bn v.
Definition len (bn : bayesnet) (v : name) : nat := length (ncpt bn v).
Definition dg (bn : bayesnet) (v : name) (i : nat) : asg := digits (ncard bn) (sc bn v) i.
Definition nv (bn : bayesnet) (v : name) (k : nat) : name := nth k (nvalues bn v) (NInt 0).

Lemma dg_ok bn v i : wfnet bn -> In v (bn_V bn) -> i < len bn v ->
  valid (ncard bn) (sc bn v) (dg bn v i) /\ radix (ncard bn) (sc bn v) (dg bn v i) = i.
Proof.
  intros W Hv L. apply digits_ok; [exact (wn_scope _ W v Hv)|]. unfold len in L. rewrite (wn_cpt _ W v Hv) in L. exact L.
Qed.
Lemma card_pos bn v : wfnet bn -> In v (bn_V bn) -> 0 < ncard bn v.
Proof.
  intros W Hv. destruct (wn_vals _ W v Hv) as [_ N]. destruct (wn_F _ W v Hv) as [d D]. unfold ncard, nvalues in *. rewrite D in *.
  destruct (f_values d); [congruence|simpl; lia].
Qed.
Lemma ncard_nvalues bn v : ncard bn v = length (nvalues bn v).
Proof. unfold ncard, nvalues. destruct (dget (bn_F bn) v); reflexivity. Qed.
Lemma dg_self bn v i : wfnet bn -> In v (bn_V bn) -> i < len bn v -> dg bn v i v = i mod ncard bn v.
Proof.
  intros W Hv L. destruct (dg_ok bn v i W Hv L) as [V R].
  pose proof (radix_digit (ncard bn) [] v (nparents bn v) (dg bn v i) V) as E. simpl app in E.
  change (radix (ncard bn) (v :: nparents bn v)) with (radix (ncard bn) (sc bn v)) in E. rewrite R in E.
  change (size (ncard bn) []) with 1 in E. rewrite Nat.div_1_r in E. now symmetry.
Qed.
Lemma dg_radix bn v a w : wfnet bn -> In v (bn_V bn) -> valid (ncard bn) (sc bn v) a -> In w (sc bn v) ->
  dg bn v (radix (ncard bn) (sc bn v) a) w = a w.
Proof.
  intros W Hv Va Hw.
  assert (L : radix (ncard bn) (sc bn v) a < len bn v).
  { unfold len. rewrite (wn_cpt _ W v Hv). now apply radix_lt. }
  destruct (dg_ok bn v _ W Hv L) as [V R]. exact (radix_inj (ncard bn) (sc bn v) _ _ V Va R w Hw).
Qed.
Lemma radix_len bn v a : wfnet bn -> In v (bn_V bn) -> valid (ncard bn) (sc bn v) a -> radix (ncard bn) (sc bn v) a < len bn v.
Proof. intros W Hv Va. unfold len. rewrite (wn_cpt _ W v Hv). now apply radix_lt. Qed.

Lemma nv_ok bn v k : k < ncard bn v -> nth_error (nvalues bn v) k = Some (nv bn v k).
Proof. intros L. rewrite ncard_nvalues in L. unfold nv. now apply nth_error_nth'. Qed.
Lemma pymod_ok bn v i : wfnet bn -> In v (bn_V bn) -> pymod i (ncard bn v) = Ok (i mod ncard bn v).
Proof. intros W Hv. unfold pymod. pose proof (card_pos bn v W Hv). destruct (Nat.eqb_spec (ncard bn v) 0); [lia|reflexivity]. Qed.
Lemma nget_ok bn v i : wfnet bn -> In v (bn_V bn) -> nget (nvalues bn v) (i mod ncard bn v) = Ok (nv bn v (i mod ncard bn v)).
Proof.
  intros W Hv. unfold nget. rewrite nv_ok; [reflexivity|]. pose proof (card_pos bn v W Hv). apply Nat.mod_upper_bound. lia.
Qed.
Lemma used_nv bn v k : wfnet bn -> In v (bn_V bn) -> k < ncard bn v -> used_index bn v (nv bn v k) = k.
Proof.
  intros W Hv L. destruct (wn_vals _ W v Hv) as [ND _]. unfold used_index, val_index.
  now rewrite (index_of_nth _ _ _ ND (nv_ok bn v k L)).
Qed.

(** the CPT positions of [t] at which [rv] has its [k]-th value *)
Definition ci (bn : bayesnet) (t rv : name) (k : nat) : list nat :=
  match cpt_indices bn t [(rv, nv bn rv k)] with Ok l => l | Raise _ => [] end.
Lemma ci_ok bn t rv k : wfnet bn -> In t (bn_V bn) -> In rv (sc bn t) -> k < ncard bn rv ->
  cpt_indices bn t [(rv, nv bn rv k)] = Ok (ci bn t rv k) /\
  forall i, In i (ci bn t rv k) <-> i < len bn t /\ dg bn t i rv = k.
Proof.
  intros W Ht Hrv L.
  assert (Hr : In rv (bn_V bn)) by (destruct Hrv as [<-|P]; [exact Ht|now apply (wn_par _ W t Ht)]).
  destruct (cpt_indices_ok bn t [(rv, nv bn rv k)] W Ht) as (l & E & _ & H); [intros y [<-|[]]; exact Hrv|].
  unfold ci. rewrite E. split; [reflexivity|]. intros i. rewrite H. split.
  - intros (a & Va & R & U). specialize (U rv _ (or_introl eq_refl)). rewrite used_nv in U by assumption.
    fold (sc bn t) in Va, R. subst i. split; [now apply radix_len|]. now rewrite dg_radix by assumption.
  - intros [Li D]. destruct (dg_ok bn t i W Ht Li) as [V R]. exists (dg bn t i). split; [exact V|]. split; [exact R|].
    intros r x [E'|[]]. injection E' as <- <-. now rewrite used_nv.
Qed.

(** the naming never fails *)
Lemma cpt_str_idx_ok bn rv i : wfnet bn -> In rv (bn_V bn) -> exists s, cpt_str_idx bn rv i = Ok s.
Proof.
  intros W Hv. unfold cpt_str_idx. rewrite bn_values_ok, bn_card_ok by assumption. cbn [bind]. rewrite pymod_ok by assumption. cbn [bind].
  rewrite nget_ok by assumption. cbn [bind]. rewrite bn_parents_ok by assumption. cbn [bind].
  match goal with |- exists z, bind (foldM ?f ?l ?s) _ = _ => assert (F : forall l' s', incl l' (nparents bn rv) -> exists r, foldM f l' s' = Ok r) end.
  { induction l' as [|p l IH]; intros s I; [simpl; eauto|]. cbn [foldM].
    assert (Hp : In p (nparents bn rv)) by (apply I; now left).
    rewrite bn_values_ok by (try assumption; now apply (wn_par _ W rv Hv)). cbn [bind].
    match goal with |- exists r, bind (foldM ?f ?l ?s) _ = _ => assert (F : forall vs s, exists r, foldM f vs s = Ok r) end.
    { induction vs as [|v vs IHv]; intros s'; [simpl; eauto|]. cbn [foldM].
      destruct (cpt_indices_ok bn rv (dict_of [(rv, nv bn rv (i mod ncard bn rv)); (p, v)]) W Hv) as (ii & -> & _).
      { intros y Hy. apply (proj1 (In_dkeys_dict_of _ _)) in Hy. destruct Hy as [<-|[<-|[]]]; [now left|now right]. }
      cbn [bind]. destruct (existsb (Nat.eqb i) ii); cbn [bind]; apply IHv. }
    destruct (F (nvalues bn p) s) as (r & ->). cbn [bind]. apply IH. intros y Hy. apply I. now right. }
  destruct (F (nparents bn rv) ((jkey rv ++ "=" ++ jkey (nv bn rv (i mod ncard bn rv)) ++ "|")%string, 1)) as (r & E); [apply incl_refl|].
  rewrite E. cbn [bind]. eauto.
Qed.
Definition strid (bn : bayesnet) (rv : name) (i : nat) : string := match cpt_str_idx bn rv i with Ok s => s | Raise _ => EmptyString end.

Definition vdict (bn : bayesnet) : dict nat := dict_of (map (fun v => (v, len bn v)) (bn_V bn)).
Lemma get_var_ok bn v i : In v (bn_V bn) -> i < len bn v -> get_var (vdict bn) v i = Ok (v, i).
Proof.
  intros Hv L. unfold get_var, vdict, getitem. rewrite (dget_dict_of_scope (len bn) (bn_V bn) v Hv). cbn [bind].
  apply Nat.ltb_lt in L. now rewrite L.
Qed.

(** ** closed form *)
Definition all_vars (bn : bayesnet) : list (string * var * Qc) :=
  concat (map (fun rv => map (fun ip => (strid bn rv (fst ip), (rv, fst ip), snd ip)) (combine (seq 0 (len bn rv)) (ncpt bn rv))) (bn_V bn)).
Definition rv_list (bn : bayesnet) : list con := map (fun rv => SumIs1 (map (pair rv) (seq 0 (len bn rv)))) (bn_V bn).
Definition nchildren (bn : bayesnet) (v : name) : list name := match dget (bn_E bn) v with Some c => c | None => [] end.
Definition out_list (bn : bayesnet) : list con :=
  concat (map (fun rv => concat (map (fun i =>
     map (fun ch => AtMost (rv, i) (map (pair ch) (ci bn ch rv (i mod ncard bn rv)))) (nchildren bn rv)) (seq 0 (len bn rv)))) (bn_V bn)).
Definition hits (bn : bayesnet) (rv : name) (i : nat) (p : name) : list nat :=
  concat (map (fun pi => if existsb (Nat.eqb i) (ci bn rv p (pi mod ncard bn p)) then [pi] else []) (seq 0 (len bn p))).
Definition in_list (bn : bayesnet) : list con :=
  concat (map (fun rv => if 0 <? length (nparents bn rv) then
     map (fun i => AtMost (rv, i) (concat (map (fun p => map (pair p) (hits bn rv i p)) (nparents bn rv)))) (seq 0 (len bn rv)) else []) (bn_V bn)).

Lemma In_hits bn rv i p k : In k (hits bn rv i p) <-> k < len bn p /\ In i (ci bn rv p (k mod ncard bn p)).
Proof.
  unfold hits. rewrite in_concat. split.
  - intros (l & Hl & Hk). apply in_map_iff in Hl as (pi & <- & Hp). apply in_seq in Hp.
    destruct (existsb (Nat.eqb i) (ci bn rv p (pi mod ncard bn p))) eqn:E; [|destruct Hk]. destruct Hk as [->|[]].
    apply existsb_exists in E as (j & Hj & Ej). apply Nat.eqb_eq in Ej. subst j. split; [lia|assumption].
  - intros [L H]. exists [k]. split; [|now left]. apply in_map_iff. exists k. split; [|apply in_seq; lia].
    assert (E : existsb (Nat.eqb i) (ci bn rv p (k mod ncard bn p)) = true) by (apply existsb_exists; exists i; split; [assumption|apply Nat.eqb_refl]).
    now rewrite E.
Qed.

Lemma ilp_closed bn ev : wfnet bn -> graph_ok bn -> agree bn ->
  ilp_map bn ev = Ok (mkLP (map fst (all_vars bn)) (map (fun t => (snd (fst t), snd t)) (all_vars bn)) (rv_list bn ++ out_list bn ++ in_list bn)).
Proof.
  intros W G A. unfold ilp_map, ilp_vars, bn_nodes.
  rewrite (mapM_ok _ (fun rv => map (fun ip => (strid bn rv (fst ip), (rv, fst ip), snd ip)) (combine (seq 0 (len bn rv)) (ncpt bn rv)))).
  2:{ intros v Hv. rewrite bn_cpt_ok by assumption. cbn [bind]. apply mapM_ok. intros ip _.
      destruct (cpt_str_idx_ok bn v (fst ip) W Hv) as (s & E). unfold strid. now rewrite E. }
  cbn [bind]. rewrite (mapM_ok _ (fun rv => (rv, len bn rv))).
  2:{ intros v Hv. now rewrite bn_cpt_ok. }
  cbn [bind fst snd]. fold (all_vars bn). fold (vdict bn).
  assert (R : rv_cons bn (vdict bn) = Ok (rv_list bn)).
  { unfold rv_cons, rv_list. apply mapM_ok. intros v Hv. rewrite bn_cpt_ok by assumption. cbn [bind].
    rewrite (@mapM_ok nat var _ (pair v)); [reflexivity|]. intros i Hi. apply in_seq in Hi. apply get_var_ok; [assumption|unfold len; lia]. }
  rewrite R. cbn [bind].
  assert (O : out_cons bn (vdict bn) = Ok (out_list bn)).
  { unfold out_cons, out_list, bn_nodes. rewrite (mapM_ok _ (fun rv => concat (map (fun i =>
     map (fun ch => AtMost (rv, i) (map (pair ch) (ci bn ch rv (i mod ncard bn rv)))) (nchildren bn rv)) (seq 0 (len bn rv))))); [reflexivity|].
    intros v Hv. rewrite bn_cpt_ok by assumption. cbn [bind]. fold (len bn v).
    rewrite (mapM_ok _ (fun i => map (fun ch => AtMost (v, i) (map (pair ch) (ci bn ch v (i mod ncard bn v)))) (nchildren bn v))); [reflexivity|].
    intros i Hi. apply in_seq in Hi. rewrite bn_values_ok, bn_card_ok by assumption. cbn [bind]. rewrite pymod_ok by assumption. cbn [bind].
    rewrite nget_ok by assumption. cbn [bind]. unfold bn_children, nchildren. destruct (go_E _ G v Hv) as (c & E & _ & Ic).
    rewrite (getitem_Some _ _ _ E), E. cbn [bind]. apply mapM_ok. intros ch Hc.
    assert (Hch := Ic ch Hc). assert (P : In v (nparents bn ch)) by (apply (A v ch Hv Hch); exists c; split; assumption).
    assert (K : i mod ncard bn v < ncard bn v) by (pose proof (card_pos bn v W Hv); apply Nat.mod_upper_bound; lia).
    destruct (ci_ok bn ch v (i mod ncard bn v) W Hch (or_intror P) K) as [Ec Hi'].
    rewrite Ec. cbn [bind]. rewrite get_var_ok by (try assumption; lia). cbn [bind].
    rewrite (@mapM_ok nat var _ (pair ch)); [reflexivity|]. intros j Hj. apply Hi' in Hj. apply get_var_ok; tauto. }
  rewrite O. cbn [bind].
  assert (N : in_cons bn (vdict bn) = Ok (in_list bn)).
  { unfold in_cons, in_list, bn_nodes. rewrite (mapM_ok _ (fun rv => if 0 <? length (nparents bn rv) then
     map (fun i => AtMost (rv, i) (concat (map (fun p => map (pair p) (hits bn rv i p)) (nparents bn rv)))) (seq 0 (len bn rv)) else [])); [reflexivity|].
    intros v Hv. rewrite bn_parents_ok by assumption. cbn [bind]. destruct (0 <? length (nparents bn v)); [|reflexivity].
    rewrite bn_cpt_ok by assumption. cbn [bind]. fold (len bn v). apply mapM_ok. intros i Hi. apply in_seq in Hi.
    rewrite (mapM_ok _ (fun p => (p, hits bn v i p))).
    2:{ intros p Hp. assert (Hp' := wn_par _ W v Hv p Hp). rewrite bn_cpt_ok by assumption. cbn [bind]. fold (len bn p).
        rewrite (mapM_ok _ (fun pi => if existsb (Nat.eqb i) (ci bn v p (pi mod ncard bn p)) then [pi] else [])); [reflexivity|].
        intros pi Hpi. rewrite bn_values_ok, bn_card_ok by assumption. cbn [bind]. rewrite pymod_ok by assumption. cbn [bind].
        rewrite nget_ok by assumption. cbn [bind].
        assert (K : pi mod ncard bn p < ncard bn p) by (pose proof (card_pos bn p W Hp'); apply Nat.mod_upper_bound; lia).
        destruct (ci_ok bn v p (pi mod ncard bn p) W Hv (or_intror Hp) K) as [Ec _]. now rewrite Ec. }
    cbn [bind]. rewrite get_var_ok by (try assumption; lia). cbn [bind].
    rewrite (@mapM_ok _ (list var) _ (fun pl => map (pair (fst pl)) (snd pl))).
    2:{ intros [p l] Hpl. apply in_map_iff in Hpl as (p' & E & Hp). injection E as -> <-. apply mapM_ok. intros k Hk. apply In_hits in Hk.
        apply get_var_ok; [exact (wn_par _ W v Hv p Hp)|simpl in *; tauto]. }
    cbn [bind]. rewrite map_map. reflexivity. }
  rewrite N. reflexivity.
Qed.

(** membership in the constraint list *)
Definition P_one (bn : bayesnet) (x : var -> Z) : Prop := forall v, In v (bn_V bn) -> zsum (map x (map (pair v) (seq 0 (len bn v)))) = 1%Z.
Definition P_out (bn : bayesnet) (x : var -> Z) : Prop := forall v ch i, In v (bn_V bn) -> In ch (bn_V bn) -> In v (nparents bn ch) -> i < len bn v ->
  (x (v, i) <= zsum (map x (map (pair ch) (ci bn ch v (i mod ncard bn v)))))%Z.
Definition P_in (bn : bayesnet) (x : var -> Z) : Prop := forall v i, In v (bn_V bn) -> nparents bn v <> [] -> i < len bn v ->
  (x (v, i) <= zsum (map x (concat (map (fun p => map (pair p) (hits bn v i p)) (nparents bn v)))))%Z.
Lemma cons_iff bn x : wfnet bn -> graph_ok bn -> agree bn ->
  (forall c, In c (rv_list bn ++ out_list bn ++ in_list bn) -> holds x c) <-> P_one bn x /\ P_out bn x /\ P_in bn x.
Proof.
  intros W G A. split.
  - intros H. split; [|split].
    + intros v Hv. apply (H (SumIs1 (map (pair v) (seq 0 (len bn v))))). apply in_or_app. left. unfold rv_list. apply in_map_iff. eauto.
    + intros v ch i Hv Hc P L. apply (H (AtMost (v, i) (map (pair ch) (ci bn ch v (i mod ncard bn v))))). apply in_or_app. right. apply in_or_app. left.
      unfold out_list. apply in_concat. eexists. split; [apply in_map_iff; exists v; split; [reflexivity|assumption]|].
      apply in_concat. eexists. split; [apply in_map_iff; exists i; split; [reflexivity|apply in_seq; lia]|].
      apply in_map_iff. exists ch. split; [reflexivity|]. apply (A v ch Hv Hc) in P as (c & E & Hin). unfold nchildren. now rewrite E.
    + intros v i Hv P L. apply (H (AtMost (v, i) (concat (map (fun p => map (pair p) (hits bn v i p)) (nparents bn v))))). apply in_or_app. right. apply in_or_app. right.
      unfold in_list. apply in_concat. eexists. split; [apply in_map_iff; exists v; split; [reflexivity|assumption]|].
      destruct (Nat.ltb_spec 0 (length (nparents bn v))) as [_|Z]; [|destruct (nparents bn v); [congruence|simpl in Z; lia]].
      apply in_map_iff. exists i. split; [reflexivity|apply in_seq; lia].
  - intros (H1 & H2 & H3) c Hc. apply in_app_or in Hc as [Hc|Hc]; [|apply in_app_or in Hc as [Hc|Hc]].
    + unfold rv_list in Hc. apply in_map_iff in Hc as (v & <- & Hv). exact (H1 v Hv).
    + unfold out_list in Hc. apply in_concat in Hc as (l & Hl & Hc). apply in_map_iff in Hl as (v & <- & Hv).
      apply in_concat in Hc as (l & Hl & Hc). apply in_map_iff in Hl as (i & <- & Hi). apply in_seq in Hi. apply in_map_iff in Hc as (ch & <- & Hch).
      unfold nchildren in Hch. destruct (go_E _ G v Hv) as (c & E & _ & Ic). rewrite E in Hch.
      assert (Hcv := Ic ch Hch). apply H2; try assumption; [|lia]. apply (A v ch Hv Hcv). exists c. split; assumption.
    + unfold in_list in Hc. apply in_concat in Hc as (l & Hl & Hc). apply in_map_iff in Hl as (v & <- & Hv).
      destruct (Nat.ltb_spec 0 (length (nparents bn v))) as [N|_]; [|destruct Hc]. apply in_map_iff in Hc as (i & <- & Hi). apply in_seq in Hi.
      apply H3; try assumption; [|lia]. intros E. rewrite E in N. simpl in N. lia.
Qed.

(** ** sums of 0/1 values *)
Lemma zsum_nonneg l : (forall z, In z l -> (0 <= z)%Z) -> (0 <= zsum l)%Z.
Proof. induction l as [|z l IH]; simpl; intros H; [lia|]. pose proof (H z (or_introl eq_refl)). assert (0 <= zsum l)%Z by (apply IH; auto). lia. Qed.
Lemma zsum_pos l : (forall z, In z l -> (0 <= z)%Z) -> In 1%Z l -> (1 <= zsum l)%Z.
Proof.
  induction l as [|z l IH]; simpl; intros H; [intros []|intros [->|I]].
  - pose proof (zsum_nonneg l (fun z Hz => H z (or_intror Hz))). lia.
  - pose proof (H z (or_introl eq_refl)). assert (1 <= zsum l)%Z by (apply IH; auto). lia.
Qed.
Lemma zsum_ge1 l : (forall z, In z l -> (0 <= z <= 1)%Z) -> (1 <= zsum l)%Z -> In 1%Z l.
Proof.
  induction l as [|z l IH]; simpl; intros H L; [lia|]. pose proof (H z (or_introl eq_refl)).
  assert (z = 0 \/ z = 1)%Z as [-> | ->] by lia; [right; apply IH; [auto|lia]|now left].
Qed.
Lemma zsum_one_unique {A} (x : A -> Z) l i j : NoDup l -> (forall y, In y l -> (0 <= x y)%Z) -> zsum (map x l) = 1%Z ->
  In i l -> In j l -> x i = 1%Z -> i <> j -> x j = 0%Z.
Proof.
  intros ND N Z Hi Hj E D. apply in_split in Hi as (p & q & ->). pose proof (N j Hj).
  assert (P : Permutation (p ++ i :: q) (i :: p ++ q)) by (symmetry; apply Permutation_middle).
  assert (Hj' : In j (p ++ q)) by (apply in_app_or in Hj as [Hj|[Hj|Hj]]; [apply in_or_app; auto|congruence|apply in_or_app; auto]).
  assert (Z' : zsum (map x (p ++ i :: q)) = (x i + zsum (map x (p ++ q)))%Z).
  { clear. induction p as [|y p IH]; simpl; [reflexivity|]. rewrite IH. lia. }
  rewrite Z' in Z. clear Z' P ND.
  assert (N' : forall y, In y (p ++ q) -> (0 <= x y)%Z) by (intros y Hy; apply N; apply in_or_app; apply in_app_or in Hy as [Hy|Hy]; [auto|right; now right]).
  apply in_split in Hj' as (p' & q' & Eq). rewrite Eq in Z, N'.
  assert (Z'' : zsum (map x (p' ++ j :: q')) = (x j + zsum (map x (p' ++ q')))%Z).
  { clear. induction p' as [|y p IH]; simpl; [reflexivity|]. rewrite IH. lia. }
  assert (0 <= zsum (map x (p' ++ q')))%Z.
  { apply zsum_nonneg. intros z Hz. apply in_map_iff in Hz as (y & <- & Hy). apply N'. apply in_or_app. apply in_app_or in Hy as [Hy|Hy]; [auto|right; now right]. }
  lia.
Qed.
Lemma zsum_ind {A} (x : A -> Z) l i : NoDup l -> In i l -> x i = 1%Z -> (forall y, In y l -> y <> i -> x y = 0%Z) -> zsum (map x l) = 1%Z.
Proof.
  intros ND Hi E Z. induction l as [|y l IH]; [destruct Hi|]. inversion ND; subst. simpl.
  destruct Hi as [<-|Hi].
  - rewrite E. assert (K : forall l', (forall z, In z l' -> x z = 0%Z) -> zsum (map x l') = 0%Z).
    { clear. induction l' as [|z l' IH]; simpl; intros H; [reflexivity|]. rewrite (H z) by auto. rewrite IH; auto. }
    rewrite K; [reflexivity|]. intros z Hz. apply Z; [now right|]. intros ->. contradiction.
  - rewrite IH; auto; [|intros; apply Z; [now right|assumption]]. rewrite (Z y); [reflexivity|now left|]. intros ->. contradiction.
Qed.

Definition in01 (bn : bayesnet) (x : var -> Z) : Prop := forall v i, In v (bn_V bn) -> i < len bn v -> (0 <= x (v, i) <= 1)%Z.
Lemma In_all_vars bn s v i q : In (s, (v, i), q) (all_vars bn) -> In v (bn_V bn) /\ i < len bn v /\ nth_error (ncpt bn v) i = Some q.
Proof.
  unfold all_vars. intros H. apply in_concat in H as (l & Hl & H). apply in_map_iff in Hl as (w & <- & Hw).
  apply in_map_iff in H as ([j p] & E & Hj). cbn [fst snd] in E. injection E as _ -> -> ->.
  split; [assumption|]. apply In_nth_error in Hj as (n & Hn).
  assert (Ln : n < length (combine (seq 0 (len bn v)) (ncpt bn v))) by (apply nth_error_Some; congruence).
  rewrite combine_length, seq_length in Ln. unfold len in *.
  assert (E2 : nth_error (combine (seq 0 (length (ncpt bn v))) (ncpt bn v)) n = Some (n, nth n (ncpt bn v) 0%Qc)).
  { rewrite (nth_error_nth' _ (0, 0%Qc)) by (rewrite combine_length, seq_length; lia). rewrite combine_nth by (now rewrite seq_length). rewrite seq_nth by lia. reflexivity. }
  rewrite E2 in Hn. injection Hn as -> <-. split; [lia|]. apply nth_error_nth'. lia.
Qed.
Lemma all_vars_In bn v i : In v (bn_V bn) -> i < len bn v -> exists s q, In (s, (v, i), q) (all_vars bn).
Proof.
  intros Hv L. exists (strid bn v i), (nth i (ncpt bn v) 0%Qc). unfold all_vars. apply in_concat.
  eexists. split; [apply in_map_iff; exists v; split; [reflexivity|assumption]|]. apply in_map_iff. exists (i, nth i (ncpt bn v) 0%Qc). split; [reflexivity|].
  unfold len in *. assert (E2 : nth_error (combine (seq 0 (length (ncpt bn v))) (ncpt bn v)) i = Some (i, nth i (ncpt bn v) 0%Qc)).
  { rewrite (nth_error_nth' _ (0, 0%Qc)) by (rewrite combine_length, seq_length; lia). rewrite combine_nth by (now rewrite seq_length). rewrite seq_nth by lia. reflexivity. }
  now apply nth_error_In in E2.
Qed.

Definition pick (bn : bayesnet) (x : var -> Z) (v : name) : nat :=
  match find (fun i => (x (v, i) =? 1)%Z) (seq 0 (len bn v)) with Some i => i | None => 0 end.

Lemma feasible_describes bn x : wfnet bn -> in01 bn x -> P_one bn x -> P_out bn x ->
  exists a, valid (ncard bn) (bn_V bn) a /\ describes bn x a.
Proof.
  intros W B H1 H2. set (a := fun v => dg bn v (pick bn x v) v).
  assert (K : forall v, In v (bn_V bn) -> pick bn x v < len bn v /\ x (v, pick bn x v) = 1%Z).
  { intros v Hv. specialize (H1 v Hv).
    assert (I1 : In 1%Z (map x (map (pair v) (seq 0 (len bn v))))).
    { apply zsum_ge1; [|lia]. intros z Hz. rewrite map_map in Hz. apply in_map_iff in Hz as (i & <- & Hi). apply in_seq in Hi. apply B; [assumption|lia]. }
    rewrite map_map in I1. apply in_map_iff in I1 as (i & E & Hi). unfold pick.
    destruct (find (fun i => (x (v, i) =? 1)%Z) (seq 0 (len bn v))) as [j|] eqn:F.
    - apply find_some in F as [Hj Ej]. apply in_seq in Hj. apply Z.eqb_eq in Ej. split; [lia|assumption].
    - apply (find_none _ _ F) in Hi. rewrite E in Hi. discriminate. }
  assert (U : forall v i, In v (bn_V bn) -> i < len bn v -> x (v, i) = 1%Z -> i = pick bn x v).
  { intros v i Hv L E. destruct (K v Hv) as [Lp Ep]. destruct (Nat.eq_dec i (pick bn x v)) as [|D]; [assumption|]. exfalso.
    assert (Z : x (v, pick bn x v) = 0%Z); [|lia].
    apply (zsum_one_unique x (map (pair v) (seq 0 (len bn v))) (v, i)).
    - apply FinFun.Injective_map_NoDup; [intros p q E'; congruence|apply seq_NoDup].
    - intros y Hy. apply in_map_iff in Hy as (j & <- & Hj). apply in_seq in Hj. apply B; [assumption|lia].
    - exact (H1 v Hv).
    - apply in_map. apply in_seq. lia.
    - apply in_map. apply in_seq. lia.
    - assumption.
    - congruence. }
  assert (Va : valid (ncard bn) (bn_V bn) a).
  { intros v Hv. unfold a. destruct (K v Hv) as [L _]. destruct (dg_ok bn v _ W Hv L) as [V _]. apply V. now left. }
  exists a. split; [assumption|].
  assert (R : forall v, In v (bn_V bn) -> radix (ncard bn) (sc bn v) a = pick bn x v).
  { intros v Hv. destruct (K v Hv) as [L E]. destruct (dg_ok bn v _ W Hv L) as [V Rd]. rewrite <- Rd at 1. apply radix_ext.
    intros w [<-|Hw]; [reflexivity|]. assert (Hw' := wn_par _ W v Hv w Hw). destruct (K w Hw') as [Lw Ew].
    pose proof (H2 w v (pick bn x w) Hw' Hv Hw Lw) as Q. rewrite Ew in Q.
    assert (M : pick bn x w mod ncard bn w < ncard bn w) by (pose proof (card_pos bn w W Hw'); apply Nat.mod_upper_bound; lia).
    destruct (ci_ok bn v w _ W Hv (or_intror Hw) M) as [_ Hci].
    assert (I1 : In 1%Z (map x (map (pair v) (ci bn v w (pick bn x w mod ncard bn w))))).
    { apply zsum_ge1; [|assumption]. intros z Hz. rewrite map_map in Hz. apply in_map_iff in Hz as (i & <- & Hi). apply Hci in Hi. apply B; tauto. }
    rewrite map_map in I1. apply in_map_iff in I1 as (i & Ei & Hi). apply Hci in Hi as [Li Di].
    apply U in Ei; [|assumption|assumption]. subst i. unfold a. rewrite dg_self by assumption. now symmetry. }
  intros v i Hv L. change (i < len bn v) in L. change (v :: nparents bn v) with (sc bn v). rewrite R by assumption. destruct (Nat.eqb_spec i (pick bn x v)) as [->|D].
  - now apply K.
  - pose proof (B v i Hv L). assert (x (v, i) <> 1%Z) by (intros E; apply D; now apply U). lia.
Qed.

Lemma describes_feasible bn x a : wfnet bn -> valid (ncard bn) (bn_V bn) a -> describes bn x a ->
  in01 bn x /\ P_one bn x /\ P_out bn x /\ P_in bn x.
Proof.
  intros W Va D.
  assert (Vs : forall v, In v (bn_V bn) -> valid (ncard bn) (sc bn v) a).
  { intros v Hv. apply (valid_incl _ (sc bn v) (bn_V bn)); [|assumption]. intros w [<-|Hw]; [assumption|now apply (wn_par _ W v Hv)]. }
  assert (Rx : forall v, In v (bn_V bn) -> x (v, radix (ncard bn) (sc bn v) a) = 1%Z).
  { intros v Hv. rewrite (D v _ Hv) by (apply radix_len; auto). unfold sc. now rewrite Nat.eqb_refl. }
  assert (B : in01 bn x). { intros v i Hv L. rewrite (D v i Hv L). destruct (i =? _); lia. }
  assert (X1 : forall v i, In v (bn_V bn) -> i < len bn v -> x (v, i) = 1%Z -> i = radix (ncard bn) (sc bn v) a).
  { intros v i Hv L E. rewrite (D v i Hv L) in E. change (v :: nparents bn v) with (sc bn v) in E. destruct (Nat.eqb_spec i (radix (ncard bn) (sc bn v) a)); [assumption|discriminate]. }
  split; [assumption|]. split; [|split].
  - intros v Hv. apply (zsum_ind x _ (v, radix (ncard bn) (sc bn v) a)).
    + apply FinFun.Injective_map_NoDup; [intros p q E'; congruence|apply seq_NoDup].
    + apply in_map. apply in_seq. pose proof (radix_len bn v a W Hv (Vs v Hv)). lia.
    + auto.
    + intros y Hy N. apply in_map_iff in Hy as (i & <- & Hi). apply in_seq in Hi. assert (L : i < len bn v) by lia.
      pose proof (B v i Hv L). assert (x (v, i) <> 1%Z) by (intros E; apply N; f_equal; now apply X1). lia.
  - intros v ch i Hv Hc P L.
    assert (M : i mod ncard bn v < ncard bn v) by (pose proof (card_pos bn v W Hv); apply Nat.mod_upper_bound; lia).
    destruct (ci_ok bn ch v _ W Hc (or_intror P) M) as [_ Hci].
    assert (N : forall z, In z (map x (map (pair ch) (ci bn ch v (i mod ncard bn v)))) -> (0 <= z)%Z).
    { intros z Hz. rewrite map_map in Hz. apply in_map_iff in Hz as (j & <- & Hj). apply Hci in Hj. apply B; tauto. }
    pose proof (B v i Hv L). assert (x (v, i) = 0 \/ x (v, i) = 1)%Z as [Z0 | Z1] by lia.
    + rewrite Z0. now apply zsum_nonneg.
    + rewrite Z1. apply zsum_pos; [assumption|]. rewrite map_map. apply in_map_iff. exists (radix (ncard bn) (sc bn ch) a). split; [auto|].
      apply Hci. split; [apply radix_len; auto|]. rewrite dg_radix by (auto; now right). apply X1 in Z1; [|assumption..].
      rewrite <- dg_self by assumption. subst i. rewrite dg_radix by (auto; now left). reflexivity.
  - intros v i Hv P L.
    assert (N : forall z, In z (map x (concat (map (fun p => map (pair p) (hits bn v i p)) (nparents bn v)))) -> (0 <= z)%Z).
    { intros z Hz. apply in_map_iff in Hz as (y & <- & Hy). apply in_concat in Hy as (l & Hl & Hy). apply in_map_iff in Hl as (p & <- & Hp).
      apply in_map_iff in Hy as (k & <- & Hk). apply In_hits in Hk. apply B; [exact (wn_par _ W v Hv p Hp)|tauto]. }
    pose proof (B v i Hv L). assert (x (v, i) = 0 \/ x (v, i) = 1)%Z as [Z0 | Z1] by lia.
    + rewrite Z0. now apply zsum_nonneg.
    + rewrite Z1. apply zsum_pos; [assumption|]. destruct (nparents bn v) as [|p ps] eqn:E; [congruence|]. rewrite <- E in *.
      assert (Hp : In p (nparents bn v)) by (rewrite E; now left). assert (Hp' := wn_par _ W v Hv p Hp).
      apply in_map_iff. exists (p, radix (ncard bn) (sc bn p) a). split; [auto|]. apply in_concat.
      eexists. split; [apply in_map_iff; exists p; split; [reflexivity|assumption]|]. apply in_map. apply In_hits.
      assert (Lp := radix_len bn p a W Hp' (Vs p Hp')). split; [assumption|].
      assert (M : radix (ncard bn) (sc bn p) a mod ncard bn p < ncard bn p) by (pose proof (card_pos bn p W Hp'); apply Nat.mod_upper_bound; lia).
      apply (ci_ok bn v p _ W Hv (or_intror Hp) M). split; [assumption|]. rewrite <- dg_self by assumption. rewrite dg_radix by (auto; now left).
      apply X1 in Z1; [|assumption..]. subst i. now rewrite dg_radix by (auto; now right).
Qed.

Lemma feasible_iff bn ev m x : wfnet bn -> graph_ok bn -> agree bn -> ilp_map bn ev = Ok m ->
  feasible m x <-> in01 bn x /\ P_one bn x /\ P_out bn x /\ P_in bn x.
Proof.
  intros W G A E. rewrite ilp_closed in E by assumption. injection E as <-. unfold feasible. cbn [lp_vars lp_cons]. rewrite cons_iff by assumption.
  assert (Q : (forall s v, In (s, v) (map fst (all_vars bn)) -> (0 <= x v <= 1)%Z) <-> in01 bn x); [|tauto]. split.
  - intros H v i Hv L. destruct (all_vars_In bn v i Hv L) as (s & q & I). apply (H s). apply (in_map fst) in I. exact I.
  - intros B s [v i] Hin. apply in_map_iff in Hin as ([t q] & E & I). cbn [fst] in E. subst t. apply In_all_vars in I. apply B; tauto.
Qed.

Lemma objective_at bn ev m w x a : wfnet bn -> graph_ok bn -> agree bn -> ilp_map bn ev = Ok m ->
  valid (ncard bn) (bn_V bn) a -> describes bn x a -> objective w m x = total_weight w bn a.
Proof.
  intros W G A E Va D. rewrite ilp_closed in E by assumption. injection E as <-. unfold objective, total_weight. cbn [lp_obj]. rewrite map_map. cbn [fst snd].
  unfold all_vars. assert (I : incl (bn_V bn) (bn_V bn)) by apply incl_refl. revert I. generalize (bn_V bn) at 1 3 4. intros V.
  induction V as [|v V IH]; intros I; [reflexivity|]. cbn [map concat]. rewrite map_app, qsum_app.
  match goal with |- _ = qsum (?y :: ?l) => change (qsum (y :: l)) with (y + qsum l)%Qc end.
  f_equal; [|apply IH; intros y Hy; apply I; now right]. clear IH. assert (Hv : In v (bn_V bn)) by (apply I; now left).
  assert (Vs : valid (ncard bn) (sc bn v) a) by (apply (valid_incl _ (sc bn v) (bn_V bn)); [intros u [<-|Hu]; [assumption|now apply (wn_par _ W v Hv)]|assumption]).
  rewrite map_map. cbn [fst snd]. assert (Lr := radix_len bn v a W Hv Vs). unfold cond_prob. change (v :: nparents bn v) with (sc bn v) in *.
  assert (T : forall l o, (forall i, i < length l -> x (v, o + i) = if o + i =? radix (ncard bn) (sc bn v) a then 1%Z else 0%Z) ->
    qsum (map (fun ip => zQc (x (v, fst ip)) * w (snd ip))%Qc (combine (seq o (length l)) l)) =
    if (o <=? radix (ncard bn) (sc bn v) a) && (radix (ncard bn) (sc bn v) a <? o + length l) then w (getq (nth_error l (radix (ncard bn) (sc bn v) a - o))) else 0%Qc).
  { generalize (radix (ncard bn) (sc bn v) a). clear. intros r. induction l as [|q l IH]; intros o H.
    - simpl. destruct (Nat.leb_spec o r), (Nat.ltb_spec r (o + 0)); try reflexivity; lia.
    - cbn [length seq combine map fst snd]. match goal with |- qsum (?y :: ?l) = _ => change (qsum (y :: l)) with (y + qsum l)%Qc end. rewrite IH.
      2:{ intros i L. specialize (H (S i)). rewrite Nat.add_succ_r in H. apply H. simpl. lia. }
      pose proof (H 0) as H0. rewrite Nat.add_0_r in H0. rewrite H0 by (simpl; lia). clear H0 H IH.
      destruct (Nat.eqb_spec o r) as [->|N].
      + destruct (Nat.leb_spec (S r) r); [lia|]. destruct (Nat.leb_spec r r); [|lia]. destruct (Nat.ltb_spec r (r + S (length l))); [|lia].
        cbn [andb]. rewrite Nat.sub_diag. cbn [nth_error getq]. change (zQc 1) with 1%Qc. ring.
      + change (zQc 0) with 0%Qc. destruct (Nat.leb_spec (S o) r), (Nat.leb_spec o r); try lia; cbn [andb]; [|ring].
        rewrite Nat.add_succ_r. cbn [Nat.add]. destruct (r <? S (o + length l)); [|ring]. replace (r - o) with (S (r - S o)) by lia. cbn [nth_error]. ring. }
  unfold len. rewrite T.
  - rewrite Nat.sub_0_r. cbn [Nat.leb Nat.add andb]. unfold len in Lr. apply Nat.ltb_lt in Lr. now rewrite Lr.
  - intros i L. simpl. apply (D v i Hv L).
Qed.
