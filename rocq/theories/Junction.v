(** Junction.v -- the spanning tree of the maximal cliques of a chordal graph has the running intersection property. *)
From Verif Require Import Py Num BayesNet Factor SpecFactor SpecGraph SpecMst GraphTheory Graph Mst FactorMul Chordal Dirac CliqueTree SpecClique CliqueFacts CliqueInit CliqueBuild CliqueSend CliqueBP CliqueMain CliqueExact.
Open Scope nat_scope.

(** ** counting shared variables *)
Section Count.
  Variable sc : nat -> list name.
  Definition has (v : name) (k : nat) : nat := if mem v (sc k) then 1 else 0.
  Definition both (v : name) (e : nat * nat) : nat := if mem v (sc (fst e)) && mem v (sc (snd e)) then 1 else 0.
  Definition cnt (v : name) (es : list (nat * nat)) : nat := list_sum (map (both v) es).
  Definition occ (v : name) (l : list nat) : nat := list_sum (map (has v) l).
  Lemma has_1 v k : In v (sc k) -> has v k = 1. Proof. unfold has. intros H. apply mem_In in H. now rewrite H. Qed.
  Lemma has_0 v k : ~ In v (sc k) -> has v k = 0. Proof. unfold has. intros H. apply mem_false in H. now rewrite H. Qed.
  Lemma list_sum_perm l m : Permutation l m -> list_sum l = list_sum m.
  Proof. intros P. induction P; simpl; lia. Qed.
  Lemma occ_perm v l m : Permutation l m -> occ v l = occ v m.
  Proof. intros P. apply list_sum_perm. now apply Permutation_map. Qed.
  Lemma occ_pos v l k : In k l -> In v (sc k) -> 1 <= occ v l.
  Proof.
    intros Hk Hv. apply in_split in Hk as (p & q & ->). unfold occ. rewrite map_app, list_sum_app. simpl. rewrite has_1 by assumption. lia.
  Qed.
  Lemma occ_0 v l : (forall k, In k l -> ~ In v (sc k)) -> occ v l = 0.
  Proof. induction l as [|k l IH]; intros H; [reflexivity|]. unfold occ. simpl. rewrite has_0 by (apply H; now left). apply IH. intros x Hx. apply H. now right. Qed.
  Lemma occ_ex v l : 1 <= occ v l -> exists k, In k l /\ In v (sc k).
  Proof.
    induction l as [|k l IH]; intros H; [unfold occ in H; simpl in H; lia|]. destruct (in_dec name_eq_dec v (sc k)) as [Y|N]; [exists k; split; [now left|exact Y]|].
    unfold occ in H. simpl in H. rewrite has_0 in H by assumption. destruct (IH H) as (x & Hx & Y). exists x. split; [now right|exact Y].
  Qed.

  Lemma both_1 v i j : In v (sc i) -> In v (sc j) -> both v (i, j) = 1.
  Proof. unfold both. simpl. intros A B. apply mem_In in A, B. now rewrite A, B. Qed.
  Lemma both_0 v i j : ~ In v (sc i) \/ ~ In v (sc j) -> both v (i, j) = 0.
  Proof. unfold both. simpl. intros [A|A]; apply mem_false in A; rewrite A; [reflexivity|now rewrite andb_false_r]. Qed.

  Lemma sends_le root rem es v : sends root rem es -> cnt v es + Nat.min 1 (occ v rem) <= occ v rem.
  Proof.
    intros H. induction H as [|i j rem rem' es P Hj Ni NI _ IH]; [change (cnt v []) with 0; lia|].
    rewrite (occ_perm v _ _ P). unfold cnt, occ in *. cbn [map list_sum fold_right]. fold (list_sum (map (both v) es)). fold (list_sum (map (has v) rem')).
    destruct (in_dec name_eq_dec v (sc i)) as [Y|N].
    - rewrite (has_1 v i Y). destruct (in_dec name_eq_dec v (sc j)) as [Y2|N2].
      + rewrite both_1 by assumption. assert (K := occ_pos v rem' j Hj Y2). unfold occ in K. lia.
      + rewrite both_0 by tauto. lia.
    - rewrite both_0 by tauto. rewrite (has_0 v i N). lia.
  Qed.
  Lemma schedule_eq root rem es v : schedule sc root rem es -> cnt v es + Nat.min 1 (occ v rem) = occ v rem.
  Proof.
    intros H. induction H as [|i j rem rem' es P Hj Ni Rip _ IH]; [unfold cnt, occ; simpl; unfold has; destruct (mem v (sc root)); reflexivity|].
    rewrite (occ_perm v _ _ P). unfold cnt, occ in *. cbn [map list_sum fold_right]. fold (list_sum (map (both v) es)). fold (list_sum (map (has v) rem')).
    destruct (in_dec name_eq_dec v (sc i)) as [Y|N].
    - rewrite (has_1 v i Y). destruct (in_dec name_eq_dec v (sc j)) as [Y2|N2].
      + rewrite both_1 by assumption. assert (K := occ_pos v rem' j Hj Y2). unfold occ in K. lia.
      + rewrite both_0 by tauto. assert (K : occ v rem' = 0) by (apply occ_0; intros k Hk C; apply N2; now apply (Rip k v)). unfold occ in K. lia.
    - rewrite both_0 by tauto. rewrite (has_0 v i N). lia.
  Qed.
  Lemma eq_schedule root rem es : sends root rem es -> (forall v, cnt v es + Nat.min 1 (occ v rem) = occ v rem) -> schedule sc root rem es.
  Proof.
    intros H. induction H as [|i j rem rem' es P Hj Ni NI Sn IH]; intros E; [constructor|].
    assert (E' : forall v, both v (i, j) + cnt v es + Nat.min 1 (has v i + occ v rem') = has v i + occ v rem').
    { intros v. specialize (E v). rewrite (occ_perm v _ _ P) in E. exact E. }
    apply (sch_send _ _ i j rem rem' es P Hj Ni).
    - intros k v Hk Hi Hv. destruct (in_dec name_eq_dec v (sc j)) as [Y|N]; [exact Y|exfalso]. specialize (E' v). rewrite both_0 in E' by tauto. rewrite has_1 in E' by assumption.
      assert (K := occ_pos v rem' k Hk Hv). assert (L := sends_le _ _ _ v Sn). lia.
    - apply IH. intros v. specialize (E' v). assert (L := sends_le _ _ _ v Sn). destruct (in_dec name_eq_dec v (sc i)) as [Y|N].
      + rewrite has_1 in E' by assumption. destruct (in_dec name_eq_dec v (sc j)) as [Y2|N2]; [rewrite both_1 in E' by assumption|rewrite both_0 in E' by tauto]; lia.
      + rewrite both_0, has_0 in E' by tauto. lia.
  Qed.
  Lemma schedule_sends root rem es : NoDup rem -> schedule sc root rem es -> sends root rem es.
  Proof.
    intros ND H. induction H as [|i j rem rem' es P Hj Ni Rip Sc IH]; [constructor|]. assert (ND' := Permutation_NoDup P ND). inversion ND'; subst. econstructor; try eassumption. auto.
  Qed.
  Lemma sends_NoDup root rem es : sends root rem es -> NoDup rem.
  Proof. intros H. induction H as [|i j rem rem' es P Hj Ni NI Sn IH]; [constructor; [intros []|constructor]|]. apply (Permutation_NoDup (Permutation_sym P)). now constructor. Qed.

  Definition sumw (es : list (nat * nat)) : nat := list_sum (map (fun e => length (set_inter (sc (fst e)) (sc (snd e)))) es).
  Lemma list_sum_add {A} (f g : A -> nat) l : list_sum (map (fun x => f x + g x) l) = list_sum (map f l) + list_sum (map g l).
  Proof. induction l as [|x l IH]; [reflexivity|]. cbn [map list_sum fold_right]. fold (list_sum (map (fun x => f x + g x) l)) (list_sum (map f l)) (list_sum (map g l)). lia. Qed.
  Lemma list_sum_zero {A} (l : list A) : list_sum (map (fun _ => 0) l) = 0.
  Proof. induction l; [reflexivity|assumption]. Qed.
  Lemma inter_count U e : NoDup U -> incl (sc (fst e)) U -> length (set_inter (sc (fst e)) (sc (snd e))) = list_sum (map (fun v => both v e) U).
  Proof.
    intros ND I. transitivity (length (filter (fun v => mem v (sc (fst e)) && mem v (sc (snd e))) U)).
    - apply Permutation_length. apply perm_of_iff; [unfold set_inter; apply NoDup_filter, NoDup_dedup|now apply NoDup_filter|].
      intros v. rewrite In_set_inter, filter_In, andb_true_iff, !mem_In. split; [|tauto]. intros [A B]. auto.
    - clear ND I. unfold both. induction U as [|v U IH]; [reflexivity|]. cbn [filter map]. destruct (mem v (sc (fst e)) && mem v (sc (snd e))); simpl; simpl in IH; lia.
  Qed.
  Lemma sumw_count U es : NoDup U -> (forall e, In e es -> incl (sc (fst e)) U) -> sumw es = list_sum (map (fun v => cnt v es) U).
  Proof.
    intros ND. induction es as [|e es IH]; intros I; [unfold sumw, cnt; simpl; now rewrite list_sum_zero|].
    unfold sumw, cnt in *. cbn [map list_sum fold_right]. fold (list_sum (map (fun e => length (set_inter (sc (fst e)) (sc (snd e)))) es)).
    rewrite IH by (intros x Hx; apply I; now right). rewrite (inter_count U e ND) by (apply I; now left).
    rewrite <- list_sum_add. reflexivity.
  Qed.
  Lemma sum_squeeze {A} (f g : A -> nat) l : (forall x, In x l -> f x <= g x) -> list_sum (map g l) <= list_sum (map f l) -> forall x, In x l -> f x = g x.
  Proof.
    induction l as [|y l IH]; intros Le S x Hx; [destruct Hx|]. cbn [map list_sum fold_right] in S. fold (list_sum (map f l)) (list_sum (map g l)) in S.
    assert (Tl : list_sum (map f l) <= list_sum (map g l)).
    { clear - Le. induction l as [|z l IH]; [auto|]. cbn [map list_sum fold_right]. fold (list_sum (map f l)) (list_sum (map g l)). assert (f z <= g z) by (apply Le; right; now left).
      assert (list_sum (map f l) <= list_sum (map g l)); [|lia]. apply IH. intros x [<-|Hx]; [apply Le; now left|apply Le; right; now right]. }
    assert (f y <= g y) by (apply Le; now left). destruct Hx as [<-|Hx]; [lia|]. apply IH; [intros z Hz; apply Le; now right|lia|exact Hx].
  Qed.

  (** a maximum weight order has the running intersection property as soon as some order has it *)
  Lemma best_schedule root root' rem es es' : sends root rem es -> schedule sc root' rem es' -> sumw es' <= sumw es -> schedule sc root rem es.
  Proof.
    intros Sn Sc Le. apply eq_schedule; [exact Sn|]. intros v.
    set (U := dedup (flat_map sc rem)). assert (NDU : NoDup U) by apply NoDup_dedup.
    assert (IU : forall k, In k rem -> incl (sc k) U) by (intros k Hk x Hx; apply In_dedup; apply in_flat_map; eauto).
    assert (Ends : forall root rem0 es0, sends root rem0 es0 -> forall e, In e es0 -> In (fst e) rem0 /\ In (snd e) rem0).
    { intros r0 rem0 es0 H. induction H as [|i j rm rm' e0 P Hj Ni NI _ IH]; intros e He; [destruct He|]. destruct He as [<-|He].
      - simpl. split; apply (Permutation_in _ (Permutation_sym P)); [now left|now right].
      - destruct (IH e He). split; apply (Permutation_in _ (Permutation_sym P)); now right. }
    assert (Sn' := schedule_sends _ _ _ (sends_NoDup _ _ _ Sn) Sc).
    destruct (in_dec name_eq_dec v U) as [Y|N].
    - assert (Q : cnt v es = cnt v es').
      { apply (sum_squeeze (fun v => cnt v es) (fun v => cnt v es') U); [|rewrite <- !(sumw_count U); auto; intros e He; apply IU; first [apply (Ends _ _ _ Sn' e He)|apply (Ends _ _ _ Sn e He)]|exact Y].
        intros w _. assert (A := sends_le _ _ _ w Sn). assert (B := schedule_eq _ _ _ w Sc). lia. }
      rewrite Q. now apply (schedule_eq root').
    - assert (Z : occ v rem = 0) by (apply occ_0; intros k Hk C; apply N; now apply (IU k)). assert (A := sends_le _ _ _ v Sn). lia.
  Qed.
End Count.

(** ** an order with running intersection exists *)
Section Peo.
  Variable es : list (name * name).
  Notation nb := (nbr es).
  Definition pairwise (s : list name) : Prop := forall a b, In a s -> In b s -> a <> b -> nb a b.
  Definition mc (L s : list name) : Prop :=
    s <> [] /\ incl s L /\ pairwise s /\ forall x, In x L -> (forall a, In a s -> a <> x -> nb a x) -> In x s.
  Lemma extend L : forall M s, s <> [] -> incl s L -> pairwise s -> (forall x, In x L -> ~ In x M -> (forall a, In a s -> a <> x -> nb a x) -> In x s) ->
    incl M L -> exists q, mc L q /\ incl s q.
  Proof.
    induction M as [|x M IH]; intros s Ne I P Mx IM.
    - exists s. split; [|apply incl_refl]. split; [exact Ne|]. split; [exact I|]. split; [exact P|]. intros x Hx A. now apply Mx.
    - assert (IM' : incl M L) by (intros y Hy; apply IM; now right).
      assert (D : (forall a, In a s -> a <> x -> nb a x) \/ exists a, In a s /\ a <> x /\ ~ nb a x).
      { destruct (Exists_dec (fun a => a <> x /\ ~ nb a x) s) as [Y|N].
        - intros a. destruct (name_eq_dec a x); [right; tauto|]. destruct (nbr_dec es a x); [right; tauto|left; tauto].
        - right. apply Exists_exists in Y as (a & Ha & K). exists a. tauto.
        - left. intros a Ha Na. destruct (nbr_dec es a x) as [Y|Q]; [exact Y|]. exfalso. apply N. apply Exists_exists. exists a. tauto. }
      destruct D as [A|(a & Ha & Na & Aa)].
      + destruct (IH (x :: s)) as (q & Mq & Iq).
        * discriminate.
        * intros y [<-|Hy]; [apply IM; now left|now apply I].
        * intros a b [<-|Ha] [<-|Hb] Nab; [congruence|apply nbr_sym; auto|auto|auto].
        * intros y Hy Ny Ay. destruct (name_eq_dec y x) as [->|N]; [now left|right]. apply Mx; [exact Hy|intros [->|C]; congruence|]. intros a Ha. apply Ay. now right.
        * exact IM'.
        * exists q. split; [exact Mq|]. intros y Hy. apply Iq. now right.
      + apply (IH s Ne I P); [|exact IM']. intros y Hy Ny Ay. destruct (name_eq_dec y x) as [->|N]; [exfalso; apply Aa; now apply Ay|]. apply Mx; [exact Hy|intros [->|C]; congruence|exact Ay].
  Qed.
  Lemma extend_clique L s : s <> [] -> incl s L -> pairwise s -> exists q, mc L q /\ incl s q.
  Proof. intros Ne I P. apply (extend L L s Ne I P); [|apply incl_refl]. intros x Hx Nx. contradiction. Qed.

  Section Step.
    Variables (v : name) (r : list name).
    Hypothesis Nv : ~ In v r.
    Hypothesis Sv : simp es r v.
    Definition later_nbrs : list name := filter (fun x => if nbr_dec es v x then true else false) r.
    Notation N := later_nbrs.
    Lemma In_N x : In x N <-> In x r /\ nb v x.
    Proof. unfold N. rewrite filter_In. destruct (nbr_dec es v x); intuition congruence. Qed.
    Lemma N_clique : pairwise N.
    Proof. intros a b Ha Hb Nab. apply In_N in Ha as [Ha Aa]. apply In_N in Hb as [Hb Ab]. now apply Sv. Qed.
    Lemma mc_with s : mc (v :: r) s -> In v s -> same_set s (v :: N).
    Proof.
      intros (Ne & I & P & M) Hv.
      assert (I1 : incl s (v :: N)).
      { intros x Hx. destruct (name_eq_dec x v) as [->|Nx]; [now left|right]. apply In_N. split; [destruct (I x Hx) as [->|K]; [congruence|exact K]|]. apply P; auto. }
      intros x. split; [apply I1|]. intros [<-|Hx]; [exact Hv|]. apply M.
      - right. now apply In_N.
      - intros a Ha Na. apply I1 in Ha as [<-|Ha]; [now apply In_N|]. now apply N_clique.
    Qed.
    Lemma mc_without s : mc (v :: r) s -> ~ In v s -> mc r s /\ ~ incl s N.
    Proof.
      intros (Ne & I & P & M) Hv. split.
      - split; [exact Ne|]. split; [intros x Hx; destruct (I x Hx) as [->|K]; [contradiction|exact K]|]. split; [exact P|]. intros x Hx. apply M. now right.
      - intros C. apply Hv. apply M; [now left|]. intros a Ha _. apply nbr_sym. apply In_N. now apply C.
    Qed.
    Lemma mc_keep s : mc r s -> ~ incl s N -> mc (v :: r) s.
    Proof.
      intros (Ne & I & P & M) NI. split; [exact Ne|]. split; [intros x Hx; right; now apply I|]. split; [exact P|]. intros x [<-|Hx]; [|now apply M].
      intros A. exfalso. apply NI. intros a Ha. apply In_N. split; [now apply I|]. apply nbr_sym. apply A; [exact Ha|]. intros ->. apply Nv. now apply I.
    Qed.
    Lemma mc_new : mc (v :: r) (v :: N).
    Proof.
      split; [discriminate|]. split; [intros x [<-|Hx]; [now left|right; now apply In_N]|]. split.
      - intros a b [<-|Ha] [<-|Hb] Nab; [congruence|now apply In_N|apply nbr_sym; now apply In_N|now apply N_clique].
      - intros x [<-|Hx] A; [now left|]. right. apply In_N. split; [exact Hx|]. apply A; [now left|]. intros ->. contradiction.
    Qed.
    Lemma mc_within s : mc r s -> incl s N -> same_set s N.
    Proof.
      intros (Ne & I & P & M) C x. split; [apply C|]. intros Hx. apply M; [now apply In_N|]. intros a Ha Na. apply N_clique; auto.
    Qed.
  End Step.

  Fixpoint rip (Q : list (list name)) : Prop :=
    match Q with
    | [] => True
    | s :: r => rip r /\ (r = [] \/ exists t, In t r /\ forall k v, In k r -> In v s -> In v k -> In v t)
    end.
  Fixpoint distinct (Q : list (list name)) : Prop :=
    match Q with [] => True | s :: r => (forall t, In t r -> ~ same_set s t) /\ distinct r end.
  Definition enum (L : list name) (Q : list (list name)) : Prop :=
    (forall q, In q Q -> mc L q) /\ (forall s, mc L s -> exists q, In q Q /\ same_set s q) /\ distinct Q.

  Lemma distinct_swap p q s K : distinct (p ++ q :: s) -> (forall t, In t (p ++ s) -> ~ same_set K t) -> distinct (p ++ K :: s).
  Proof.
    induction p as [|a p IH]; simpl; intros D H.
    - split; [exact H|apply D].
    - destruct D as [D1 D2]. split; [|apply IH; [exact D2|intros t Ht; apply H; now right]].
      intros t Ht. apply in_app_or in Ht as [Ht|[<-|Ht]]; [apply D1; apply in_or_app; now left| |apply D1; apply in_or_app; right; now right].
      intros C. apply (H a); [now left|]. intros x. symmetry. apply C.
  Qed.
  Lemma rip_swap v N K p q s : rip (p ++ q :: s) -> (forall k, In k (p ++ s) -> ~ In v k) -> same_set q N -> K = v :: N -> rip (p ++ K :: s).
  Proof.
    intros R Hv Sq ->. induction p as [|a p IH]; cbn [app rip] in *.
    - destruct R as [R1 [->|(t & Ht & R2)]]; (split; [auto|]); [now left|right]. exists t. split; [exact Ht|]. intros k w Hk [<-|Hw] Hwk; [exfalso; now apply (Hv k)|]. apply (R2 k w Hk); [now apply Sq|exact Hwk].
    - destruct R as [R1 R2]. split; [apply IH; [exact R1|intros k Hk; apply Hv; now right]|]. destruct R2 as [R2|(t & Ht & R2)]; [destruct p; discriminate|right].
      assert (Na : ~ In v a) by (apply Hv; now left).
      assert (G : forall t', (forall w, In w t -> In w t') -> In t' (p ++ (v :: N) :: s) -> exists t', In t' (p ++ (v :: N) :: s) /\ forall k w, In k (p ++ (v :: N) :: s) -> In w a -> In w k -> In w t').
      { intros t' It Ht'. exists t'. split; [exact Ht'|]. intros k w Hk Hw Hwk. apply It. apply in_app_or in Hk as [Hk|[<-|Hk]].
        - apply (R2 k w); auto. apply in_or_app. now left.
        - destruct Hwk as [<-|Hwk]; [contradiction|]. apply (R2 q w); [apply in_or_app; right; now left|exact Hw|now apply Sq].
        - apply (R2 k w); auto. apply in_or_app. right. now right. }
      apply in_app_or in Ht as [Ht|[<-|Ht]].
      + apply (G t); [auto|apply in_or_app; now left].
      + apply (G (v :: N)); [intros w Hw; right; now apply Sq|apply in_or_app; right; now left].
      + apply (G t); [auto|apply in_or_app; right; now right].
  Qed.

  Lemma junction_exists L : peo es L -> L <> [] -> exists Q, Q <> [] /\ enum L Q /\ rip Q /\ length Q <= length L /\
    ((exists a b, In a L /\ In b L /\ nb a b) -> length Q < length L).
  Proof.
    intros P. induction P as [|v r Nv Sv P IH]; intros NE; [congruence|].
    destruct r as [|r0 r'].
    { exists [[v]]. split; [discriminate|]. split; [|split; [cbn; auto|split; [auto|]]].
      - split; [|split].
        + intros q [<-|[]]. split; [discriminate|]. split; [apply incl_refl|]. split; [intros a b [<-|[]] [<-|[]]; congruence|]. intros x [<-|[]]. now left.
        + intros s (Ne & I & Ps & M). exists [v]. split; [now left|]. intros x. split; [apply I|]. intros [<-|[]]. destruct s as [|y s]; [congruence|]. destruct (I y) as [->|[]]; now left.
        + cbn. split; [intros t []|exact Logic.I].
      - intros (a & b & [<-|[]] & [<-|[]] & A). exfalso. now apply A. }
    set (r := r0 :: r') in *. destruct IH as (Q & NQ & (E1 & E2 & E3) & R & Le & Lt); [discriminate|].
    set (N := later_nbrs v r).
    destruct (Exists_dec (fun q => incl q N) Q) as [Y|NY].
    { intros q. destruct (Forall_dec (fun x => In x N) (fun x => in_dec name_eq_dec x N) q) as [F|F]; rewrite Forall_forall in F; [now left|now right]. }
    - (* the neighbourhood was a maximal clique: enlarge it *)
      apply Exists_exists in Y as (q & Hq & Iq). assert (Sq : same_set q N) by (apply mc_within; auto).
      assert (Hv : forall k, In k Q -> ~ In v k) by (intros k Hk C; apply Nv; destruct (E1 k Hk) as (_ & I & _); now apply I).
      apply in_split in Hq as (p & s & EQ). exists (p ++ (v :: N) :: s).
      assert (Hps : forall k, In k (p ++ s) -> In k Q) by (intros k Hk; rewrite EQ; apply in_app_or in Hk; apply in_or_app; simpl; tauto).
      assert (Dps : forall k, In k (p ++ s) -> ~ same_set q k).
      { rewrite EQ in E3. clear - E3. intros k Hk C. induction p as [|a p IH]; simpl in *; [destruct E3 as [D _]; now apply (D k)|]. destruct E3 as [D1 D2]. destruct Hk as [<-|Hk]; [|now apply IH].
        apply (D1 q); [apply in_or_app; right; now left|]. intros x. symmetry. apply C. }
      split; [destruct p; discriminate|]. split; [split; [|split]|].
      + intros k Hk. apply in_app_or in Hk as [Hk|[<-|Hk]]; [|now apply mc_new|].
        * assert (Hk' : In k (p ++ s)) by (apply in_or_app; now left). apply mc_keep; auto. intros C. apply (Dps k Hk'). assert (K := mc_within v r Sv k (E1 k (Hps k Hk')) C). intros x. now rewrite (Sq x), (K x).
        * assert (Hk' : In k (p ++ s)) by (apply in_or_app; now right). apply mc_keep; auto. intros C. apply (Dps k Hk'). assert (K := mc_within v r Sv k (E1 k (Hps k Hk')) C). intros x. now rewrite (Sq x), (K x).
      + intros m Hm. destruct (in_dec name_eq_dec v m) as [Yv|Nvm]; [exists (v :: N); split; [apply in_or_app; right; now left|now apply mc_with]|].
        apply mc_without in Hm as [Hm NI]; auto. destruct (E2 m Hm) as (k & Hk & Sk). exists k. split; [|exact Sk]. rewrite EQ in Hk. apply in_app_or in Hk as [Hk|[<-|Hk]]; [apply in_or_app; now left| |apply in_or_app; right; now right].
        exfalso. apply NI. intros x Hx. apply Sq. now apply Sk.
      + apply (distinct_swap p q s); [now rewrite <- EQ|]. intros t Ht C. apply (Hv t); [now apply Hps|]. apply C. now left.
      + split; [apply (rip_swap v N _ p q s); auto; now rewrite <- EQ|]. assert (Ln : length (p ++ (v :: N) :: s) = length Q) by (rewrite EQ, !app_length; reflexivity). rewrite Ln. simpl length in *. lia.
    - (* a new clique *)
      assert (NI : forall k, In k Q -> ~ incl k N) by (intros k Hk C; apply NY; apply Exists_exists; eauto).
      assert (Hv : forall k, In k Q -> ~ In v k) by (intros k Hk C; apply Nv; destruct (E1 k Hk) as (_ & I & _); now apply I).
      assert (Ex : exists t, In t Q /\ incl N t).
      { destruct N as [|n0 N'] eqn:EN; [destruct Q as [|t Q]; [congruence|exists t; split; [now left|intros x []]]|].
        destruct (extend_clique r N) as (q & Mq & Iq); [rewrite EN; discriminate|intros x Hx; now apply (In_N v r)|now apply N_clique|]. destruct (E2 q Mq) as (t & Ht & St). exists t. split; [exact Ht|]. rewrite <- EN. intros x Hx. apply St. now apply Iq. }
      exists ((v :: N) :: Q). split; [discriminate|]. split; [split; [|split]|].
      + intros k [<-|Hk]; [now apply mc_new|apply mc_keep; auto; now apply NI].
      + intros m Hm. destruct (in_dec name_eq_dec v m) as [Yv|Nvm]; [exists (v :: N); split; [now left|now apply mc_with]|].
        apply mc_without in Hm as [Hm _]; auto. destruct (E2 m Hm) as (k & Hk & Sk). exists k. split; [now right|exact Sk].
      + cbn [distinct]. split; [|exact E3]. intros t Ht C. apply (Hv t Ht). apply C. now left.
      + destruct Ex as (t & Ht & It). split; [cbn [rip]; split; [exact R|]; right; exists t; split; [exact Ht|]; intros k w Hk [<-|Hw] Hwk; [exfalso; now apply (Hv k)|now apply It]|].
        split; [simpl length in *; lia|]. intros (a & b & Ha & Hb & A).
        assert (Er : exists a b, In a r /\ In b r /\ nb a b).
        { assert (Nn : forall w, In w N -> exists a b, In a r /\ In b r /\ nb a b).
          { intros w Hw. destruct (E1 t Ht) as (_ & I & Pt & _). destruct (Exists_dec (fun x => ~ In x N) t) as [X|X].
            - intros x. destruct (in_dec name_eq_dec x N); [right; tauto|now left].
            - apply Exists_exists in X as (x & Hx & Nx). exists w, x. split; [now apply (In_N v r)|]. split; [now apply I|]. apply Pt; [now apply It|exact Hx|]. intros ->. contradiction.
            - exfalso. apply (NI t Ht). intros x Hx. destruct (in_dec name_eq_dec x N) as [K|K]; [exact K|]. exfalso. apply X. apply Exists_exists. eauto. }
          destruct Ha as [<-|Ha].
          - destruct Hb as [<-|Hb]; [exfalso; now apply A|]. apply (Nn b). now apply In_N.
          - destruct Hb as [<-|Hb]; [apply (Nn a); apply In_N; split; [exact Ha|now apply nbr_sym]|]. eauto. }
        specialize (Lt Er). simpl length in *. lia.
  Qed.
End Peo.

(** ** from sets to positions *)
Lemma rip_schedule sc : forall Q ks, Forall2 (fun q k => same_set q (sc k)) Q ks -> rip Q -> NoDup ks -> Q <> [] -> exists root es, schedule sc root ks es.
Proof.
  induction Q as [|s r IH]; intros ks F R ND NE; [congruence|]. inversion F as [|? k ? ks' Sk F']; subst. destruct R as [R1 R2]. inversion ND as [|? ? Nk ND']; subst.
  destruct r as [|s' r'].
  - inversion F'; subst. exists k, []. constructor.
  - destruct (IH ks' F' R1 ND') as (root & es & Sc); [discriminate|]. destruct R2 as [R2|(t & Ht & R2)]; [discriminate|].
    assert (G : forall Q0 ks0, Forall2 (fun q k => same_set q (sc k)) Q0 ks0 -> (forall t, In t Q0 -> exists j, In j ks0 /\ same_set t (sc j)) /\ (forall j, In j ks0 -> exists t, In t Q0 /\ same_set t (sc j))).
    { clear. intros Q0 ks0 F. induction F as [|q k Q0 ks0 H F [IH1 IH2]]; [split; intros ? []|]. split.
      - intros t [<-|Ht]; [exists k; split; [now left|exact H]|]. destruct (IH1 t Ht) as (j & Hj & K). exists j. split; [now right|exact K].
      - intros j [<-|Hj]; [exists q; split; [now left|exact H]|]. destruct (IH2 j Hj) as (t & Ht & K). exists t. split; [now right|exact K]. }
    destruct (G _ _ F') as [G1 G2]. destruct (G1 t Ht) as (j & Hj & Sj). exists root, ((k, j) :: es).
    apply (sch_send _ _ k j (k :: ks') ks' es (Permutation_refl _) Hj); [|intros l v Hl Hk Hv|exact Sc].
    + intros ->. apply Nk. now apply (schedule_root _ _ _ _ Sc).
    + apply Sj. destruct (G2 l Hl) as (u & Hu & Su). apply (R2 u v Hu); [now apply Sk|now apply Su].
Qed.

Lemma evertices_uadj es a : In a (evertices es) -> exists b, uadj es a b.
Proof.
  unfold evertices. rewrite In_dedup. intros H. apply in_flat_map in H as ([x y] & He & H). simpl in H. destruct H as [<-|[<-|[]]]; [exists y; now left|exists x; now right].
Qed.
Lemma mc_maximal es s : mc es (evertices es) s <-> maximal_clique es s.
Proof.
  split.
  - intros (Ne & I & P & M). split.
    + split; [exact Ne|]. split; [intros a b Ha Hb Nab; now apply P|]. intros a Ha. now apply evertices_uadj, I.
    + intros t (_ & Pt & Vt) St x Hx. apply M; [destruct (Vt x Hx) as (b & Hb); now apply (In_evertices es x b)|]. intros a Ha Na. split; [apply Pt; auto|exact Na].
  - intros ((Ne & P & Vs) & M). split; [exact Ne|]. split; [intros a Ha; destruct (Vs a Ha) as (b & Hb); now apply (In_evertices es a b)|]. split.
    + intros a b Ha Hb Nab. split; [now apply P|exact Nab].
    + intros x Hx A. apply (M (x :: s)); [|intros y Hy; now right|now left]. split; [discriminate|]. split.
      * intros a b [<-|Ha] [<-|Hb] Nab; [congruence| |now apply A|now apply P]. apply or_comm. apply (A b Hb). congruence.
      * intros a [<-|Ha]; [now apply evertices_uadj|now apply Vs].
Qed.

Lemma cliques_schedule es scopes : chordal es -> clique_list es scopes -> scopes <> [] ->
  (exists root ss, schedule (fun k => nth k scopes []) root (seq 0 (length scopes)) ss) /\
  ((exists a b, uadj es a b /\ a <> b) -> length scopes < length (evertices es)) /\ length scopes <= length (evertices es).
Proof.
  intros Ch (C1 & C2 & C3) Ne. set (L := evertices es). assert (NDL : NoDup L) by apply NoDup_dedup.
  destruct (chordal_peo es Ch (length L) L (Nat.le_refl _) NDL) as (r & Pr & Pe).
  assert (Nr : r <> []).
  { intros ->. destruct scopes as [|s scopes]; [congruence|]. destruct (C1 s) as (_ & (Hs & _ & V) & _); [now left|]. destruct s as [|a s]; [congruence|]. destruct (V a) as (b & Hb); [now left|].
    apply In_evertices in Hb. fold L in Hb. apply (Permutation_in _ Pr) in Hb. destruct Hb. }
  destruct (junction_exists es r Pe Nr) as (Q & NQ & (E1 & E2 & E3) & R & Le & Lt).
  assert (Mc : forall s, mc es r s <-> maximal_clique es s).
  { intros s. rewrite <- mc_maximal. fold L. assert (K : forall x, In x L <-> In x r) by (intros x; split; apply Permutation_in; [exact Pr|now symmetry]).
    unfold mc, incl. setoid_rewrite K. reflexivity. }
  set (sc := fun k => nth k scopes []).
  assert (Fx : forall Q0, (forall q, In q Q0 -> In q Q) -> distinct Q0 -> exists ks, Forall2 (fun q k => same_set q (sc k)) Q0 ks /\ NoDup ks /\ incl ks (seq 0 (length scopes)) /\
     forall k, In k ks -> exists q, In q Q0 /\ same_set q (sc k)).
  { induction Q0 as [|q Q0 IH]; intros I D; [exists []; split; [constructor|]; split; [constructor|]; split; [intros x []|intros k []]|].
    destruct D as [D1 D2]. destruct IH as (ks & F & ND & Ik & Ck); [intros x Hx; apply I; now right|exact D2|].
    destruct (C2 q) as (t & Ht & St); [apply Mc, E1, I; now left|]. apply In_nth_error in Ht as (k & Ek).
    assert (Sk : same_set q (sc k)) by (unfold sc; now rewrite (nth_nth_error _ _ _ _ Ek)).
    exists (k :: ks). split; [now constructor|]. split; [constructor; [|exact ND]|].
    - intros Hk. destruct (Ck k Hk) as (q' & Hq' & Sq'). apply (D1 q' Hq'). intros x. rewrite (Sk x). symmetry. apply Sq'.
    - split; [intros x [<-|Hx]; [apply in_seq; split; [lia|]; apply nth_error_Some; congruence|now apply Ik]|].
      intros x [<-|Hx]; [exists q; split; [now left|exact Sk]|]. destruct (Ck x Hx) as (q' & Hq' & K). exists q'. split; [now right|exact K]. }
  destruct (Fx Q (fun q H => H) E3) as (ks & F & ND & Ik & Ck).
  assert (Pk : Permutation ks (seq 0 (length scopes))).
  { apply NoDup_Permutation; [exact ND|apply seq_NoDup|]. intros k. split; [apply Ik|]. intros Hk. apply in_seq in Hk. destruct (nth_error scopes k) as [s|] eqn:Ek; [|apply nth_error_None in Ek; lia].
    destruct (C1 s) as (_ & Ms); [eapply nth_error_In; eassumption|]. apply Mc in Ms. destruct (E2 s Ms) as (q & Hq & Sq).
    assert (Gq : exists j, In j ks /\ same_set q (sc j)).
    { clear - F Hq. induction F as [|q' j Q ks H F IH]; [destruct Hq|]. destruct Hq as [->|Hq]; [exists j; split; [now left|exact H]|]. destruct (IH Hq) as (j' & Hj & K). exists j'. split; [now right|exact K]. }
    destruct Gq as (j & Hj & Sj). assert (Hj' := Ik j Hj). apply in_seq in Hj'. destruct (nth_error scopes j) as [t|] eqn:Ej; [|apply nth_error_None in Ej; lia].
    assert (k = j); [|now subst]. apply (C3 k j s t Ek Ej). intros x. rewrite (Sq x), (Sj x). unfold sc. now rewrite (nth_nth_error _ _ _ _ Ej). }
  assert (Ln : length Q = length scopes).
  { rewrite <- (seq_length (length scopes) 0), <- (Permutation_length Pk). symmetry. clear - F. induction F; simpl; congruence. }
  assert (Lr : length r = length L) by (symmetry; now apply Permutation_length).
  split; [|split].
  - destruct (rip_schedule sc Q ks F R ND NQ) as (root & ss & Sc). exists root, ss.
    assert (Sp : forall rem rem' ss, Permutation rem rem' -> schedule sc root rem ss -> schedule sc root rem' ss).
    { clear. intros rem rem' ss P H. inversion H; subst; [apply Permutation_length_1_inv in P; subst; constructor|]. apply (sch_send _ _ i j rem' rem'0 es); auto. now rewrite <- P. }
    now apply (Sp ks).
  - intros (a & b & A & Nab). rewrite <- Ln, <- Lr. apply Lt. exists a, b. split; [apply (Permutation_in _ Pr), (In_evertices es a b A)|]. split; [apply (Permutation_in _ Pr), (In_evertices es b a); unfold uadj in *; tauto|]. split; assumption.
  - rewrite <- Ln, <- Lr. exact Le.
Qed.

(** ** orders along the spanning tree *)
Definition npair (e : nat * nat) : name * name := (NInt (fst e), NInt (snd e)).
Lemma sends_ends root rem es : sends root rem es -> forall e, In e es -> In (fst e) rem /\ In (snd e) rem /\ fst e <> snd e.
Proof.
  intros H. induction H as [|i j rm rm' e0 P Hj Ni NI _ IH]; intros e He; [destruct He|]. destruct He as [<-|He].
  - simpl. split; [apply (Permutation_in _ (Permutation_sym P)); now left|]. split; [apply (Permutation_in _ (Permutation_sym P)); now right|]. intros ->. contradiction.
  - destruct (IH e He) as (A & B & C). split; [apply (Permutation_in _ (Permutation_sym P)); now right|]. split; [apply (Permutation_in _ (Permutation_sym P)); now right|exact C].
Qed.
Lemma sends_length root rem es : sends root rem es -> S (length es) = length rem.
Proof. intros H. induction H as [|i j rm rm' e0 P Hj Ni NI _ IH]; [reflexivity|]. rewrite (Permutation_length P). simpl. lia. Qed.
Lemma sends_root root rem es : sends root rem es -> In root rem.
Proof. intros H. induction H as [|i j rm rm' e0 P Hj Ni NI _ IH]; [now left|]. apply (Permutation_in _ (Permutation_sym P)). now right. Qed.
Lemma sends_perm root rem rem' es : Permutation rem rem' -> sends root rem es -> sends root rem' es.
Proof. intros P H. inversion H; subst; [apply Permutation_length_1_inv in P; subst; constructor|]. apply (snd_send _ i j rem' rem'0 es0); auto. now rewrite <- P. Qed.
Lemma uconnected_mono S S' a b : incl S S' -> uconnected S a b -> uconnected S' a b.
Proof. intros I H. eapply clos_rt_incl; [|exact H]. intros x y [K|K]; [left|right]; now apply I. Qed.
Lemma sends_connected root rem es : sends root rem es -> forall k, In k rem -> uconnected (map npair es) (NInt k) (NInt root).
Proof.
  intros H. induction H as [|i j rm rm' e0 P Hj Ni NI _ IH]; intros k Hk; [destruct Hk as [->|[]]; apply rt_refl|].
  assert (Mo : forall k, In k rm' -> uconnected (map npair ((i, j) :: e0)) (NInt k) (NInt root)) by (intros x Hx; apply (uconnected_mono (map npair e0)); [intros y Hy; now right|now apply IH]).
  apply (Permutation_in _ P) in Hk as [<-|Hk]; [|now apply Mo]. eapply rt_trans; [|apply (Mo j Hj)]. apply rt_step. left. now left.
Qed.
(** a pair is used once, in one direction *)
Lemma sends_once root rem es : sends root rem es -> NoDup es /\ forall i j, In (i, j) es -> ~ In (j, i) es.
Proof.
  intros H. induction H as [|i j rm rm' e0 P Hj Ni NI Sn [IH1 IH2]]; [split; [constructor|intros ? ? []]|].
  assert (F : forall e, In e e0 -> fst e <> i /\ snd e <> i).
  { intros e He. destruct (sends_ends _ _ _ Sn e He) as (A & B & _). split; intros C; rewrite C in *; contradiction. }
  split.
  - constructor; [|exact IH1]. intros C. now apply F in C.
  - intros a b [E|Hab] [E2|Hba].
    + injection E as <- <-. injection E2 as E2 _. subst. contradiction.
    + injection E as <- <-. now apply F in Hba.
    + injection E2 as <- <-. now apply F in Hab.
    + now apply (IH2 a b).
Qed.
Lemma total_sumw scopes ss : (forall e, In e ss -> fst e < length scopes /\ snd e < length scopes /\ fst e <> snd e) ->
  total_weight (sep_weights scopes) (map npair ss) = (- nQc (sumw (fun k => nth k scopes []) ss))%Qc.
Proof.
  induction ss as [|[i j] ss IH]; intros H; [reflexivity|].
  unfold total_weight, sumw in *. cbn [map list_sum fold_right]. fold (list_sum (map (fun e => length (set_inter (nth (fst e) scopes []) (nth (snd e) scopes []))) ss)).
  match goal with |- qsum (?x :: ?l) = _ => change (qsum (x :: l)) with (x + qsum l)%Qc end. rewrite IH by (intros e He; apply H; now right).
  rewrite nQc_plus. destruct (H (i, j)) as (A & B & C); [now left|]. cbn [npair fst snd] in *. rewrite sep_weight.
  destruct (Nat.ltb_spec i (length scopes)); [|lia]. destruct (Nat.ltb_spec j (length scopes)); [|lia]. destruct (Nat.eqb_spec i j); [contradiction|]. simpl. ring.
Qed.

Lemma In_all_edges T u v : NoDup (dkeys T) -> (In (u, v) (all_edges T) <-> edge T u v).
Proof.
  intros ND. unfold all_edges, edge. rewrite in_flat_map. split.
  - intros ((k & c) & Hk & H). simpl in H. apply in_map_iff in H as (w & E & Hw). injection E as -> ->. exists c. split; [now apply In_dget_dict|exact Hw].
  - intros (c & D & Hv). exists (u, c). split; [now apply In_dget_dict|]. simpl. apply in_map_iff. eauto.
Qed.
Lemma edge_decide T u v : {edge T u v} + {~ edge T u v}.
Proof.
  unfold edge. destruct (dget T u) as [c|]; [|right; intros (c & D & _); discriminate]. destruct (in_dec name_eq_dec v c) as [Y|N]; [left; eauto|right]. intros (c' & D & Hv). injection D as <-. contradiction.
Qed.
Definition orient (T : edict) (e : nat * nat) : name * name := if edge_decide T (NInt (fst e)) (NInt (snd e)) then npair e else (NInt (snd e), NInt (fst e)).

Lemma along_total scopes T root ss : mst (sep_weights scopes) = Ok T -> sends root (seq 0 (length scopes)) ss -> along T ss ->
  total_weight (sep_weights scopes) (all_edges T) = total_weight (sep_weights scopes) (map npair ss).
Proof.
  intros ET Sn Al. assert (Hn : 0 < length scopes) by (pose proof (sends_root _ _ _ Sn) as K; apply in_seq in K; lia).
  destruct (mst_tree (sep_weights scopes) (sep_graph scopes)) as (T' & E & K & NDe & _ & _ & _ & _ & _ & Len); [rewrite sep_length; lia|]. rewrite ET in E. injection E as <-.
  assert (NDk : NoDup (dkeys T)) by (rewrite K; apply FinFun.Injective_map_NoDup; [intros a b; congruence|apply seq_NoDup]).
  assert (Le : S (length (all_edges T)) = length scopes) by (rewrite Len, sep_length; [reflexivity|]; intros v Hv; apply sep_reach; rewrite sep_keys in Hv; exact Hv).
  assert (Ls := sends_length _ _ _ Sn). rewrite seq_length in Ls.
  destruct (sends_once _ _ _ Sn) as [N1 N2].
  assert (P : Permutation (map (orient T) ss) (all_edges T)).
  { apply NoDup_Permutation_bis.
    - (* distinct *)
      clear Sn Ls. induction ss as [|e ss IH]; [constructor|]. inversion N1; subst. cbn [map]. constructor; [|apply IH; [intros i j Hij; apply Al; now right|assumption|intros i j Hij C; apply (N2 i j); now right]].
      intros C. apply in_map_iff in C as (e' & Eo & He'). assert (Q : e' = e \/ e' = (snd e, fst e)).
      { unfold orient in Eo. destruct e as [i j], e' as [i' j']. cbn [fst snd] in *. destruct (edge_decide T (NInt i') (NInt j')), (edge_decide T (NInt i) (NInt j)); cbn [npair fst snd] in Eo; injection Eo as -> ->; auto. }
      destruct Q as [->| ->]; [contradiction|]. destruct e as [i j]. apply (N2 i j); [now left|right; exact He'].
    - rewrite map_length. lia.
    - intros e He. apply in_map_iff in He as ([i j] & <- & Hij). unfold orient. cbn [fst snd]. destruct (edge_decide T (NInt i) (NInt j)) as [Y|N]; [now apply In_all_edges|]. destruct (Al i j Hij) as [C|C]; [contradiction|]. now apply In_all_edges. }
  unfold total_weight. transitivity (qsum (map (fun e => getq (weight (sep_weights scopes) (fst e) (snd e))) (map (orient T) ss))).
  - apply qsum_perm. apply Permutation_map. now symmetry.
  - f_equal. rewrite !map_map. apply map_ext. intros [i j]. unfold orient, npair. cbn [fst snd]. destruct (edge_decide T (NInt i) (NInt j)); cbn [fst snd]; [reflexivity|]. now rewrite sep_symmetric.
Qed.

Lemma along_schedule es scopes T root ss : chordal es -> clique_list es scopes -> mst (sep_weights scopes) = Ok T ->
  sends root (seq 0 (length scopes)) ss -> along T ss -> schedule (fun k => nth k scopes []) root (seq 0 (length scopes)) ss.
Proof.
  intros Ch Cl ET Sn Al. assert (Hn : 0 < length scopes) by (pose proof (sends_root _ _ _ Sn) as K; apply in_seq in K; lia).
  assert (Ne : scopes <> []) by (destruct scopes; [simpl in Hn; lia|discriminate]).
  destruct (cliques_schedule es scopes Ch Cl Ne) as [(root' & ss' & Sc) _].
  assert (Sn' := schedule_sends _ _ _ _ (seq_NoDup _ _) Sc).
  assert (Rg : forall r s, sends r (seq 0 (length scopes)) s -> forall e, In e s -> fst e < length scopes /\ snd e < length scopes /\ fst e <> snd e).
  { intros r s H e He. destruct (sends_ends _ _ _ H e He) as (A & B & C). apply in_seq in A, B. split; [lia|]. split; [lia|exact C]. }
  assert (St : spanning_tree (sep_weights scopes) (map npair ss')).
  { split; [|split].
    - intros u v H. apply in_map_iff in H as ([i j] & E & Hij). injection E as <- <-. destruct (Rg _ _ Sn' _ Hij) as (A & B & C). cbn [fst snd] in *. rewrite sep_weight.
      destruct (Nat.ltb_spec i (length scopes)); [|lia]. destruct (Nat.ltb_spec j (length scopes)); [|lia]. destruct (Nat.eqb_spec i j); [contradiction|]. discriminate.
    - rewrite map_length, sep_length. rewrite (sends_length _ _ _ Sn'). apply seq_length.
    - rewrite sep_keys. intros a b Ha Hb. apply in_map_iff in Ha as (i & <- & Hi). apply in_map_iff in Hb as (j & <- & Hj).
      eapply rt_trans; [apply (sends_connected _ _ _ Sn' i Hi)|]. apply uconnected_sym. apply (sends_connected _ _ _ Sn' j Hj). }
  destruct (mst_minimal _ _ (sep_graph scopes) (sep_symmetric scopes) St) as (T' & ET' & _ & Le). rewrite ET in ET'. injection ET' as <-.
  rewrite (along_total scopes T root ss ET Sn Al) in Le. rewrite !total_sumw in Le by (eapply Rg; eassumption).
  apply (best_schedule _ root root' _ ss ss' Sn Sc).
  destruct (Nat.le_gt_cases (sumw (fun k => nth k scopes []) ss') (sumw (fun k => nth k scopes []) ss)) as [L|G]; [exact L|exfalso].
  assert (K : (nQc (sumw (fun k => nth k scopes []) ss') <= nQc (sumw (fun k => nth k scopes []) ss))%Qc).
  { revert Le. generalize (nQc (sumw (fun k => nth k scopes []) ss')) (nQc (sumw (fun k => nth k scopes []) ss)). intros x y. qclra. }
  apply (Nat.lt_irrefl (sumw (fun k => nth k scopes []) ss)). eapply Nat.lt_le_trans; [exact G|].
  unfold nQc in K. revert K. qc2q. rewrite <- Zle_Qle. lia.
Qed.

(** such an order exists for every root *)
Lemma along_exists scopes T root : mst (sep_weights scopes) = Ok T -> root < length scopes -> exists ss, sends root (seq 0 (length scopes)) ss /\ along T ss.
Proof.
  intros ET Hr. set (n := length scopes) in *.
  destruct (mst_tree (sep_weights scopes) (sep_graph scopes)) as (T' & E & K & NDe & _ & _ & _ & _ & Rc & _); [rewrite sep_length; unfold n in Hr; lia|]. rewrite ET in E. injection E as <-. rewrite sep_length in K. fold n in K.
  assert (Con : forall k, k < n -> uconnected (all_edges T) (NInt root) (NInt k)).
  { assert (Z : forall k, k < n -> uconnected (all_edges T) (NInt 0) (NInt k)).
    { intros k Hk. assert (R : reach T (NInt 0) (NInt k)) by (apply Rc, sep_reach, in_map, in_seq; fold n; lia). eapply clos_rt_incl; [|exact R]. intros x y Hxy. left. apply In_all_edges; [|exact Hxy]. rewrite K. apply FinFun.Injective_map_NoDup; [intros a b; congruence|apply seq_NoDup]. }
    intros k Hk. eapply rt_trans; [apply uconnected_sym, Z, Hr|now apply Z]. }
  assert (NDk : NoDup (dkeys T)) by (rewrite K; apply FinFun.Injective_map_NoDup; [intros a b; congruence|apply seq_NoDup]).
  (* grow from the root *)
  assert (Grow : forall m rem ss, sends root rem ss -> along T ss -> incl rem (seq 0 n) -> n - length rem <= m -> exists rem' ss', sends root rem' ss' /\ along T ss' /\ incl rem' (seq 0 n) /\ n <= length rem').
  { induction m as [|m IH]; intros rem ss Sn Al I Lm; [exists rem, ss; split; [exact Sn|]; split; [exact Al|]; split; [exact I|lia]|].
    destruct (Nat.le_gt_cases n (length rem)) as [L|G]; [exists rem, ss; auto|].
    (* some vertex is missing *)
    assert (Mi : exists k, k < n /\ ~ In k rem).
    { destruct (Exists_dec (fun k => ~ In k rem) (seq 0 n)) as [Y|N].
      - intros k. destruct (in_dec Nat.eq_dec k rem); [right; tauto|now left].
      - apply Exists_exists in Y as (k & Hk & Nk). apply in_seq in Hk. exists k. split; [lia|exact Nk].
      - exfalso. assert (length (seq 0 n) <= length rem); [|rewrite seq_length in *; lia]. apply NoDup_incl_length; [apply seq_NoDup|]. intros k Hk. destruct (in_dec Nat.eq_dec k rem) as [Y|Q]; [exact Y|]. exfalso. apply N. apply Exists_exists. eauto. }
    destruct Mi as (k & Hk & Nk).
    assert (Cr : forall a b, uconnected (all_edges T) a b -> forall i, a = NInt i -> In i rem -> forall k, b = NInt k -> ~ In k rem ->
       exists x y, In x rem /\ ~ In y rem /\ y < n /\ (edge T (NInt x) (NInt y) \/ edge T (NInt y) (NInt x))).
    { intros a b H. apply clos_rt_rt1n in H. induction H as [a|a c b Hac _ IHc]; intros i -> Hi k' E Nk'; [injection E as ->; contradiction|].
      assert (Hc : exists j, c = NInt j /\ j < n).
      { assert (Kc : In c (dkeys T)).
        { rewrite K. destruct (mst_tree (sep_weights scopes) (sep_graph scopes)) as (T2 & E2 & K2 & _ & W2 & _); [rewrite sep_length; unfold n in Hr; lia|]. rewrite ET in E2. injection E2 as <-.
          assert (Wc : weight (sep_weights scopes) (NInt i) c <> None).
          { destruct Hac as [C|C]; apply (In_all_edges _ _ _ NDk) in C; apply W2 in C; [exact C|]. now rewrite sep_symmetric. }
          apply (weight_ends _ _ _ (sep_graph scopes)) in Wc. rewrite sep_keys in Wc. apply Wc. }
        rewrite K in Kc. apply in_map_iff in Kc as (j & <- & Hj). apply in_seq in Hj. exists j. split; [reflexivity|lia]. }
      destruct Hc as (j & -> & Hj). destruct (in_dec Nat.eq_dec j rem) as [Y|N]; [now apply (IHc j eq_refl Y k')|].
      exists i, j. split; [exact Hi|]. split; [exact N|]. split; [exact Hj|]. destruct Hac as [C|C]; apply (In_all_edges _ _ _ NDk) in C; auto. }
    destruct (Cr _ _ (Con k Hk) root eq_refl (sends_root _ _ _ Sn) k eq_refl Nk) as (x & y & Hx & Ny & Hy & Exy).
    apply (IH (y :: rem) ((y, x) :: ss)).
    - apply (snd_send _ y x (y :: rem) rem ss (Permutation_refl _) Hx); [|exact Ny|exact Sn]. intros ->. apply Ny. apply (sends_root _ _ _ Sn).
    - intros a b [E|H]; [injection E as <- <-; tauto|now apply Al].
    - intros z [<-|Hz]; [apply in_seq; lia|now apply I].
    - simpl. lia. }
  destruct (Grow n [root] []) as (rem & ss & Sn & Al & I & Ln).
  - constructor.
  - intros i j [].
  - intros z [<-|[]]. apply in_seq. lia.
  - lia.
  - exists ss. split; [|exact Al]. apply (sends_perm root rem); [|exact Sn].
    apply NoDup_Permutation_bis; [apply (sends_NoDup _ _ _ Sn)|rewrite seq_length; exact Ln|exact I].
Qed.
