(** PerfectTest.v -- the test [perfect dag] of SpecConstraint.v is faithful to the DAG. *)
From Verif Require Import Py Num BayesNet SpecFactor SpecGraph SpecInference SpecConstraint SpecMarkov SpecFaithful MarkovFacts MarkovSep ConstraintFacts FaithfulFacts.
Open Scope nat_scope.

Lemma nmem_In i l : nmem i l = true <-> In i l.
Proof. unfold nmem. rewrite existsb_exists. split; [intros (j & H & E); apply Nat.eqb_eq in E; now subst|intros H; exists i; split; [exact H|apply Nat.eqb_refl]]. Qed.
Lemma iter_succ {A} k (f : A -> A) a : iter (S k) f a = f (iter k f a).
Proof. revert a. induction k as [|k IH]; intros a; [reflexivity|]. cbn [iter] in *. now rewrite IH. Qed.

Section Close.
Variables (n : nat) (f : nat -> list nat) (l : list nat).
Hypothesis Lb : forall i, In i l -> i < n.
Let stp (l : list nat) := filter (fun i => nmem i l || existsb (fun j => nmem i (f j)) l) (seq 0 n).
Lemma In_stp m i : In i (stp m) <-> i < n /\ (In i m \/ exists j, In j m /\ In i (f j)).
Proof.
  unfold stp. rewrite filter_In, in_seq, orb_true_iff, nmem_In, existsb_exists. split.
  - intros (H & [K|(j & Hj & K)]); [split; [lia|now left]|]. apply nmem_In in K. split; [lia|right; eauto].
  - intros (H & [K|(j & Hj & K)]); [split; [lia|now left]|]. split; [lia|right; exists j; split; [exact Hj|now apply nmem_In]].
Qed.
Let closed_at (m : list nat) := forall j i, In j m -> In i (f j) -> i < n -> In i m.
Lemma close_bound k i : In i (iter k stp l) -> i < n.
Proof. destruct k as [|k]; [apply Lb|]. rewrite iter_succ, In_stp. tauto. Qed.
Lemma close_mono k i : In i (iter k stp l) -> In i (iter (S k) stp l).
Proof. intros H. rewrite iter_succ, In_stp. split; [now apply (close_bound k)|now left]. Qed.
Lemma close_incl k i : In i l -> In i (iter k stp l).
Proof. intros H. induction k as [|k IH]; [exact H|now apply close_mono]. Qed.
Lemma close_closed : l <> [] -> closed_at (iter n stp l).
Proof.
  intros NE. assert (NE' : exists i0, In i0 l) by (clear -NE; destruct l as [|i0 l0]; [congruence|exists i0; now left]). set (X := fun k => iter k stp l).
  assert (Dec : forall m, closed_at m \/ exists j i, In j m /\ In i (f j) /\ i < n /\ ~ In i m).
  { intros m. destruct (existsb (fun j => existsb (fun i => (i <? n) && negb (nmem i m)) (f j)) m) eqn:E.
    - right. apply existsb_exists in E as (j & Hj & E). apply existsb_exists in E as (i & Hi & E). apply andb_true_iff in E as [E1 E2]. apply Nat.ltb_lt in E1. exists j, i.
      split; [exact Hj|]. split; [exact Hi|]. split; [exact E1|]. intros K. apply nmem_In in K. rewrite K in E2. discriminate.
    - left. intros j i Hj Hi Ln. destruct (nmem i m) eqn:K; [now apply nmem_In|]. exfalso. apply not_true_iff_false in E. apply E. apply existsb_exists. exists j. split; [exact Hj|].
      apply existsb_exists. exists i. split; [exact Hi|]. rewrite K. apply Nat.ltb_lt in Ln. now rewrite Ln. }
  assert (Next : forall m, closed_at m -> (forall i, In i m -> i < n) -> closed_at (stp m)).
  { intros m C B j i Hj Hi Ln. rewrite In_stp in *. split; [exact Ln|]. left. destruct Hj as [Lj [Hj|(j' & H1 & H2)]]; [now apply (C j)|]. apply (C j); auto. now apply (C j'). }
  assert (Up : forall k d, closed_at (X k) -> closed_at (X (k + d))).
  { intros k d C. induction d as [|d IH]; [now rewrite Nat.add_0_r|]. rewrite Nat.add_succ_r. unfold X. rewrite iter_succ. apply Next; [exact IH|apply close_bound]. }
  assert (ND : forall k, NoDup (X (S k))) by (intros k; unfold X; rewrite iter_succ; unfold stp; apply NoDup_filter, seq_NoDup).
  assert (G : forall k, (forall j, j <= k -> ~ closed_at (X j)) -> k < length (X (S k))).
  { induction k as [|k IH]; intros H.
    - destruct NE' as (i0 & I0'). assert (I0 : In i0 (X 1)) by (now apply (close_incl 1 i0)). destruct (X 1); [destruct I0|simpl; lia].
    - specialize (IH (fun j Hj => H j (le_S _ _ Hj))). destruct (Dec (X (S k))) as [C|(j & i & Hj & Hi & Ln & Ni)]; [exfalso; now apply (H (S k))|].
      assert (NI : NoDup (i :: X (S k))) by (constructor; auto). apply NoDup_incl_length with (l' := X (S (S k))) in NI; [cbn [length] in NI; lia|].
      intros u [<-|Hu]; [|now apply (close_mono (S k))]. unfold X. rewrite (iter_succ (S k)). apply In_stp. split; [exact Ln|]. right. exists j. auto. }
  destruct (Dec (X n)) as [C|(j & i & Hj & Hi & Ln & Ni)]; [exact C|]. exfalso.
  assert (All : forall j, j <= n -> ~ closed_at (X j)).
  { intros j' L C. apply (Up j' (n - j')) in C. replace (j' + (n - j')) with n in C by lia. apply Ni. now apply (C j). }
  assert (En : n = S (pred n)) by lia. assert (K : pred n < length (X (S (pred n)))) by (apply G; intros j' L; apply All; lia). rewrite <- En in K.
  assert (I : incl (seq 0 n) (X n)). { apply NoDup_length_incl; [rewrite En; apply ND|rewrite seq_length; lia|]. intros u Hu. apply in_seq. apply (close_bound n) in Hu. lia. }
  apply Ni, I, in_seq. lia.
Qed.
Lemma close_spec i : l <> [] -> (In i (close n f l) <-> exists s, In s l /\ clos_refl_trans _ (fun a b => b < n /\ In b (f a)) s i).
Proof.
  intros NE. unfold close. change (In i (iter n stp l) <-> exists s, In s l /\ clos_refl_trans _ (fun a b => b < n /\ In b (f a)) s i). split.
  - revert i. generalize n at 1 as k. induction k as [|k IH]; intros i Hi; [exists i; split; [exact Hi|apply rt_refl]|].
    rewrite iter_succ, In_stp in Hi. destruct Hi as [Ln [Hi|(j & Hj & Hi)]]; [now apply IH|]. destruct (IH j Hj) as (s & Hs & Ps). exists s. split; [exact Hs|]. eapply rt_trans; [exact Ps|now apply rt_step].
  - intros (s & Hs & P). apply clos_rt_rtn1 in P. induction P as [|a b [Lb' Hb] P IH]; [now apply close_incl|]. now apply (close_closed NE a b).
Qed.
End Close.

Section Perfect.
Variable dag : list (list nat).
Let n := length dag.
Let bn := net_of dag.
Lemma net_V : bn_V bn = columns n.
Proof. reflexivity. Qed.
Lemma net_parents i : nparents bn (NInt i) = map NInt (nth i dag []).
Proof.
  unfold nparents, bn, net_of. cbn [bn_F].
  assert (G : forall k l, dget (map (fun i => (NInt i, mkF (map NInt (nth i dag [])) [] [])) (seq k l)) (NInt i) = if (k <=? i) && (i <? k + l) then Some (mkF (map NInt (nth i dag [])) [] []) else None).
  { intros k l. revert k. induction l as [|l IH]; intros k; cbn [seq map dget].
    - replace ((k <=? i) && (i <? k + 0)) with false; [reflexivity|]. symmetry. apply andb_false_iff. destruct (Nat.leb_spec k i); [right; apply Nat.ltb_ge; lia|now left].
    - destruct (name_eqb_spec (NInt i) (NInt k)) as [E|E].
      + injection E as ->. replace ((k <=? k) && (k <? k + S l)) with true; [reflexivity|]. symmetry. apply andb_true_iff. split; [apply Nat.leb_le; lia|apply Nat.ltb_lt; lia].
      + rewrite IH. replace ((k <=? i) && (i <? k + S l)) with ((S k <=? i) && (i <? S k + l)); [reflexivity|].
        assert (i <> k) by congruence. destruct (Nat.leb_spec (S k) i), (Nat.leb_spec k i), (Nat.ltb_spec i (S k + l)), (Nat.ltb_spec i (k + S l)); try reflexivity; lia. }
  rewrite G. cbn [Nat.leb andb]. fold n. destruct (Nat.ltb_spec i (0 + n)) as [L|L]; [reflexivity|]. rewrite nth_overflow by (fold n; lia). reflexivity.
Qed.
Hypothesis D : dag_net bn.
Lemma par_bound i p : i < n -> In p (nth i dag []) -> p < n.
Proof.
  intros L H. assert (I : In (NInt p) (bn_V bn)). { apply (dn_par _ D (NInt i)); [apply In_columns; eauto|]. rewrite net_parents. now apply in_map. }
  rewrite net_V in I. apply In_columns in I as (j & E & Lj). injection E as ->. exact Lj.
Qed.
Lemma net_is_parent p v : is_parent bn p v <-> exists i j, p = NInt i /\ v = NInt j /\ i < n /\ j < n /\ In i (nth j dag []).
Proof.
  unfold is_parent. rewrite net_V, In_columns. split.
  - intros ((j & -> & L) & H). rewrite net_parents in H. apply in_map_iff in H as (i & <- & H). exists i, j. split; [reflexivity|]. split; [reflexivity|]. split; [now apply (par_bound j)|auto].
  - intros (i & j & -> & -> & Li & Lj & H). split; [eauto|]. rewrite net_parents. now apply in_map.
Qed.
Lemma In_map_NInt i l : In (NInt i) (map NInt l) <-> In i l.
Proof. rewrite in_map_iff. split; [intros (j & E & H); injection E as ->; exact H|intros H; eauto]. Qed.

Lemma separatedb_spec x y z : x < n -> y < n -> (forall i, In i z -> i < n) -> ~ In x z -> ~ In y z ->
  (d_separatedb dag x y z = true <-> d_separated bn (map NInt z) (NInt x) (NInt y)).
Proof.
  intros Lx Ly Lz Nx Ny. set (anc := close n (fun j => nth j dag []) (x :: y :: z)).
  assert (Bnd : forall i, In i (x :: y :: z) -> i < n) by (intros i [<-|[<-|H]]; auto).
  assert (SA : forall i, In i anc <-> exists s, In s (x :: y :: z) /\ clos_refl_trans _ (fun a b => b < n /\ In b (nth a dag [])) s i) by (intros i; apply close_spec; [exact Bnd|discriminate]).
  assert (AB : forall i, In i anc -> i < n).
  { intros i H. apply SA in H as (s & Hs & P). apply clos_rt_rtn1 in P. destruct P as [|a b [L _] _]; [now apply Bnd|exact L]. }
  assert (ANC : forall s i, s < n -> clos_refl_trans _ (fun a b => b < n /\ In b (nth a dag [])) s i -> ancestor bn (NInt i) (NInt s)).
  { intros s i Ls P. apply clos_rt_rt1n in P. induction P as [|a b c [Lb Hb] P IH]; [apply rt_refl|]. eapply rt_trans; [apply IH; exact Lb|]. apply rt_step. apply net_is_parent. exists b, a. auto 10. }
  set (A := map NInt anc).
  assert (NDA : NoDup anc). { unfold anc, close. destruct n as [|m]; [lia|]. rewrite iter_succ. apply NoDup_filter, seq_NoDup. }
  assert (HA : ancestral_set bn A).
  { split; [unfold A; apply FinFun.Injective_map_NoDup; [intros i j E; congruence|exact NDA]|]. split.
    - intros v Hv. apply in_map_iff in Hv as (i & <- & Hi). rewrite net_V. apply In_columns. eauto.
    - intros v Hv p Hp. apply in_map_iff in Hv as (i & <- & Hi). rewrite net_parents in Hp. apply in_map_iff in Hp as (j & <- & Hj). apply In_map_NInt. apply SA in Hi as (s & Hs & P). apply SA.
      exists s. split; [exact Hs|]. eapply rt_trans; [exact P|]. apply rt_step. split; [|exact Hj]. apply (par_bound i); [|exact Hj]. apply AB, SA. eauto. }
  assert (Mem : forall v, In v (NInt x :: map NInt z ++ [NInt y]) <-> exists s, v = NInt s /\ In s (x :: y :: z)).
  { intros v. simpl. rewrite in_app_iff, in_map_iff. simpl. split.
    - intros [<-|[(i & <- & H)|[<-|[]]]]; eauto.
    - intros (s & -> & [<-|[<-|H]]); [now left|right; right; now left|right; left; eauto]. }
  rewrite (dsep_iff_cut bn A).
  2: exact HA.
  2:{ intros v Hv. apply Mem in Hv as (s & -> & Hs). apply In_map_NInt. apply SA. exists s. split; [exact Hs|apply rt_refl]. }
  2:{ intros v Hv. apply in_map_iff in Hv as (i & <- & Hi). apply SA in Hi as (s & Hs & P). exists (NInt s). split; [apply Mem; eauto|]. apply ANC; [now apply Bnd|exact P]. }
  2: now rewrite In_map_NInt. 2: now rewrite In_map_NInt.
  unfold d_separatedb. fold n anc. rewrite negb_true_iff, <- not_true_iff_false, nmem_In, close_spec; [|intros i [<-|[]]; exact Lx|discriminate].
  set (g := fun j => if nmem j z then [] else filter (fun i => negb (nmem i z)) (moral_adj dag anc j)).
  assert (Anx : In x anc) by (apply SA; exists x; split; [now left|apply rt_refl]).
  assert (Adj : forall i j, In i anc -> In j (moral_adj dag anc i) <-> j <> i /\ In j anc /\ family_link bn A (NInt i) (NInt j)).
  { intros i j Hi. unfold moral_adj. fold n. rewrite filter_In, in_seq, !andb_true_iff, negb_true_iff, Nat.eqb_neq, !orb_true_iff, !nmem_In, existsb_exists. split.
    - intros (_ & (Hj & Ne) & H). split; [exact Ne|]. split; [exact Hj|]. destruct H as [[H|H]|(c & Hc & H)].
      + exists (NInt i). split; [now apply In_map_NInt|]. split; [now left|]. right. rewrite net_parents. now apply In_map_NInt.
      + exists (NInt j). split; [now apply In_map_NInt|]. split; [|now left]. right. rewrite net_parents. now apply In_map_NInt.
      + apply andb_true_iff in H as [H1 H2]. rewrite nmem_In in *. exists (NInt c). split; [now apply In_map_NInt|]. split; right; rewrite net_parents; now apply In_map_NInt.
    - intros (Ne & Hj & v & Hv & H1 & H2). split; [specialize (AB j Hj); lia|]. split; [auto|]. apply in_map_iff in Hv as (c & <- & Hc). simpl in H1, H2. rewrite net_parents, In_map_NInt in H1, H2.
      destruct H1 as [E1|H1], H2 as [E2|H2]; [congruence|injection E1 as ->; left; now left|injection E2 as ->; left; now right|]. right. exists c. split; [exact Hc|]. apply andb_true_iff. now rewrite !nmem_In. }
  unfold cut. apply not_iff_compat. split.
  - intros (s & [<-|[]] & P).
    assert (G : forall a b, clos_refl_trans_1n _ (fun a b => b < n /\ In b (g a)) a b -> In a anc -> ~ In a z -> clos_refl_trans _ (fun a b => ~ In b (map NInt z) /\ family_link bn A a b) (NInt a) (NInt b)).
    { induction 1 as [|a b c [L H] P' IH]; [intros; apply rt_refl|]. intros Ha Na. unfold g in H. destruct (nmem a z) eqn:E; [destruct H|]. apply filter_In in H as [H Nb]. apply Adj in H as (Ne & Hb & Fl); [|exact Ha].
      assert (Nbz : ~ In b z) by (intros I; apply nmem_In in I; rewrite I in Nb; discriminate). eapply rt_trans; [apply rt_step; split; [|exact Fl]; now rewrite In_map_NInt|]. now apply IH. }
    apply clos_rt_rt1n in P. now apply G.
  - intros P. exists x. split; [now left|].
    assert (G : forall a b, clos_refl_trans_1n _ (fun a b => ~ In b (map NInt z) /\ family_link bn A a b) a b -> forall i j, a = NInt i -> b = NInt j -> In i anc -> ~ In i z -> clos_refl_trans _ (fun a b => b < n /\ In b (g a)) i j).
    { induction 1 as [|a b c [Nb Fl] P' IH]; [intros i j -> E; injection E as ->; intros; apply rt_refl|]. intros i j -> -> Hi Ni.
      assert (Hb : In b A). { destruct Fl as (v & Hv & _ & [<-|H]); [exact Hv|]. destruct HA as (_ & _ & C). now apply (C v). }
      apply in_map_iff in Hb as (k & <- & Hk). rewrite In_map_NInt in Nb. specialize (IH k j eq_refl eq_refl Hk Nb). destruct (Nat.eq_dec k i) as [-> |Ne]; [exact IH|].
      eapply rt_trans; [|exact IH]. apply rt_step. split; [now apply AB|]. unfold g. destruct (nmem i z) eqn:E; [apply nmem_In in E; contradiction|]. apply filter_In. split; [apply Adj; auto|].
      apply negb_true_iff. apply not_true_iff_false. now rewrite nmem_In. }
    apply clos_rt_rt1n in P. now apply (G _ _ P).
Qed.

Lemma perfect_faithful alpha (test : ptest) : (forall x y z, test (x :: y :: z) = perfect dag (x :: y :: z)) -> (0 < alpha)%Qc -> (alpha < 1)%Qc -> faithful bn test alpha.
Proof.
  intros HT A0 A1 x y z Hx Hy Ne Nz Iz Nxz Nyz. rewrite net_V in *. apply In_columns in Hx as (i & -> & Li), Hy as (j & -> & Lj).
  assert (Ez : z = map NInt (map code z)). { rewrite map_map. rewrite <- (map_id z) at 1. apply map_ext_in. intros v Hv. apply Iz, In_columns in Hv as (k & -> & _). reflexivity. }
  assert (Lz : forall k, In k (map code z) -> k < n). { intros k Hk. assert (I : In (NInt k) z) by (rewrite Ez; now apply in_map). apply Iz, In_columns in I as (k' & E & L). injection E as ->. exact L. }
  assert (S := separatedb_spec i j (map code z) Li Lj Lz). rewrite <- Ez in S.
  assert (N1 : ~ In i (map code z)) by (intros I; apply Nxz; rewrite Ez; now apply in_map). assert (N2 : ~ In j (map code z)) by (intros I; apply Nyz; rewrite Ez; now apply in_map). specialize (S N1 N2).
  split.
  - intros Ds. apply S in Ds. exists 1%Qc. split; [|exact A1]. rewrite HT. cbn [perfect code]. now rewrite Ds.
  - intros (d & Ac). exists 0%Qc. split; [|exact A0]. rewrite HT. cbn [perfect code]. destruct (d_separatedb dag i j (map code z)) eqn:E; [|reflexivity].
    exfalso. destruct S as [S _]. exact (S eq_refl d Ac).
Qed.
End Perfect.
