(** Dirac.v -- a graph in which every long cycle has a chord has a perfect elimination order. *)
From Verif Require Import Py Num BayesNet SpecFactor SpecGraph GraphTheory Graph Mst Chordal.
Open Scope nat_scope.

Section Dirac.
  Variable es : list (name * name).
  Hypothesis Ch : chordal es.
  Definition nbr (a b : name) : Prop := uadj es a b /\ a <> b.
  Lemma nbr_sym a b : nbr a b -> nbr b a. Proof. unfold nbr, uadj. intuition congruence. Qed.
  Lemma nbr_dec a b : {nbr a b} + {~ nbr a b}.
  Proof.
    unfold nbr, uadj. destruct (in_dec eq_edge_dec (a, b) es); destruct (in_dec eq_edge_dec (b, a) es); destruct (name_eq_dec a b); tauto.
  Qed.

  (** ** induced paths *)
  Fixpoint ind (l : list name) : Prop :=
    match l with
    | [] => True
    | x :: r => match r with [] => True | z :: q => nbr x z /\ Forall (fun y => ~ nbr x y /\ x <> y) q /\ ind r end
    end.
  Lemma last_such (P : name -> Prop) (Pd : forall x, {P x} + {~ P x}) l : (exists x, In x l /\ P x) ->
    exists p z q, l = p ++ z :: q /\ P z /\ forall y, In y q -> ~ P y.
  Proof.
    induction l as [|v l IH]; intros (x & Hx & Px); [destruct Hx|].
    destruct (Exists_dec P l Pd) as [Y|N].
    - apply Exists_exists in Y. destruct (IH Y) as (p & z & q & -> & Pz & Hq). exists (v :: p), z, q. auto.
    - exists [], v, l. split; [reflexivity|]. split.
      + destruct Hx as [->|Hx]; [exact Px|]. exfalso. apply N. apply Exists_exists. eauto.
      + intros y Hy Py. apply N. apply Exists_exists. eauto.
  Qed.
  Lemma ind_suffix p q : ind (p ++ q) -> ind q.
  Proof. induction p as [|x p IH]; [auto|]. intros H. apply IH. simpl in H. destruct (p ++ q); [exact Logic.I|]. apply H. Qed.
  Lemma induce x l : chain nbr (x :: l) -> exists l', incl l' l /\ ind (x :: l') /\ last (x :: l') x = last (x :: l) x.
  Proof.
    revert x. induction l as [|w l IH]; intros x C.
    - exists []. split; [apply incl_refl|]. split; [exact Logic.I|reflexivity].
    - inversion C; subst. destruct (IH w H3) as (l' & I' & D' & La).
      destruct (last_such (fun y => nbr x y \/ x = y)) with (l := w :: l') as (p & z & q & E & Pz & Hq).
      { intros y. destruct (nbr_dec x y); [left; tauto|]. destruct (name_eq_dec x y); [left; tauto|right; tauto]. }
      { exists w. split; [now left|now left]. }
      assert (Lx : last (x :: w :: l) x = last (w :: l') w) by (rewrite last_cons; now symmetry).
      assert (Iq : incl (z :: q) (w :: l)).
      { intros y Hy. assert (K : In y (w :: l')) by (rewrite E; apply in_or_app; now right). destruct K as [<-|K]; [now left|right; now apply I']. }
      rewrite E in D', Lx. assert (Dq := ind_suffix _ _ D'). rewrite last_app_cons in Lx.
      destruct (name_eq_dec x z) as [->|Nz].
      + exists q. split; [intros y Hy; apply Iq; now right|]. split; [exact Dq|]. rewrite Lx. now apply last_default.
      + exists (z :: q). split; [exact Iq|]. split.
        * cbn [ind]. split; [tauto|]. split; [|exact Dq]. apply Forall_forall. intros y Hy. specialize (Hq y Hy). tauto.
        * rewrite last_cons, Lx. now apply last_default.
  Qed.
  Lemma ind_step d : forall l i, ind l -> S i < length l -> nbr (nth i l d) (nth (S i) l d).
  Proof.
    induction l as [|x r IH]; intros i D L; [simpl in L; lia|]. destruct r as [|z q]; [simpl in L; lia|]. destruct D as (D1 & D2 & D3).
    destruct i as [|i]; [exact D1|]. apply (IH i D3). simpl in *. lia.
  Qed.
  Lemma ind_far d : forall l i j, ind l -> S i < j -> j < length l -> ~ nbr (nth i l d) (nth j l d) /\ nth i l d <> nth j l d.
  Proof.
    induction l as [|x r IH]; intros i j D Lij L; [simpl in L; lia|]. destruct r as [|z q]; [simpl in L; lia|]. destruct D as (D1 & D2 & D3).
    destruct j as [|j]; [lia|]. destruct i as [|i].
    - destruct j as [|j]; [lia|]. cbn [nth]. rewrite Forall_forall in D2. apply D2. apply nth_In. simpl in L. lia.
    - apply (IH i j D3); [lia|]. simpl in *. lia.
  Qed.
  Lemma ind_inj d l i j : ind l -> i < length l -> j < length l -> i <> j -> nth i l d <> nth j l d.
  Proof.
    intros D Li Lj N. assert (X : forall i j, i < j -> j < length l -> nth i l d <> nth j l d).
    { intros a b Lab Lb. destruct (Nat.eq_dec b (S a)) as [->|Nb]; [apply ind_step; assumption|]. apply ind_far; [assumption|lia|assumption]. }
    destruct (Nat.lt_gt_cases i j) as [Q _]. destruct (Q N) as [L|L]; [now apply X|]. intros E. symmetry in E. revert E. now apply X.
  Qed.

  (** an induced path between two neighbours of [u], avoiding the other neighbours of [u], and its ends adjacent *)
  Lemma no_detour u p : ind p -> 3 <= length p -> ~ In u p -> nbr u (nth 0 p (NInt 0)) -> nbr u (nth (length p - 1) p (NInt 0)) ->
    (forall k, 0 < k -> k < length p - 1 -> ~ nbr u (nth k p (NInt 0))) -> False.
  Proof.
    intros D L Nu A0 A1 Inner. set (n := length p) in *. set (d := NInt 0) in *.
    assert (Cn : forall k, k <= n -> cyc_nth (u :: p) k = match k with 0 => u | S k' => nth k' p d end).
    { intros k Hk. unfold cyc_nth. change (length (u :: p)) with (S n). rewrite Nat.mod_small by lia. destruct k; reflexivity. }
    assert (Cl : length (u :: p) = S n) by reflexivity.
    assert (Cm : forall k, cyc_nth (u :: p) (k mod S n) = cyc_nth (u :: p) k) by (intros k; rewrite <- Cl; apply cyc_nth_mod; discriminate).
    assert (Cy : is_cycle (uadj es) (u :: p)).
    { split; [simpl; fold n; lia|]. split.
      - constructor; [exact Nu|]. apply (NoDup_nth p d). intros i j Hi Hj E. destruct (Nat.eq_dec i j); [assumption|]. exfalso. now apply (ind_inj d p i j).
      - intros i. rewrite <- (Cm i), <- (Cm (S i)).
        assert (Hi : i mod S n < S n) by (apply Nat.mod_upper_bound; lia).
        assert (Es : S i mod S n = S (i mod S n) mod S n).
        { replace (S i) with (i + 1) by lia. replace (S (i mod S n)) with (i mod S n + 1) by lia. rewrite Nat.add_mod_idemp_l by lia. reflexivity. }
        rewrite Es. set (k := i mod S n) in *. destruct (Nat.eq_dec k n) as [->|Nk].
        + rewrite (Nat.mod_same (S n)) by lia. rewrite (Cn n), (Cn 0) by lia. replace n with (S (n - 1)) at 1 by lia. apply nbr_sym in A1. apply A1.
        + rewrite (Nat.mod_small (S k)) by lia. rewrite !Cn by lia. destruct k as [|k]; [apply A0|]. apply (ind_step d p k D). fold n. lia. }
    destruct (Ch (u :: p) Cy) as (i & j & Hi & Hj & Nij & N1 & N2 & A); [simpl; fold n; lia|].
    rewrite Cl in *. rewrite (Cn i), (Cn j) in A by lia.
    assert (W : forall i j, i < j -> j < S n -> S i mod S n <> j -> S j mod S n <> i ->
        uadj es match i with 0 => u | S k' => nth k' p d end match j with 0 => u | S k' => nth k' p d end -> False).
    { clear i j Hi Hj Nij N1 N2 A. intros i j Lij Hj N1 N2 A. rewrite Nat.mod_small in N1 by lia. destruct j as [|j]; [lia|]. destruct i as [|i].
      - apply (Inner j); [lia| |].
        + destruct (Nat.eq_dec j (n - 1)) as [->|]; [|lia]. exfalso. apply N2. replace (S (S (n - 1))) with (S n) by lia. apply Nat.mod_same. lia.
        + split; [exact A|]. intros E. apply Nu. rewrite E. apply nth_In. fold n. lia.
      - destruct (ind_far d p i j D) as [F1 F2]; [lia|fold n; lia|]. apply F1. split; assumption. }
    destruct (Nat.lt_gt_cases i j) as [Q _]. destruct (Q Nij) as [Lt|Lt]; [now apply (W i j)|]. apply (W j i); auto. unfold uadj in *. tauto.
  Qed.

  (** ** connected pieces *)
  Definition linked (C : list name) : name -> name -> Prop := clos_refl_trans _ (fun a b => nbr a b /\ In a C /\ In b C).
  Lemma linked_mono C C' a b : incl C C' -> linked C a b -> linked C' a b.
  Proof. intros I H. eapply clos_rt_incl; [|exact H]. intros x y (K1 & K2 & K3). auto. Qed.
  Lemma linked_sym C a b : linked C a b -> linked C b a.
  Proof. intros H. induction H as [x y (K1 & K2 & K3)|x|x y z _ IH1 _ IH2]; [apply rt_step; split; [now apply nbr_sym|auto]|apply rt_refl|eapply rt_trans; eassumption]. Qed.
  Lemma component : forall n M C w, length (filter (fun x => negb (mem x C)) M) <= n -> In w C -> incl C M -> (forall c, In c C -> linked C w c) ->
    exists D, In w D /\ incl D M /\ (forall c, In c D -> linked D w c) /\ forall x y, In x D -> In y M -> nbr x y -> In y D.
  Proof.
    induction n as [|n IH]; intros M C w Ln Hw I Lk.
    - exists C. split; [exact Hw|]. split; [exact I|]. split; [exact Lk|]. intros x y Hx Hy _. destruct (in_dec name_eq_dec y C) as [Y|N]; [exact Y|].
      assert (K : In y (filter (fun x => negb (mem x C)) M)) by (apply filter_In; split; [exact Hy|]; apply negb_true_iff, mem_false, N). apply in_split in K as (k1 & k2 & K). rewrite K, app_length in Ln. simpl in Ln. lia.
    - destruct (Exists_dec (fun y => ~ In y C /\ Exists (fun x => nbr x y) C) M) as [Y|N].
      { intros y. destruct (in_dec name_eq_dec y C); [right; tauto|]. destruct (Exists_dec (fun x => nbr x y) C); [intros x; apply nbr_dec|left; tauto|right; tauto]. }
      + apply Exists_exists in Y as (y & Hy & Ny & Ex). apply Exists_exists in Ex as (x & Hx & A).
        assert (I2 : incl C (y :: C)) by (intros z; now right).
        destruct (IH M (y :: C) w) as (D & D1 & D2); [|now right| | |exists D; auto].
        * assert (Lt : length (filter (fun x => negb (mem x (y :: C))) M) < length (filter (fun x => negb (mem x C)) M)); [|lia].
          clear - Hy Ny. induction M as [|m M IHM]; [destruct Hy|].
          assert (Le : length (filter (fun x => negb (mem x (y :: C))) M) <= length (filter (fun x => negb (mem x C)) M)).
          { clear. induction M as [|m M IH]; [auto|]. simpl in *. destruct (name_eqb_spec m y); simpl; [destruct (mem m C); simpl; lia|]. destruct (mem m C); simpl; lia. }
          destruct (name_eq_dec m y) as [->|Nm].
          -- cbn [filter]. assert (E1 : mem y (y :: C) = true) by (apply mem_In; now left). assert (E2 : mem y C = false) by now apply mem_false. rewrite E1, E2. simpl. simpl in Le. lia.
          -- destruct Hy as [->|Hy]; [congruence|]. specialize (IHM Hy). cbn [filter]. assert (E1 : mem m (y :: C) = mem m C) by (simpl; destruct (name_eqb_spec m y); [congruence|reflexivity]).
             rewrite E1. destruct (mem m C); simpl; simpl in IHM; lia.
        * intros z [<-|Hz]; [exact Hy|now apply I].
        * intros c [<-|Hc]; [|apply (linked_mono C); auto]. eapply rt_trans; [apply (linked_mono C); [exact I2|apply (Lk x Hx)]|]. apply rt_step. split; [exact A|]. split; [now right|now left].
      + exists C. split; [exact Hw|]. split; [exact I|]. split; [exact Lk|]. intros x y Hx Hy A. destruct (in_dec name_eq_dec y C) as [Y|Ny]; [exact Y|]. exfalso. apply N. apply Exists_exists. exists y.
        split; [exact Hy|]. split; [exact Ny|]. apply Exists_exists. eauto.
  Qed.

  Lemma chain_all (C : list name) : forall l c, chain (fun a b => nbr a b /\ In a C /\ In b C) (c :: l) -> In c C -> incl (c :: l) C /\ chain nbr (c :: l).
  Proof.
    induction l as [|d l IH]; intros c H Hc; [split; [intros x [<-|[]]; exact Hc|constructor]|]. inversion H; subst. destruct H2 as (K1 & _ & K3).
    destruct (IH d H4 K3) as [I1 I2]. split; [intros x [<-|Hx]; [exact Hc|now apply I1]|]. now constructor.
  Qed.
  Lemma chain_snoc l : forall c y, chain nbr (c :: l) -> nbr (last (c :: l) c) y -> chain nbr (c :: l ++ [y]).
  Proof.
    induction l as [|d l IH]; intros c y H A; [constructor; [exact A|constructor]|]. inversion H; subst. cbn [app]. constructor; [assumption|]. apply IH; [assumption|]. now rewrite last_cons in A.
  Qed.

  (** the neighbours of a component of the non-neighbours of [u] are pairwise adjacent *)
  Lemma attach_clique u C x y : (forall c, In c C -> ~ nbr u c /\ c <> u) -> (forall a b, In a C -> In b C -> linked C a b) ->
    nbr u x -> nbr u y -> x <> y -> (exists c, In c C /\ nbr x c) -> (exists c, In c C /\ nbr y c) -> nbr x y.
  Proof.
    intros HC Lk Ax Ay Nxy (c1 & Hc1 & A1) (c2 & Hc2 & A2). destruct (nbr_dec x y) as [Y|N]; [exact Y|exfalso].
    destruct (simple_path _ _ _ (Lk c1 c2 Hc1 Hc2)) as (l & Cl & _ & La).
    destruct (chain_all C l c1 Cl Hc1) as [Il Cl'].
    assert (Cx : chain nbr (x :: c1 :: l ++ [y])) by (constructor; [exact A1|]; apply chain_snoc; [exact Cl'|]; rewrite La; now apply nbr_sym).
    destruct (induce x _ Cx) as (l' & I' & D & Lst).
    assert (Ly : last (x :: l') x = y).
    { rewrite Lst. change (x :: c1 :: l ++ [y]) with ((x :: c1 :: l) ++ y :: []). rewrite last_app_cons. reflexivity. }
    set (p := x :: l') in *. set (n := length p). assert (Ln : nth (n - 1) p (NInt 0) = y).
    { rewrite <- Ly. unfold n. clear. rewrite (last_default p x (NInt 0)) by discriminate. generalize p. clear. intros p. induction p as [|a [|b p] IH]; [reflexivity|reflexivity|]. change (last (a :: b :: p) (NInt 0)) with (last (b :: p) (NInt 0)). rewrite <- IH. simpl. now rewrite Nat.sub_0_r. }
    assert (L3 : 3 <= n).
    { unfold n, p in *. destruct l' as [|a [|b l']]; [exfalso; apply Nxy; exact Ly| |simpl; lia]. exfalso. apply N. rewrite <- (Ly : a = y). apply D. }
    assert (Dy : forall k, 0 < k -> k < n - 1 -> In (nth k p (NInt 0)) C).
    { intros k K1 K2. assert (Hk : In (nth k p (NInt 0)) l') by (unfold p; destruct k; [lia|]; cbn [nth]; apply nth_In; unfold n, p in K2; simpl in K2; lia).
      apply I' in Hk. assert (Hne : nth k p (NInt 0) <> y) by (rewrite <- Ln; apply ind_inj; unfold n in *; [exact D|lia|lia|lia]).
      assert (In (nth k p (NInt 0)) (c1 :: l) \/ nth k p (NInt 0) = y) as [Q|Q]; [|now apply Il|contradiction].
      destruct Hk as [<-|Hk]; [left; now left|]. apply in_app_or in Hk as [Hk|[<-|[]]]; [left; now right|now right]. }
    apply (no_detour u p D L3).
    - intros Hu. destruct Hu as [<-|Hu]; [apply Ax; reflexivity|]. apply I' in Hu. assert (In u (c1 :: l) \/ u = y) as [Q|Q].
      { destruct Hu as [<-|Hu]; [left; now left|]. apply in_app_or in Hu as [Hu|[<-|[]]]; [left; now right|now right]. }
      + apply Il in Q. now apply HC in Q.
      + subst. now apply Ay.
    - exact Ax.
    - fold n. rewrite Ln. exact Ay.
    - intros k K1 K2. apply HC. now apply Dy.
  Qed.

  Definition simp (L : list name) (v : name) : Prop := forall a b, In a L -> In b L -> nbr v a -> nbr v b -> a <> b -> nbr a b.
  Lemma complete_or L : (forall a b, In a L -> In b L -> a <> b -> nbr a b) \/ exists a b, In a L /\ In b L /\ a <> b /\ ~ nbr a b.
  Proof.
    destruct (Exists_dec (fun a => Exists (fun b => a <> b /\ ~ nbr a b) L) L) as [Y|N].
    - intros a. apply Exists_dec. intros b. destruct (name_eq_dec a b); [right; tauto|]. destruct (nbr_dec a b); [right; tauto|left; tauto].
    - right. apply Exists_exists in Y as (a & Ha & Y). apply Exists_exists in Y as (b & Hb & K). exists a, b. tauto.
    - left. intros a b Ha Hb Nab. destruct (nbr_dec a b) as [Y|Q]; [exact Y|]. exfalso. apply N. apply Exists_exists. exists a. split; [exact Ha|]. apply Exists_exists. eauto.
  Qed.

  Lemma dirac_aux : forall n L, length L <= n -> NoDup L ->
    (L <> [] -> exists v, In v L /\ simp L v) /\
    (forall u, In u L -> (exists w, In w L /\ w <> u /\ ~ nbr u w) -> exists v, In v L /\ simp L v /\ v <> u /\ ~ nbr u v).
  Proof.
    induction n as [|n IH]; intros L Ln ND.
    { destruct L; [|simpl in Ln; lia]. split; [congruence|intros u []]. }
    assert (Far : forall u, In u L -> (exists w, In w L /\ w <> u /\ ~ nbr u w) -> exists v, In v L /\ simp L v /\ v <> u /\ ~ nbr u v).
    { intros u Hu (w & Hw & Nw & Aw).
      set (far := fun x => if name_eq_dec x u then false else if nbr_dec u x then false else true).
      assert (Hfar : forall x, far x = true <-> x <> u /\ ~ nbr u x) by (intros x; unfold far; destruct (name_eq_dec x u); [intuition congruence|]; destruct (nbr_dec u x); intuition congruence).
      set (M := filter far L). assert (HM : forall x, In x M <-> In x L /\ x <> u /\ ~ nbr u x) by (intros x; unfold M; rewrite filter_In, Hfar; tauto).
      destruct (component (length (filter (fun x => negb (mem x [w])) M)) M [w] w) as (C & C1 & C2 & C3 & C4).
      { auto. } { now left. } { intros x [<-|[]]. apply HM. tauto. } { intros c [<-|[]]. apply rt_refl. }
      set (inC := fun x => if in_dec name_eq_dec x C then true else false).
      set (nearC := fun x => if nbr_dec u x then (if Exists_dec (fun c => nbr x c) C (nbr_dec x) then true else false) else false).
      assert (Hnear : forall x, nearC x = true <-> nbr u x /\ exists c, In c C /\ nbr x c).
      { intros x. unfold nearC. destruct (nbr_dec u x); [|intuition congruence]. destruct (Exists_dec _ C _) as [Y|N]; rewrite Exists_exists in *; [intuition|]. split; [congruence|tauto]. }
      set (H := filter (fun x => inC x || nearC x) L).
      assert (HinC : forall x, inC x = true <-> In x C) by (intros x; unfold inC; destruct (in_dec name_eq_dec x C); intuition congruence).
      assert (HH : forall x, In x H <-> In x L /\ (In x C \/ (nbr u x /\ exists c, In c C /\ nbr x c))).
      { intros x. unfold H. rewrite filter_In, orb_true_iff, HinC, Hnear. tauto. }
      assert (CM : forall c, In c C -> In c L /\ c <> u /\ ~ nbr u c) by (intros c Hc; apply HM, C2, Hc).
      assert (Scl : forall x y, nbr u x -> nbr u y -> (exists c, In c C /\ nbr x c) -> (exists c, In c C /\ nbr y c) -> x <> y -> nbr x y).
      { intros x y Ax Ay Ex Ey Nxy. apply (attach_clique u C x y); auto.
        - intros c Hc. apply CM in Hc. tauto.
        - intros a b Ha Hb. eapply rt_trans; [apply linked_sym, C3, Ha|now apply C3]. }
      assert (Hlen : forall (K : list name), NoDup K -> incl K L -> ~ In u K -> length K <= n).
      { intros K NDK IK NuK. assert (length (u :: K) <= length L); [|simpl in *; lia]. apply NoDup_incl_length; [now constructor|]. intros x [<-|Hx]; auto. }
      assert (NDH : NoDup H) by now apply NoDup_filter.
      assert (IH1 : incl H L) by (intros x Hx; apply HH in Hx; tauto).
      assert (NuH : ~ In u H) by (intros K; apply HH in K as [_ [K|[[_ K] _]]]; [apply CM in K; tauto|congruence]).
      (* a vertex of C simplicial in H is simplicial in L *)
      assert (Up : forall v, In v C -> simp H v -> exists v, In v L /\ simp L v /\ v <> u /\ ~ nbr u v).
      { intros v Hv Sv. exists v. destruct (CM v Hv) as (K1 & K2 & K3). split; [exact K1|]. split; [|tauto].
        assert (NH : forall a, In a L -> nbr v a -> In a H).
        { intros a Ha Aa. apply HH. split; [exact Ha|]. destruct (nbr_dec u a) as [Y|N]; [right; split; [exact Y|]; exists v; split; [exact Hv|now apply nbr_sym]|].
          destruct (name_eq_dec a u) as [->|Na]; [exfalso; apply K3; now apply nbr_sym|]. left. apply (C4 v a Hv); [apply HM; tauto|exact Aa]. }
        intros a b Ha Hb Aa Ab Nab. apply Sv; auto. }
      set (isS := fun x => nbr u x /\ exists c, In c C /\ nbr x c).
      destruct (Exists_dec (fun s => nbr u s /\ Exists (fun x => x <> s /\ ~ nbr s x) H) H) as [Y|N].
      { intros s. destruct (nbr_dec u s); [|right; tauto]. destruct (Exists_dec (fun x => x <> s /\ ~ nbr s x) H) as [E|E]; [|left; tauto|right; tauto].
        intros x. destruct (name_eq_dec x s); [right; tauto|]. destruct (nbr_dec s x); [right; tauto|left; tauto]. }
      - (* some s of S is not adjacent to all of H *)
        apply Exists_exists in Y as (s & Hs & As & Y). apply Exists_exists in Y as (x & Hx & Nx & Ax).
        destruct (proj2 (IH H (Hlen H NDH IH1 NuH) NDH) s Hs) as (v & Hv & Sv & Nv & Av); [exists x; tauto|].
        apply (Up v); [|exact Sv]. apply HH in Hv as [_ [Hv|[Uv Ev]]]; [exact Hv|]. exfalso. apply Av. apply HH in Hs as [_ [Hs|[Us Es]]]; [apply CM in Hs; tauto|]. apply Scl; auto.
      - (* all of S are adjacent to everything in H *)
        assert (Univ : forall s x, In s H -> nbr u s -> In x H -> x <> s -> nbr s x).
        { intros s x Hs As Hx Nx. destruct (nbr_dec s x) as [Y|Q]; [exact Y|]. exfalso. apply N. apply Exists_exists. exists s. split; [exact Hs|]. split; [exact As|]. apply Exists_exists. exists x. tauto. }
        set (Cf := filter inC L). assert (HCf : forall x, In x Cf <-> In x C) by (intros x; unfold Cf; rewrite filter_In, HinC; split; [tauto|intros K; split; [now apply CM|exact K]]).
        assert (NDC : NoDup Cf) by now apply NoDup_filter.
        destruct (proj1 (IH Cf (Hlen Cf NDC (fun x Hx => proj1 (CM x (proj1 (HCf x) Hx))) (fun K => proj1 (proj2 (CM u (proj1 (HCf u) K))) eq_refl)) NDC)) as (v & Hv & Sv).
        { intros E. assert (K : In w Cf) by now apply HCf. rewrite E in K. destruct K. }
        apply HCf in Hv. apply (Up v Hv). intros a b Ha Hb Aa Ab Nab.
        assert (Ia := Ha). assert (Ib := Hb). apply HH in Ia as [_ Ia]. apply HH in Ib as [_ Ib].
        destruct Ia as [Ia|[Ua Ea]]; [|apply Univ; auto]. destruct Ib as [Ib|[Ub Eb]]; [|apply nbr_sym; apply Univ; auto].
        apply Sv; auto; now apply HCf. }
    split; [|exact Far].
    intros NE. destruct (complete_or L) as [Cp|(a & b & Ha & Hb & Nab & Aab)].
    - destruct L as [|v L]; [congruence|]. exists v. split; [now left|]. intros a b Ha Hb _ _ Nab. now apply Cp.
    - destruct (Far a Ha) as (v & Hv & Sv & _); [exists b; auto|]. eauto.
  Qed.
  Lemma dirac L : NoDup L -> L <> [] -> exists v, In v L /\ simp L v.
  Proof. intros ND. now apply (dirac_aux (length L) L). Qed.

  (** perfect elimination orders *)
  Inductive peo : list name -> Prop :=
  | peo_nil : peo []
  | peo_cons v r : ~ In v r -> simp r v -> peo r -> peo (v :: r).
  Lemma chordal_peo : forall n L, length L <= n -> NoDup L -> exists r, Permutation L r /\ peo r.
  Proof.
    induction n as [|n IH]; intros L Ln ND.
    - destruct L; [|simpl in Ln; lia]. exists []. split; constructor.
    - destruct L as [|x L]; [exists []; split; constructor|]. destruct (dirac (x :: L) ND) as (v & Hv & Sv); [discriminate|].
      apply in_split in Hv as (p & q & E). rewrite E in *. assert (ND' := NoDup_remove_1 _ _ _ ND). assert (Nv := NoDup_remove_2 _ _ _ ND).
      assert (Ln' : length (p ++ q) <= n) by (rewrite app_length in *; simpl in Ln; lia).
      destruct (IH (p ++ q) Ln' ND') as (r & Pr & Pe). exists (v :: r). split; [rewrite <- Pr; symmetry; apply Permutation_middle|].
      constructor; [intros K; apply Nv; now apply (Permutation_in _ (Permutation_sym Pr))| |exact Pe].
      intros a b Ha Hb. apply Sv; apply (Permutation_in _ (Permutation_sym Pr)) in Ha; apply (Permutation_in _ (Permutation_sym Pr)) in Hb; rewrite in_app_iff in *; simpl; tauto.
  Qed.
End Dirac.
