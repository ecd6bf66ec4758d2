(** GraphTheory.v -- finite directed graphs: paths, sources, topological orders. *)
From Verif Require Import Py Num BayesNet SpecFactor SpecGraph.
Open Scope nat_scope.

Section Rel.
  Variable R : name -> name -> Prop.
  Local Notation RT := (clos_refl_trans name R).
  Local Notation TC := (clos_trans name R).

  Lemma tc_rt u v : TC u v -> RT u v.
  Proof. induction 1 as [u v H|u v w _ I1 _ I2]; [now apply rt_step|eapply rt_trans; eauto]. Qed.
  Lemma rt_tc u v w : RT u v -> TC v w -> TC u w.
  Proof. induction 1 as [u v H|u|u x v _ I1 _ I2]; intros T; [apply t_trans with v; [now apply t_step|exact T]|assumption|auto]. Qed.
  Lemma tc_rt_tc u v w : TC u v -> RT v w -> TC u w.
  Proof. intros T H. revert u T. induction H as [v w H|v|v x w _ I1 _ I2]; intros u T; [apply t_trans with v; [exact T|now apply t_step]|assumption|auto]. Qed.
  Lemma rt_cases u v : RT u v -> u = v \/ TC u v.
  Proof.
    induction 1 as [u v H|u|u x v H1 I1 H2 I2]; [right; now apply t_step|now left|].
    destruct I1 as [->|I1]; [exact I2|]. right. eapply tc_rt_tc; eassumption.
  Qed.
  Lemma tc_first u v : TC u v -> exists w, R u w /\ RT w v.
  Proof.
    intros H. induction H as [u v H|u x v _ (w & Hw & Hx) H2 _]; [exists v; split; [assumption|apply rt_refl]|].
    exists w. split; [assumption|]. eapply rt_trans; [exact Hx|now apply tc_rt].
  Qed.
  Lemma tc_last u v : TC u v -> exists w, RT u w /\ R w v.
  Proof.
    intros H. induction H as [u v H|u x v H1 _ _ (w & Hw & Hx)]; [exists u; split; [apply rt_refl|assumption]|].
    exists w. split; [|assumption]. apply rt_trans with x; [now apply tc_rt|exact Hw].
  Qed.

  (** an order with parents first excludes cycles *)
  Lemma order_acyclic ord : (forall u v, R u v -> In v ord) ->
    (forall p v q u, ord = p ++ v :: q -> R u v -> In u p) -> NoDup ord -> forall v, ~ TC v v.
  Proof.
    intros Hin Hord ND.
    assert (G : forall p q u v, ord = p ++ q -> TC u v -> In v p -> In u p).
    { intros p q u v E T. apply clos_trans_t1n in T. induction T as [u v H|u x v H _ IH]; intros Iv.
      - apply in_split in Iv as (p1 & p2 & ->). apply in_or_app. left.
        apply (Hord p1 v (p2 ++ q) u); [|assumption]. rewrite E. now rewrite <- app_assoc.
      - specialize (IH Iv). apply in_split in IH as (p1 & p2 & ->). apply in_or_app. left.
        apply (Hord p1 x (p2 ++ q) u); [|assumption]. rewrite E. now rewrite <- app_assoc. }
    intros v T. destruct (tc_last _ _ T) as (w & Hw & Hwv).
    destruct (in_split _ _ (Hin _ _ Hwv)) as (p & q & E).
    assert (Iw : In w p) by (eapply Hord; eassumption).
    assert (Iv : In v p).
    { destruct (rt_cases _ _ Hw) as [<-|Tw]; [assumption|]. eapply (G p); eassumption. }
    rewrite E in ND. apply NoDup_remove_2 in ND. apply ND. apply in_or_app. now left.
  Qed.

  Hypothesis Rdec : forall u v, {R u v} + {~ R u v}.

  (** walking backwards through distinct vertices *)
  Inductive chain : list name -> Prop :=
  | ch1 v : chain [v]
  | ch2 u v l : R u v -> chain (v :: l) -> chain (u :: v :: l).
  Lemma chain_reach v l x : chain (v :: l) -> In x (v :: l) -> RT v x.
  Proof.
    revert v. induction l as [|w l IH]; intros v C [<-|Hx]; [apply rt_refl|destruct Hx|apply rt_refl|].
    inversion C; subst. apply rt_trans with w; [now apply rt_step|]. now apply IH.
  Qed.

  Lemma source_or_chain K n : (exists v, In v K /\ forall u, In u K -> ~ R u v) \/ K = [] \/
    (forall v, ~ TC v v) -> K <> [] -> (forall v, ~ TC v v) ->
    (exists v, In v K /\ forall u, In u K -> ~ R u v) \/ exists l, length l = S n /\ chain l /\ NoDup l /\ incl l K.
  Proof.
    intros _ NE A. induction n as [|n IH].
    - destruct K as [|k K]; [congruence|]. right. exists [k]. split; [reflexivity|]. split; [constructor|].
      split; [constructor; [intros []|constructor]|]. intros x [<-|[]]. now left.
    - destruct IH as [S|(l & Len & C & ND & I)]; [now left|].
      destruct l as [|v l]; [discriminate|].
      destruct (Exists_dec (fun u => R u v) K (fun u => Rdec u v)) as [Ex|Nex].
      + apply Exists_exists in Ex as (u & Hu & Huv). right. exists (u :: v :: l).
        split; [simpl in *; lia|]. split; [now constructor|]. split.
        * constructor; [|assumption]. intros Hin. apply (A u).
          eapply t_trans; [apply t_step; exact Huv|].
          assert (X := chain_reach v l u C Hin). destruct (rt_cases _ _ X) as [->|T]; [|exact T].
          apply t_step. assumption.
        * intros x [<-|Hx]; auto.
      + left. exists v. split; [apply I; now left|]. intros u Hu Huv. apply Nex. apply Exists_exists. eauto.
  Qed.

  Lemma source_exists K : K <> [] -> (forall v, ~ TC v v) -> exists v, In v K /\ forall u, In u K -> ~ R u v.
  Proof.
    intros NE A. destruct (source_or_chain K (length K) (or_intror (or_intror A)) NE A) as [S|(l & Len & C & ND & I)]; [exact S|].
    apply (NoDup_incl_length ND) in I. lia.
  Qed.

  (** every finite acyclic graph has a topological order *)
  Lemma topo_exists K : NoDup K -> (forall v, ~ TC v v) ->
    exists ord, Permutation ord K /\ forall p v q, ord = p ++ v :: q -> forall u, In u K -> R u v -> In u p.
  Proof.
    remember (length K) as n eqn:En. revert K En. induction n as [|n IH]; intros K En ND A.
    - destruct K; [|discriminate]. exists []. split; [reflexivity|]. intros p v q E. destruct p; discriminate.
    - assert (NE : K <> []) by (intros ->; discriminate).
      destruct (source_exists K NE A) as (s & Hs & Hsrc).
      assert (L : n = length (remove1 s K)) by (pose proof (length_remove1 s K Hs); lia).
      destruct (IH (remove1 s K) L (NoDup_remove1 s K ND) A) as (ord & P & Hord).
      exists (s :: ord). split.
      + rewrite (remove1_perm s K Hs). now constructor.
      + intros p v q E u Hu Huv. destruct p as [|x p].
        * simpl in E. inversion E; subst. exfalso. now apply (Hsrc u).
        * simpl in E. inversion E; subst. destruct (name_eqb_spec u x) as [->|Nu]; [now left|].
          right. apply (Hord p v q eq_refl); [|assumption]. apply In_remove1; auto.
  Qed.

  (** in a finite acyclic graph every vertex is reached from a source *)
  Lemma from_source K v : NoDup K -> (forall v, ~ TC v v) -> (forall u v, In v K -> R u v -> In u K) -> In v K ->
    exists s, In s K /\ (forall u, ~ R u s) /\ RT s v.
  Proof.
    intros ND A Cl Hv. destruct (topo_exists K ND A) as (ord & P & Hord).
    assert (G : forall n p w q, length p <= n -> ord = p ++ w :: q -> exists s, In s K /\ (forall u, ~ R u s) /\ RT s w).
    { induction n as [|n IH]; intros p w q Lp E.
      - destruct p; [|simpl in Lp; lia]. exists w.
        assert (Hw : In w K) by (apply (Permutation_in _ P); rewrite E; now left).
        split; [assumption|]. split; [|apply rt_refl]. intros u Hu.
        assert (X := Hord [] w q E u (Cl _ _ Hw Hu) Hu). destruct X.
      - assert (Hw : In w K) by (apply (Permutation_in _ P); rewrite E; apply in_or_app; right; now left).
        destruct (Exists_dec (fun u => R u w) K (fun u => Rdec u w)) as [Ex|Nex].
        + apply Exists_exists in Ex as (u & Hu & Huw). assert (Iu : In u p) by (eapply Hord; eassumption).
          apply in_split in Iu as (p1 & p2 & ->).
          destruct (IH p1 u (p2 ++ w :: q)) as (s & S1 & S2 & S3).
          * rewrite app_length in Lp. simpl in Lp. lia.
          * rewrite E, <- app_assoc. reflexivity.
          * exists s. split; [assumption|]. split; [assumption|]. eapply rt_trans; [exact S3|now apply rt_step].
        + exists w. split; [assumption|]. split; [|apply rt_refl]. intros u Hu. apply Nex. apply Exists_exists. exists u.
          split; [eapply Cl; eassumption|assumption]. }
    apply (Permutation_in _ (Permutation_sym P)) in Hv. apply in_split in Hv as (p & q & E). eapply G; [apply le_n|exact E].
  Qed.
End Rel.

Lemma edge_dec E u v : {edge E u v} + {~ edge E u v}.
Proof.
  destruct (dget E u) as [c|] eqn:D.
  - destruct (in_dec name_eq_dec v c) as [I|N].
    + left. exists c. auto.
    + right. intros (c' & D' & I). rewrite D in D'. inversion D'; subst. contradiction.
  - right. intros (c' & D' & I). congruence.
Qed.

(** *** Adding and removing one edge *)
Lemma clos_rt_incl (R S : name -> name -> Prop) u v : (forall x y, R x y -> S x y) ->
  clos_refl_trans _ R u v -> clos_refl_trans _ S u v.
Proof. intros H. induction 1 as [x y Hxy|x|x y z _ I1 _ I2]; [apply rt_step; auto|apply rt_refl|eapply rt_trans; eauto]. Qed.
Lemma clos_t_incl (R S : name -> name -> Prop) u v : (forall x y, R x y -> S x y) ->
  clos_trans _ R u v -> clos_trans _ S u v.
Proof. intros H. induction 1 as [x y Hxy|x y z _ I1 _ I2]; [apply t_step; auto|eapply t_trans; eauto]. Qed.

(** a path in R plus the edge a->b either avoids it or splits around it *)
Lemma add_edge_path (R S : name -> name -> Prop) a b u v :
  (forall x y, S x y <-> R x y \/ (x = a /\ y = b)) ->
  clos_refl_trans _ S u v -> clos_refl_trans _ R u v \/ (clos_refl_trans _ R u a /\ clos_refl_trans _ R b v).
Proof.
  intros HS. induction 1 as [x y H|x|x y z _ I1 _ I2].
  - apply HS in H as [H|[-> ->]]; [left; now apply rt_step|right; split; apply rt_refl].
  - left; apply rt_refl.
  - destruct I1 as [I1|[I1 J1]], I2 as [I2|[I2 J2]].
    + left. eapply rt_trans; eassumption.
    + right. split; [eapply rt_trans; eassumption|assumption].
    + right. split; [assumption|eapply rt_trans; eassumption].
    + right. split; assumption.
Qed.
Lemma add_edge_acyclic (R S : name -> name -> Prop) a b :
  (forall x y, S x y <-> R x y \/ (x = a /\ y = b)) -> (forall v, ~ clos_trans _ R v v) ->
  ((forall v, ~ clos_trans _ S v v) <-> ~ clos_refl_trans _ R b a).
Proof.
  intros HS A. split.
  - intros AS H. apply (AS a). eapply tc_rt_tc; [apply t_step; apply HS; right; split; reflexivity|].
    eapply clos_rt_incl; [|exact H]. intros x y K. apply HS. now left.
  - intros N v T. apply tc_first in T as (w & Hw & Hv).
    destruct (add_edge_path R S a b w v HS Hv) as [Hv'|[H1 H2]].
    + apply HS in Hw as [Hw|[-> ->]]; [|contradiction]. apply (A v).
      eapply tc_rt_tc; [apply t_step; exact Hw|exact Hv'].
    + apply HS in Hw as [Hw|[-> ->]]; [|contradiction]. apply N. eapply rt_trans; [exact H2|].
      eapply rt_trans; [apply rt_step; exact Hw|exact H1].
Qed.
